(** What is handed over by a sled store that is in use. *)
From Coq Require Import Arith NArith List Bool Sorted Lia.
From Verif Require Import Bytes BytesFacts OMap OMapFacts Core IdType IdTypeFacts Store Mem Spec
  CodecFacts ListFacts MemFacts MemSim History MemTop Prog ProgFacts Sled SledHistory SledDb SledOps SledBulk SledRead SledTables
  SledAny SledRun SledTop SledLeaf SledLeafFacts SledLazy SledBeside SledRely SledOwn SledOwnOps SledBesideTop SledReaders SledReadTop SledCopy.
Import ListNotations.

Section Feed.
Context {H EL ER A : Type} (f : A -> H -> result EL unit * H).

Lemma feed_app (xs ys : list (result ER A)) : forall h h', feed f xs h = (Ok tt, h') -> feed f (xs ++ ys) h = feed f ys h'.
Proof.
  induction xs as [|[a|e] xs IH]; simpl; intros h h' E; [now injection E as ->| |discriminate].
  destruct (f a h) as [[[]|e] h1]; [auto|discriminate].
Qed.
Lemma feed_ok (xs : list (result ER A)) : forall h h', feed f xs h = (Ok tt, h') -> forall x, ~ In (Err x) xs.
Proof.
  induction xs as [|[a|e] xs IH]; simpl; intros h h' E x; [auto| |discriminate].
  destruct (f a h) as [[[]|e] h1]; [|discriminate]. intros [|Hin]; [discriminate|]. eapply IH; eauto.
Qed.
End Feed.

(** ** A loop whose body does not touch the database *)
Section Loop.
Context {D SE err W : Type} (cur : W -> db) (proj : D -> db) (here : W -> D) (ext : W -> W -> Prop).
Context (Hcur : forall w, cur w = proj (here w)).
Context (ext_refl : forall w, ext w w) (ext_trans : forall a b c, ext a b -> ext b c -> ext a c).
Context (F : SE -> Prop) {H EL A : Type} (f : A -> H -> result EL unit * H).
Notation PR A := (prog D SE (result err A)).
Notation rg := (rg here ext F).
Context (V : bytes * bytes -> result err A -> W -> Prop).
Context (HV : forall x y w1 w2, ext w1 w2 -> V x y w1 -> V x y w2).

Lemma rg_leaf (item : bytes * bytes -> PR A) rest (Q : result (lr_error EL err) unit * H -> W -> Prop) kvs : forall h w,
  (forall kv w', In kv kvs -> ext w w' -> rg (V kv) (item kv) w') ->
  (forall h' w' xs, ext w w' -> Forall2 (fun kv x => V kv x w') kvs xs -> feed f xs h = (Ok tt, h') -> rg Q (rest h') w') ->
  (forall ah w' xs l1 l2, ext w w' -> kvs = l1 ++ l2 -> Forall2 (fun kv x => V kv x w') l1 xs -> ah = feed f xs h ->
     fst ah <> Ok tt -> ((forall e, fst ah <> Err (RightE e)) -> forall x, ~ In (Err x) xs) -> Q ah w') ->
  rg Q (leaf_loop item (fun a h => Ret (f a h)) rest kvs h) w.
Proof.
  induction kvs as [|kv kvs IH]; intros h w Hi Hr He; cbn [leaf_loop].
  - apply (Hr h w []); auto.
  - apply rg_bind. eapply rg_mono; [exact ext_refl|exact ext_trans| |apply Hi; simpl; auto]. cbv beta.
    intros [a|e] w1 H1 Hv; cbn [Prog.bind].
    + destruct (f a h) as [[[]|e] h1] eqn:Ef; cbn [fst snd].
      * apply IH.
        -- intros kv' w2 Hin H2. apply Hi; [simpl; auto|]. eauto.
        -- intros h2 w2 xs H2 Hxs E. apply (Hr h2 w2 (Ok a :: xs)); [eauto|constructor; eauto|]. simpl. now rewrite Ef.
        -- intros ah w2 xs l1 l2 H2 -> Hxs -> N Ne.
           apply (He _ w2 (Ok a :: xs) (kv :: l1) l2); [eauto|reflexivity|constructor; eauto| |exact N|]; [simpl; now rewrite Ef|].
           intros Hr' x [[=]|Hin]. exact (Ne Hr' x Hin).
      * apply (He _ w1 [Ok a] [kv] kvs); [auto|reflexivity|constructor; auto| |discriminate|]; [simpl; now rewrite Ef|].
        intros _ x [[=]|[]].
    + apply (He _ w1 [Err e] [kv] kvs); [auto|reflexivity|constructor; auto|reflexivity|discriminate|].
      intros Hr'. destruct (Hr' e). reflexivity.
Qed.

(** The scan has come as far as [key]. *)
Definition reached (ok : Prop) (L : list (bytes * bytes)) (key : bytes) : Prop :=
  ok \/ exists kv, In kv L /\ bytes_cmp key (fst kv) <> Gt.
Definition scanned_to (ok : Prop) (entries : db -> list (bytes * bytes)) (lo : option bytes) (w w' : W) (L : list (bytes * bytes)) : Prop :=
  forall key, not_before lo key = true -> reached ok L key ->
    exists d, between cur ext w w' d /\ forall v, In (key, v) L <-> In (key, v) (entries d).

Definition looped (entries : db -> list (bytes * bytes)) (lo : option bytes) (w : W) (h : H)
    (ah : result (lr_error EL err) unit * H) (w' : W) : Prop :=
  exists L xs, ah = feed f xs h /\ Forall2 (fun kv x => V kv x w') L xs /\ StronglySorted key_below L /\
    (forall kv, In kv L -> not_before lo (fst kv) = true) /\ (fst ah = Ok tt -> scanned cur ext entries lo w w' L) /\
    scanned_to (fst ah = Ok tt) entries lo w w' L /\ ((forall e, fst ah <> Err (RightE e)) -> forall x, ~ In (Err x) xs).

Lemma sorted_first (l1 l2 : list (bytes * bytes)) : StronglySorted key_below (l1 ++ l2) -> StronglySorted key_below l1.
Proof.
  induction l1 as [|x l1 IH]; simpl; intros Hs; [constructor|]. inversion Hs; subst. constructor; auto.
  apply Forall_forall. intros y Hy. eapply Forall_forall in H3; [exact H3|]. apply in_app_iff. auto.
Qed.

(** A leaf read in part. *)
Lemma part_scanned (ok : Prop) (entries : db -> list (bytes * bytes)) lo hi w w1 w' l1 l2 : om_sorted bytes_cmp (entries (cur w1)) ->
  ext w w1 -> ext w1 w' -> ~ ok -> piece lo hi (entries (cur w1)) = l1 ++ l2 -> scanned_to ok entries lo w w' l1.
Proof.
  intros Hs H1 H2 N E key Hk [Hok|(kv & Hin & Hle)]; [contradiction|]. exists (cur w1). split; [exists w1; auto|]. intros v.
  assert (In kv (piece lo hi (entries (cur w1)))) as Hkv by (rewrite E; apply in_app_iff; auto). apply piece_in in Hkv.
  split; intros Hv.
  - assert (In (key, v) (piece lo hi (entries (cur w1)))) as Hp by (rewrite E; apply in_app_iff; auto). apply piece_in in Hp. tauto.
  - assert (In (key, v) (piece lo hi (entries (cur w1)))) as Hp.
    { apply piece_in. simpl fst. split; auto. split; auto. apply before_spec. intros c ->. destruct Hkv as (_ & _ & Hb).
      rewrite before_spec in Hb. specialize (Hb c eq_refl). eapply le_lt; eauto. }
    rewrite E in Hp. apply in_app_iff in Hp. destruct Hp as [Hp|Hp]; auto. exfalso.
    pose proof (piece_sorted lo hi (entries (cur w1)) Hs) as Hss. rewrite E in Hss.
    assert (forall x y, In x l1 -> In y l2 -> key_below x y) as Hlt.
    { clear - Hss. induction l1 as [|z l1 IH]; simpl; intros x y Hx Hy; [destruct Hx|]. apply StronglySorted_inv in Hss.
      destruct Hss as [Hss Hf]. destruct Hx as [<-|Hx]; [|auto]. eapply Forall_forall in Hf; [exact Hf|]. apply in_app_iff. auto. }
    specialize (Hlt kv (key, v) Hin Hp). unfold key_below in Hlt. simpl in Hlt. apply not_gt in Hle. congruence.
Qed.

Lemma whole_scanned (ok : Prop) (entries : db -> list (bytes * bytes)) lo w w' L : scanned cur ext entries lo w w' L -> scanned_to ok entries lo w w' L.
Proof. intros (_ & _ & H3) key Hk _. now apply H3. Qed.

Lemma cons_scanned (ok : Prop) (entries : db -> list (bytes * bytes)) lo c w w1 w2 w' L : om_sorted bytes_cmp (entries (cur w1)) ->
  ext w w1 -> ext w1 w2 -> ext w2 w' -> (forall kv, In kv L -> not_before (Some (later lo c)) (fst kv) = true) ->
  scanned_to ok entries (Some (later lo c)) w2 w' L -> scanned_to ok entries lo w w' (piece lo (Some c) (entries (cur w1)) ++ L).
Proof.
  intros Hs H1 H2 H2' L2 L3 key Hk Hr. destruct (before (Some c) key) eqn:Hb.
  - exists (cur w1). split; [exists w1; repeat split; eauto|]. intros v. rewrite in_app_iff, piece_in. simpl fst.
    split; [|tauto]. intros [H'|H']; [tauto|]. apply L2 in H'. rewrite later_spec in H'. simpl fst in H'. rewrite Hb in H'.
    rewrite andb_false_r in H'. discriminate.
  - assert (not_before (Some (later lo c)) key = true) as Hk' by now rewrite later_spec, Hk, Hb.
    destruct (L3 key Hk') as (d & Hd & Hiff).
    + destruct Hr as [Hr|(kv & Hin & Hle)]; [now left|]. right. exists kv. split; auto.
      apply in_app_iff in Hin. destruct Hin as [Hin|Hin]; auto. exfalso. apply piece_in in Hin. destruct Hin as (_ & _ & Hin).
      rewrite before_spec in Hin. specialize (Hin c eq_refl). assert (bytes_cmp key c = Lt) as Hlt by (eapply le_lt; eauto).
      assert (before (Some c) key = true); [|congruence]. apply before_spec. intros c' [= <-]. exact Hlt.
    + exists d. split; [eapply between_wider; eauto|].
      intros v. rewrite in_app_iff, piece_in. simpl fst. rewrite Hb, Hiff. intuition congruence.
Qed.

Lemma rg_loop_at (entries : db -> list (bytes * bytes)) (item : bytes * bytes -> PR A) cuts : forall lo h w,
  (forall w', om_sorted bytes_cmp (entries (cur w'))) ->
  (forall kv w1 w2, ext w w1 -> In kv (entries (cur w1)) -> ext w1 w2 -> rg (V kv) (item kv) w2) ->
  rg (looped entries lo w h) (loop_from (fun d => entries (proj d)) item (fun a h => Ret (f a h)) lo cuts h) w.
Proof.
  induction cuts as [|c cuts IH]; intros lo h w Hs Hf; cbn [loop_from SledRely.rg]; intros w1 H1; rewrite <- (Hcur w1); apply rg_leaf.
  - intros kv w2 Hin H2. apply piece_in in Hin. eapply Hf; eauto. tauto.
  - intros h' w2 xs H2 Hxs E. cbn [SledRely.rg]. exists (piece lo None (entries (cur w1))), xs.
    pose proof (scanned_last cur ext entries lo w w1 w2 (Hs w1) H1 H2) as Hsc. split; auto. split; auto. split; [apply Hsc|].
    split; [apply Hsc|]. split; auto. split; [now apply whole_scanned|]. intros _. eapply feed_ok; eauto.
  - intros ah w2 xs l1 l2 H2 E Hxs -> N Ne. exists l1, xs. split; auto. split; auto. split; [|split; [|split; [|split]]].
    + eapply sorted_first. rewrite <- E. now apply piece_sorted.
    + intros kv Hin. assert (In kv (piece lo None (entries (cur w1)))) as Hp by (rewrite E; apply in_app_iff; auto).
      apply piece_in in Hp. tauto.
    + intros E'. contradiction.
    + eapply part_scanned; eauto.
    + exact Ne.
  - intros kv w2 Hin H2. apply piece_in in Hin. eapply Hf; eauto. tauto.
  - intros h' w2 xs H2 Hxs E. eapply rg_mono; [exact ext_refl|exact ext_trans| |apply (IH (Some (later lo c)) h' w2)]; auto.
    + intros ah w3 H3 (L & ys & -> & Hys & L1 & L2 & L3 & L4 & L5).
      assert (forall kv, In kv L -> not_before lo (fst kv) = true /\ bytes_cmp (fst kv) c <> Lt) as L2'.
      { intros kv Hin. specialize (L2 kv Hin). rewrite later_spec in L2. apply andb_prop in L2. destruct L2 as [L2 Lb]. split; auto.
        simpl in Lb. destruct (bytes_cmp (fst kv) c); simpl in Lb; congruence. }
      exists (piece lo (Some c) (entries (cur w1)) ++ L), (xs ++ ys). split; [symmetry; now apply feed_app|]. split; [|split; [|split; [|split; [|split]]]].
      * apply Forall2_app; auto. clear - HV H3 Hxs. induction Hxs; constructor; eauto.
      * apply sorted_app_lt; auto; [now apply piece_sorted|]. intros x y Hx Hy. apply piece_in in Hx.
        destruct Hx as (_ & _ & Hx). rewrite before_spec in Hx. specialize (Hx c eq_refl). destruct (L2' y Hy) as [_ Hy'].
        unfold key_below. eapply lt_le; [exact Hx|]. apply not_gt. exact Hy'.
      * intros kv Hin. apply in_app_iff in Hin. destruct Hin as [Hin|Hin]; [apply piece_in in Hin; tauto|]. now apply L2'.
      * intros E'. eapply scanned_cons; eauto.
      * eapply cons_scanned; eauto.
      * intros Ne x Hin. apply in_app_iff in Hin. destruct Hin as [Hin|Hin]; [eapply feed_ok; eauto|exact (L5 Ne x Hin)].
    + intros kv w3 w4 H3 Hin H4. eapply Hf; [|exact Hin|exact H4]. eauto.
  - intros ah w2 xs l1 l2 H2 E Hxs -> N Ne. exists l1, xs. split; auto. split; auto. split; [|split; [|split; [|split]]].
    + eapply sorted_first. rewrite <- E. now apply piece_sorted.
    + intros kv Hin. assert (In kv (piece lo (Some c) (entries (cur w1)))) as Hp by (rewrite E; apply in_app_iff; auto).
      apply piece_in in Hp. tauto.
    + intros E'. contradiction.
    + eapply part_scanned; eauto.
    + exact Ne.
Qed.
End Loop.

(** On the trees themselves. *)
Lemma rg_loop_from {SE err W : Type} (cur : W -> db) (ext : W -> W -> Prop) (ext_refl : forall w, ext w w)
    (ext_trans : forall a b c, ext a b -> ext b c -> ext a c) (F : SE -> Prop) {H EL A : Type} (f : A -> H -> result EL unit * H)
    (V : bytes * bytes -> result err A -> W -> Prop) (HV : forall x y w1 w2, ext w1 w2 -> V x y w1 -> V x y w2)
    (entries : db -> list (bytes * bytes)) (item : bytes * bytes -> prog db SE (result err A)) cuts lo h w :
  (forall w', om_sorted bytes_cmp (entries (cur w'))) ->
  (forall kv w1 w2, ext w w1 -> In kv (entries (cur w1)) -> ext w1 w2 -> rg cur ext F (V kv) (item kv) w2) ->
  rg cur ext F (looped cur ext f V entries lo w h) (loop_from entries item (fun a h => Ret (f a h)) lo cuts h) w.
Proof. exact (rg_loop_at cur (fun d => d) cur ext (fun _ => eq_refl) ext_refl ext_trans F f V HV entries item cuts lo h w). Qed.

(** ** The nodes and then the edges *)
Section Both.
Context {k : idkind} {NP EP SE BE : Type} (cn : codec BE NP) (ce : codec BE EP) (keep : triple (Id k) -> Prop) (F : SE -> Prop).
Notation I := (Id k).
Notation T := (triple (Id k)).
Notation err := (sled_error SE BE).
Notation st := (st (k := k) cn ce keep).
Notation s_now := (s_now (k := k) cn ce keep).
Notation s_past := (s_past (k := k) cn ce keep).
Notation ext := (ext (k := k) cn ce keep).
Notation rg := (rg s_now ext F).
Notation ext_refl := (ext_refl (k := k) cn ce keep).
Notation ext_trans := (ext_trans (k := k) cn ce keep).
Notation node_out := (node_out cn ce keep F).
Notation edge_out := (edge_out cn ce keep F).
Context {H EL : Type} (fn : I * NP -> H -> result EL unit * H) (fe : T * EP -> H -> result EL unit * H).

Lemma feed_complete {A} (f : A -> H -> result EL unit * H) (xs : list (result err A)) h : fst (feed f xs h) = Ok tt ->
  forall x, ~ In (Err x) xs.
Proof. destruct (feed f xs h) as [r h'] eqn:E. simpl. intros ->. eapply feed_ok; eauto. Qed.

Lemma nodes_looped w h ah w' : looped s_now ext fn node_out t_node None w h ah w' ->
  exists xs, ah = feed fn xs h /\ (forall i p, In (Ok (i, p)) xs -> was_node (SE := SE) cn ce keep w' i p) /\
    StronglySorted id_lt (map fst (ok_items xs)) /\ (forall x, In (Err x) xs -> fault F x) /\
    (fst ah = Ok tt -> forall i, (forall d, In d (s_past w') -> exists p, lists_node SE cn d i p) -> exists p, In (Ok (i, p)) xs).
Proof.
  intros (L & xs & -> & Hxs & Hs & _ & Hc & _). exists xs. split; auto. split; [|split; [|split]].
  - intros i p Hin. destruct (forall2_in_r _ _ _ _ Hxs Hin) as (kv & _ & Ho). apply Ho.
  - eapply node_read_sorted; eauto.
  - intros x Hin. destruct (forall2_in_r _ _ _ _ Hxs Hin) as (kv & _ & Ho). apply Ho.
  - intros E i Hi. destruct (nodes_scanned cn ce keep F w w' L xs (Hc E) Hxs) as (_ & _ & _ & H4).
    destruct (H4 i Hi) as [Hin|[x Hin]]; [|destruct (feed_complete _ _ _ E _ Hin)].
    apply in_map_iff in Hin. destruct Hin as ([j p] & <- & Hin). apply ok_items_in in Hin. exists p. exact Hin.
Qed.

Lemma edges_looped w h ah w' : looped s_now ext fe (edge_out SPO) t_spo None w h ah w' ->
  exists xs, ah = feed fe xs h /\ (forall t e, In (Ok (t, e)) xs -> was_edge (SE := SE) cn ce keep SPO w' t e) /\
    StronglySorted (edge_lt SPO) (map fst (ok_items xs)) /\
    (forall x, In (Err x) xs -> (x = MissingPropertyData /\ exists t, ~ keep t) \/ fault F x) /\
    (fst ah = Ok tt -> forall t, (forall d, In d (s_past w') -> exists e, lists_edge SE ce SPO d t e) -> exists e, In (Ok (t, e)) xs).
Proof.
  intros (L & xs & -> & Hxs & Hs & _ & Hc & _). exists xs. split; auto. split; [|split; [|split]].
  - intros t e Hin. destruct (forall2_in_r _ _ _ _ Hxs Hin) as (kv & _ & Ho). apply Ho.
  - eapply read_sorted; eauto.
  - intros x Hin. destruct (forall2_in_r _ _ _ _ Hxs Hin) as (kv & _ & Ho). destruct Ho as [[-> (t & _ & Hk)]|Ho]; eauto.
  - intros E t Ht. destruct (edges_scanned cn ce keep F SPO w w' L xs (Hc E) Hxs) as (_ & _ & _ & H4).
    destruct (H4 t Ht) as [Hin|(x & Hin & _)]; [|destruct (feed_complete _ _ _ E _ Hin)].
    apply in_map_iff in Hin. destruct Hin as ([j p] & <- & Hin). apply ok_items_in in Hin. exists p. exact Hin.
Qed.

(** What has been handed over, in a world. *)
Definition took (h : H) (ah : result (lr_error EL err) unit * H) (w : st) : Prop :=
  exists s : source k NP EP err, ah = feed_both fn fe s h /\
  (forall i p, In (Ok (i, p)) (src_nodes s) -> was_node (SE := SE) cn ce keep w i p) /\
  (forall t e, In (Ok (t, e)) (src_edges s) -> was_edge (SE := SE) cn ce keep SPO w t e) /\
  StronglySorted id_lt (map fst (ok_items (src_nodes s))) /\
  StronglySorted (edge_lt SPO) (map fst (ok_items (src_edges s))) /\
  (forall x, In (Err x) (src_nodes s) -> fault F x) /\
  (forall x, In (Err x) (src_edges s) -> (x = MissingPropertyData /\ exists t, ~ keep t) \/ fault F x) /\
  (fst ah = Ok tt -> (forall i, (forall d, In d (s_past w) -> exists p, lists_node SE cn d i p) -> exists p, In (Ok (i, p)) (src_nodes s)) /\
    (forall t, (forall d, In d (s_past w) -> exists e, lists_edge SE ce SPO d t e) -> exists e, In (Ok (t, e)) (src_edges s))).

Lemma took_later h ah w w' : ext w w' -> took h ah w -> took h ah w'.
Proof.
  intros Hx (s & E & H1 & H2 & H3 & H4 & H5 & H6 & H7). exists s. split; auto. split; [|split; [|split; [|split; [|split; [|split]]]]]; auto.
  - intros i p Hin. eapply was_node_later; eauto.
  - intros t e Hin. eapply was_edge_later; eauto.
  - intros E'. destruct (H7 E') as [A B]. split.
    + intros i Hi. apply A. intros d Hd. apply Hi. now apply Hx.
    + intros t Ht. apply B. intros d Hd. apply Ht. now apply Hx.
Qed.

Lemma rg_take cuts cuts' h w : rg (took h) (take_over cn ce fn fe cuts cuts' h) w.
Proof.
  unfold take_over, loop_both. apply rg_bind.
  eapply rg_mono; [exact ext_refl|exact ext_trans| |apply (rg_loop_from s_now ext ext_refl ext_trans F fn node_out)].
  - cbv beta. intros [r h1] w1 H1 Hn. destruct (nodes_looped _ _ _ _ Hn) as (xs & E & A1 & A2 & A3 & A4). cbn [fst snd] in *.
    destruct r as [[]|e]; cbn [fst snd].
    + eapply rg_mono; [exact ext_refl|exact ext_trans| |apply (rg_loop_from s_now ext ext_refl ext_trans F fe (edge_out SPO))].
      * intros ah w2 H2 He. destruct (edges_looped _ _ _ _ He) as (ys & E2 & B1 & B2 & B3 & B4).
        exists (Source xs ys). unfold feed_both. cbn [src_nodes src_edges]. rewrite <- E.
        split; auto. split; [|split; [|split; [|split; [|split; [|split]]]]]; auto.
        -- intros i p Hin. eapply was_node_later; eauto.
        -- intros E'. split; [|auto]. intros i Hi. apply A4; auto. intros d Hd. apply Hi. now apply H2.
      * intros; eapply edge_out_later; eauto.
      * intros w'. exact (sn_order _ _ _ _ _ (s_sane _ _ _ w') (tab SPO)).
      * intros [key r] w2 w3 _ Hin Hx. exact (rg_edge_item cn ce keep F SPO key r w2 w3 Hin Hx).
    + exists (Source xs []). unfold feed_both. cbn [src_nodes src_edges]. rewrite <- E.
      split; auto. split; [|split; [|split; [|split; [|split; [|split]]]]]; auto; try (intros; simpl in *; tauto); [constructor|discriminate].
  - intros; eapply node_out_later; eauto.
  - intros w'. exact (sn_order _ _ _ _ _ (s_sane _ _ _ w') TNode).
  - intros [key b] w1 w2 _ Hin Hx. exact (rg_node_item cn ce keep F key b w1 w2 Hin Hx).
Qed.
End Both.

(** ** From the first database to the last *)
Lemma taken_beside : forall k NP EP SE BE E H EL (cn : codec BE NP) (ce : codec BE EP) mn me
    (fn : Id k * NP -> H -> result EL unit * H) (fe : triple (Id k) * EP -> H -> result EL unit * H)
    (ls : list (life (k := k) (NP := NP) (EP := EP) (SE := SE) (E := E)))
    (cs : list (handle k * list (op k NP EP E))) (wcuts : nat -> nat -> cutting) (cuts cuts' : list bytes)
    (schedule : list (nat * option SE)) (h : H) a h',
  codec_ok cn -> codec_ok ce -> NoDup (life_keys ls ++ session_keys cs) ->
  let d := lives cn ce mn me ls db_new in
  let ps := beside (take_over cn ce fn fe cuts cuts' h) (l_callers cn ce mn me wcuts 0 cs) in
  has_read (a, h') (fst (interleave schedule ps d)) ->
  exists s, (a, h') = feed_both fn fe s h /\ handed cn ce schedule ps d cs s /\ (a = Ok tt -> complete cn ce schedule ps d s).
Proof.
  intros k NP EP SE BE E H EL cn ce mn me fn fe ls cs wcuts cuts cuts' schedule h a h' Hn He Hd d ps Hx.
  destruct (beside_reads (k := k) cn ce (fun t => ~ rewritten cs t) Hn He mn me _
    (fun F => took cn ce (fun t => ~ rewritten cs t) F fn fe h) ls cs wcuts schedule Hd (adds_spared _)
    (fun F a w1 w2 => took_later cn ce (fun t => ~ rewritten cs t) F fn fe h a w1 w2)
    (fun F w => rg_take cn ce (fun t => ~ rewritten cs t) F fn fe cuts cuts' h w) _ Hx) as (w & Hw & Hp).
  fold d ps in Hp. destruct Hw as (s & Es & H1 & H2 & H3 & H4 & H5 & H6 & H7). exists s. split; auto. split.
  - split; [|split; [|split; [|split; [|split]]]]; auto.
    + intros i p Hin. destruct (H1 i p Hin) as (d1 & D1 & L1). exists d1. auto.
    + intros t e Hin. destruct (H2 t e Hin) as (d1 & D1 & L1). exists d1. auto.
    + intros x Hin. destruct (H6 x Hin) as [[-> [t Ht]]|Hf]; [|left; exact Hf].
      right. split; auto. exists t. now apply rewritten_not.
  - intros Ea. destruct (H7 Ea) as [A B]. split.
    + intros i Hi. apply A. intros d1 D1. now apply Hi, Hp.
    + intros t Ht. apply B. intros d1 D1. now apply Ht, Hp.
Qed.
