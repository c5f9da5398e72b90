(** What the readers return next to writers. *)
From Coq Require Import Arith NArith List Bool Sorted Lia.
From Verif Require Import Bytes BytesFacts OMap OMapFacts Core IdType IdTypeFacts Store Mem Spec
  CodecFacts ListFacts MemFacts MemSim History MemTop Prog ProgFacts Sled SledHistory SledDb SledOps SledBulk SledRead SledTables
  SledAny SledRun SledTop SledLeaf SledLeafFacts SledBeside SledRely SledOwn SledOwnOps SledBesideTop.
Import ListNotations.

Section Readers.
Context {k : idkind} {NP EP SE BE : Type} (cn : codec BE NP) (ce : codec BE EP) (keep : triple (Id k) -> Prop) (F : SE -> Prop).
Notation I := (Id k).
Notation T := (triple (Id k)).
Notation err := (sled_error SE BE).
Notation P A := (prog db SE A).
Notation PR A := (prog db SE (result err A)).
Notation sane := (sane (k := k) cn ce keep).
Notation st := (st (k := k) cn ce keep).
Notation s_now := (s_now (k := k) cn ce keep).
Notation s_past := (s_past (k := k) cn ce keep).
Notation s_used := (s_used (k := k) cn ce keep).
Notation ext := (ext (k := k) cn ce keep).
Notation rg := (rg s_now ext F).
Notation ext_refl := (ext_refl (k := k) cn ce keep).
Notation ext_trans := (ext_trans (k := k) cn ce keep).
Notation shown_edges o d := (now SE (s_iter_edges (k := k) (BE := BE) ce o) d).
Notation shown_nodes d := (now SE (s_iter_vertices (k := k) (BE := BE) cn) d).
Let BC := bytes_cmp_ok.

(** An edge or a vertex listed at some moment of the past. *)
Definition was_edge o (w : st) (t : T) (e : EP) : Prop := exists d, In d (s_past w) /\ In (Ok (t, e)) (shown_edges o d).
Definition was_node (w : st) (i : I) (p : NP) : Prop := exists d, In d (s_past w) /\ In (Ok (i, p)) (shown_nodes d).

Lemma was_edge_later o w w' t e : ext w w' -> was_edge o w t e -> was_edge o w' t e.
Proof. intros (_ & _ & H) (d & Hd & Hi). exists d. auto. Qed.
Lemma was_node_later w w' i p : ext w w' -> was_node w i p -> was_node w' i p.
Proof. intros (_ & _ & H) (d & Hd & Hi). exists d. auto. Qed.

Lemma shown_edge d o x : In x (shown_edges o d) <-> In x (map (edge_val ce d o) (idx o d)).
Proof. now rewrite (rds_now _ _ _ (rds_iter_edges ce never d o)). Qed.
Lemma shown_node d x : In x (shown_nodes d) <-> In x (map (vertex_val cn) (t_node d)).
Proof. now rewrite (rds_now _ _ _ (rds_iter_vertices cn never d)). Qed.

Lemma decode_enc o (t : T) : decode_key (SE := SE) (BE := BE) (dec o) (enc o t) = Ok t.
Proof.
  destruct (decode_key_spec (k := k) (SE := SE) (BE := BE) (dec o) (enc o t)) as [[_ ->]|[H _]]; [now rewrite dec_enc|].
  now rewrite enc_length in H.
Qed.

(** An entry met earlier and its record, read now. *)
Lemma edge_then o w1 w2 key r b : In (key, r) (idx o (s_now w1)) -> ext w1 w2 ->
  bget r (t_edge (s_now w2)) = Some b ->
  exists t e, key = enc o t /\ de ce b = Ok e /\ was_edge o w2 t e.
Proof.
  intros Hin Hx Hb. pose proof (s_sane _ _ _ w1) as Hs. destruct (sn_idx _ _ _ _ _ Hs o key r Hin) as (t & -> & Hu & _).
  destruct Hx as (X1 & X2 & X3). destruct (X2 r t Hu) as [E|[_ E]]; [|congruence]. rewrite Hb in E. symmetry in E.
  destruct (sn_rec _ _ _ _ _ Hs r t b Hu E) as [e He]. exists t, e. repeat split; auto.
  exists (s_now w1). split; [apply X3, s_in|]. rewrite shown_edge. apply in_map_iff. exists (enc o t, r). split; auto.
  unfold edge_val. cbn [fst snd]. rewrite decode_enc. simpl. rewrite E. simpl. now rewrite He.
Qed.
Lemma edge_gone o w1 w2 key r : In (key, r) (idx o (s_now w1)) -> ext w1 w2 ->
  bget r (t_edge (s_now w2)) = None -> exists t, key = enc o t /\ ~ keep t.
Proof.
  intros Hin Hx Hb. pose proof (s_sane _ _ _ w1) as Hs. destruct (sn_idx _ _ _ _ _ Hs o key r Hin) as (t & Ht & Hu & Hr).
  exists t. split; auto. intros Kp.
  destruct Hx as (X1 & X2 & X3). destruct (X2 r t Hu) as [E|[N _]]; [|tauto]. apply (Hr Kp). congruence.
Qed.
Lemma entry_key o w key r : In (key, r) (idx o (s_now w)) -> exists t : T, key = enc o t.
Proof. intros Hin. destruct (sn_idx _ _ _ _ _ (s_sane _ _ _ w) o key r Hin) as (t & H & _). exists t. exact H. Qed.

Definition fault (x : err) : Prop := exists y, F y /\ x = SledError y.

(** ** One entry of an iteration over the edges *)
Definition edge_out o (kv : bytes * bytes) (x : result err (T * EP)) (w : st) : Prop :=
  match x with
  | Ok te => fst kv = enc o (fst te) /\ was_edge o w (fst te) (snd te)
  | Err e => (e = MissingPropertyData /\ exists t, fst kv = enc o t /\ ~ keep t) \/ fault e
  end.
Lemma edge_out_later o kv x w w' : ext w w' -> edge_out o kv x w -> edge_out o kv x w'.
Proof. intros H. destruct x as [[t e]|e]; simpl; auto. intros [H1 H2]. split; auto. eapply was_edge_later; eauto. Qed.

Lemma rg_edge_item o key r w1 w2 : In (key, r) (idx o (s_now w1)) -> ext w1 w2 ->
  rg (edge_out o (key, r)) (next (bind_ok (Ret (decode_key (dec o) key)) (fun t => edge_item ce t r)) : PR (T * EP)) w2.
Proof.
  intros Hin Hx w3 H3. split; auto. split; [|intros x Hf; right; exists x; auto].
  destruct (entry_key _ _ _ _ Hin) as [t ->]. unfold bind_ok. cbn [Prog.bind]. rewrite decode_enc.
  intros w4 H4. split; auto. split; [|intros x Hf; right; exists x; auto].
  assert (ext w1 w4) as H14 by (eapply ext_trans; [|exact H4]; eapply ext_trans; eauto).
  cbn [Prog.bind tbl]. destruct (bget r (t_edge (s_now w4))) as [b|] eqn:Hb; cbn [opt_de].
  - destruct (edge_then o w1 w4 _ _ b Hin H14 Hb) as (t' & e & Ht & He & Hw). apply enc_inj in Ht. subst t'.
    unfold bincode, bind_ok. cbn [Prog.bind]. rewrite He. simpl. split; auto.
  - simpl. left. split; auto. eapply edge_gone; eauto.
Qed.

(** The listed edges, as the reader returns them. *)
Definition edges_read o (xs : list (result err (T * EP))) (w : st) : Prop :=
  (forall t e, In (Ok (t, e)) xs -> was_edge o w t e) /\
  StronglySorted (edge_lt o) (map fst (ok_items xs)) /\
  (forall x, In (Err x) xs -> (x = MissingPropertyData /\ exists t, ~ keep t) \/ fault x) /\
  (forall t, (forall d, In d (s_past w) -> exists e, In (Ok (t, e)) (shown_edges o d)) ->
     In t (map fst (ok_items xs)) \/ exists x, In (Err x) xs /\ ((x = MissingPropertyData /\ ~ keep t) \/ fault x)).

Lemma forall2_in_l {A B} (R : A -> B -> Prop) l l' a : Forall2 R l l' -> In a l -> exists b, In b l' /\ R a b.
Proof.
  induction 1 as [|x y l l' H _ IH]; intros []; [subst; exists y; simpl; auto|].
  destruct (IH H0) as (b & Hb & Hr). exists b. simpl. auto.
Qed.
Lemma forall2_in_r {A B} (R : A -> B -> Prop) l l' b : Forall2 R l l' -> In b l' -> exists a, In a l /\ R a b.
Proof.
  induction 1 as [|x y l l' H _ IH]; intros []; [subst; exists x; simpl; auto|].
  destruct (IH H0) as (a & Ha & Hr). exists a. simpl. auto.
Qed.

Lemma ok_items_in {X A} (l : list (result X A)) a : In a (ok_items l) <-> In (Ok a) l.
Proof.
  unfold ok_items. rewrite filter_map_in. split.
  - intros ([b|e] & Hin & H); [injection H as ->; exact Hin|discriminate].
  - intros H. exists (Ok a). auto.
Qed.

Lemma read_sorted o L (xs : list (result err (T * EP))) w : StronglySorted key_below L ->
  Forall2 (fun kv x => edge_out o kv x w) L xs -> StronglySorted (edge_lt o) (map fst (ok_items xs)).
Proof.
  intros HL H. induction H as [|kv x L xs Hx H IH]; [constructor|].
  inversion HL; subst. specialize (IH H2). destruct x as [[t e]|er]; [|exact IH].
  change (StronglySorted (edge_lt o) (t :: map fst (ok_items xs))). constructor; auto.
  apply Forall_forall. intros u Hu. apply in_map_iff in Hu. destruct Hu as ([u' e'] & <- & Hu). simpl.
  apply ok_items_in in Hu. destruct (forall2_in_r _ _ _ _ H Hu) as (kv' & Hin & Ho).
  eapply Forall_forall in H3; [|exact Hin]. unfold key_below in H3. simpl in Hx, Ho.
  destruct Hx as [Hx _], Ho as [Ho _]. rewrite Hx, Ho in H3. now apply enc_lt in H3.
Qed.

Lemma edges_scanned o w w' L (xs : list (result err (T * EP))) : scanned s_now ext (fun d => idx o d) None w w' L ->
  Forall2 (fun kv x => edge_out o kv x w') L xs -> edges_read o xs w'.
Proof.
  intros HL Hxs. split; [|split; [|split]].
  - intros t e Hin. destruct (forall2_in_r _ _ _ _ Hxs Hin) as (kv & _ & Ho). apply Ho.
  - eapply read_sorted; [apply HL|exact Hxs].
  - intros x Hin. destruct (forall2_in_r _ _ _ _ Hxs Hin) as (kv & _ & Ho). destruct Ho as [[-> (t & _ & Hk)]|Ho]; eauto.
  - intros t Ht. destruct HL as (_ & _ & HL). destruct (HL (enc o t) eq_refl) as (d & Hd & Hiff).
    destruct (Ht d (between_past _ _ _ _ _ _ Hd)) as [e He]. rewrite shown_edge in He.
    apply in_map_iff in He. destruct He as ([key r] & Hv & Hin).
    destruct Hd as (w1 & _ & _ & ->). destruct (entry_key _ _ _ _ Hin) as [t' ->].
    unfold edge_val in Hv. cbn [fst snd] in Hv. rewrite decode_enc in Hv. simpl in Hv.
    assert (t' = t) as ->.
    { destruct (get_de _ _) as [[p|]|]; simpl in Hv; congruence. }
    apply Hiff in Hin. destruct (forall2_in_l _ _ _ _ Hxs Hin) as ([[t1 e1]|x] & Hx & Ho).
    2:{ right. exists x. split; auto. destruct Ho as [[-> (t' & Ht' & Hk)]|Ho]; auto. cbn [fst] in Ht'. apply enc_inj in Ht'. subst t'. auto. }
    left. simpl in Ho. destruct Ho as [Ho _]. apply enc_inj in Ho. subst t1.
    apply in_map_iff. exists (t, e1). split; auto. now apply ok_items_in.
Qed.

Lemma rg_edges o w cuts : rg (edges_read o) (l_iter_edges ce cuts o : P (list (result err (T * EP)))) w.
Proof.
  assert (l_iter_edges ce cuts o = scan_from (fun d => idx o d)
    (fun kv => bind_ok (Ret (decode_key (dec o) (fst kv))) (fun t => edge_item ce t (snd kv))) None cuts
    :> P (list (result err (T * EP)))) as -> by (destruct o; reflexivity).
  eapply rg_mono; [exact ext_refl|exact ext_trans| |apply (rg_scan s_now ext ext_refl ext_trans F (edge_out o))].
  - cbv beta. intros xs w' Hw (L & HL & Hxs). eapply edges_scanned; eauto.
  - intros w'. exact (sn_order _ _ _ _ _ (s_sane _ _ _ w') (tab o)).
  - intros; eapply edge_out_later; eauto.
  - intros [key r] w1 w2 _ Hin Hx. now apply rg_edge_item with (w1 := w1).
Qed.

(** ** Vertices *)
Definition node_out (kv : bytes * bytes) (x : result err (I * NP)) (w : st) : Prop :=
  match x with
  | Ok ip => fst kv = to_be_bytes (fst ip) /\ was_node w (fst ip) (snd ip)
  | Err e => fault e
  end.
Lemma node_out_later kv x w w' : ext w w' -> node_out kv x w -> node_out kv x w'.
Proof. intros H. destruct x as [[i p]|e]; simpl; auto. intros [H1 H2]. split; auto. eapply was_node_later; eauto. Qed.

Lemma node_entry w key b : In (key, b) (t_node (s_now w)) ->
  exists i p, key = to_be_bytes i /\ de cn b = Ok p /\ was_node w i p.
Proof.
  intros Hin. destruct (sn_node _ _ _ _ _ (s_sane _ _ _ w) key b Hin) as (i & p & -> & Hp).
  exists i, p. repeat split; auto. exists (s_now w). split; [apply s_in|]. rewrite shown_node.
  apply in_map_iff. exists (to_be_bytes i, b). split; auto. unfold vertex_val. cbn [fst snd]. unfold decode_id.
  rewrite try_from_to_be_bytes. simpl. now rewrite Hp.
Qed.

Lemma decode_be (i : I) : decode_id (SE := SE) (BE := BE) (to_be_bytes i) = Ok i.
Proof. unfold decode_id. now rewrite try_from_to_be_bytes. Qed.

Lemma rg_node_item key b w1 w2 : In (key, b) (t_node (s_now w1)) -> ext w1 w2 ->
  rg (node_out (key, b)) (next (bind_ok (Ret (decode_id key)) (fun i =>
    bind_ok (bincode (de cn b)) (fun v => Ret (Ok (i, v))))) : PR (I * NP)) w2.
Proof.
  intros Hin Hx w3 H3. split; auto. split; [|intros x Hf; exists x; auto].
  destruct (node_entry _ _ _ Hin) as (i & p & -> & Hp & Hw). unfold bind_ok, bincode. cbn [Prog.bind].
  rewrite decode_be. cbn [Prog.bind]. rewrite Hp. simpl. split; auto.
  eapply was_node_later; [|exact Hw]. eapply ext_trans; eauto.
Qed.

Definition nodes_read (xs : list (result err (I * NP))) (w : st) : Prop :=
  (forall i p, In (Ok (i, p)) xs -> was_node w i p) /\
  StronglySorted id_lt (map fst (ok_items xs)) /\
  (forall x, In (Err x) xs -> fault x) /\
  (forall i, (forall d, In d (s_past w) -> exists p, In (Ok (i, p)) (shown_nodes d)) ->
     In i (map fst (ok_items xs)) \/ exists x, In (Err x) xs).

Lemma node_read_sorted L (xs : list (result err (I * NP))) w : StronglySorted key_below L ->
  Forall2 (fun kv x => node_out kv x w) L xs -> StronglySorted id_lt (map fst (ok_items xs)).
Proof.
  intros HL H. induction H as [|kv x L xs Hx H IH]; [constructor|].
  inversion HL; subst. specialize (IH H2). destruct x as [[i p]|er]; [|exact IH].
  change (StronglySorted id_lt (i :: map fst (ok_items xs))). constructor; auto.
  apply Forall_forall. intros u Hu. apply in_map_iff in Hu. destruct Hu as ([u' p'] & <- & Hu). simpl.
  apply ok_items_in in Hu. destruct (forall2_in_r _ _ _ _ H Hu) as (kv' & Hin & Ho).
  eapply Forall_forall in H3; [|exact Hin]. unfold key_below in H3. simpl in Hx, Ho.
  destruct Hx as [Hx _], Ho as [Ho _]. rewrite Hx, Ho, to_be_bytes_cmp in H3. now apply id_cmp_lt in H3.
Qed.

Lemma shown_node_key w i p : In (Ok (i, p)) (shown_nodes (s_now w)) -> exists b, In (to_be_bytes i, b) (t_node (s_now w)).
Proof.
  rewrite shown_node. intros H. apply in_map_iff in H. destruct H as ([key b] & Hv & Hin).
  destruct (sn_node _ _ _ _ _ (s_sane _ _ _ w) key b Hin) as (j & q & -> & Hq).
  unfold vertex_val in Hv. cbn [fst snd] in Hv. rewrite decode_be, Hq in Hv. simpl in Hv. injection Hv as -> ->. eauto.
Qed.

Lemma nodes_scanned w w' L (xs : list (result err (I * NP))) : scanned s_now ext t_node None w w' L ->
  Forall2 (fun kv x => node_out kv x w') L xs -> nodes_read xs w'.
Proof.
  intros HL Hxs. split; [|split; [|split]].
  - intros i p Hin. destruct (forall2_in_r _ _ _ _ Hxs Hin) as (kv & _ & Ho). apply Ho.
  - eapply node_read_sorted; [apply HL|exact Hxs].
  - intros x Hin. destruct (forall2_in_r _ _ _ _ Hxs Hin) as (kv & _ & Ho). apply Ho.
  - intros i Hi. destruct HL as (_ & _ & HL). destruct (HL (to_be_bytes i) eq_refl) as (d & Hd & Hiff).
    destruct (Hi d (between_past _ _ _ _ _ _ Hd)) as [p Hp]. destruct Hd as (w1 & _ & _ & ->).
    apply shown_node_key in Hp. destruct Hp as [b Hin].
    apply Hiff in Hin. destruct (forall2_in_l _ _ _ _ Hxs Hin) as ([[j q]|x] & Hx & Ho); [|eauto].
    left. simpl in Ho. destruct Ho as [Ho _]. apply to_be_bytes_inj in Ho. subst j.
    apply in_map_iff. exists (i, q). split; auto. now apply ok_items_in.
Qed.

Lemma rg_nodes w cuts : rg nodes_read (l_iter_vertices cn cuts : P (list (result err (I * NP)))) w.
Proof.
  eapply rg_mono; [exact ext_refl|exact ext_trans| |apply (rg_scan s_now ext ext_refl ext_trans F node_out)].
  - cbv beta. intros xs w' Hw (L & HL & Hxs). eapply nodes_scanned; eauto.
  - intros w'. exact (sn_order _ _ _ _ _ (s_sane _ _ _ w') TNode).
  - intros; eapply node_out_later; eauto.
  - intros [key b] w1 w2 _ Hin Hx. now apply rg_node_item with (w1 := w1).
Qed.

(** The vertices, collected *)
Definition vertex_out (kv : bytes * bytes) (x : result err I) (w : st) : Prop :=
  match x with
  | Ok i => fst kv = to_be_bytes i /\ exists p, was_node w i p
  | Err e => fault e
  end.
Lemma vertex_out_later kv x w w' : ext w w' -> vertex_out kv x w -> vertex_out kv x w'.
Proof. intros H. destruct x as [i|e]; simpl; auto. intros [H1 [p Hp]]. split; auto. exists p. eapply was_node_later; eauto. Qed.
Definition vertices_read (r : result err (list I)) (w : st) : Prop :=
  match r with
  | Err e => fault e
  | Ok is => (forall i, In i is -> exists p, was_node w i p) /\ StronglySorted id_lt is /\
      (forall i, (forall d, In d (s_past w) -> exists p, In (Ok (i, p)) (shown_nodes d)) -> In i is)
  end.
Lemma vertices_read_later r w w' : ext w w' -> vertices_read r w -> vertices_read r w'.
Proof.
  intros H. destruct r as [is|e]; simpl; auto. intros (H1 & H2 & H3). split; [|split; auto].
  - intros i Hi. destruct (H1 i Hi) as [p Hp]. exists p. eapply was_node_later; eauto.
  - intros i Hi. apply H3. intros d Hd. apply Hi. now apply H.
Qed.
Lemma collected {X A} (l : list (result X A)) : match collect_result (fun r => r) l with
  | Ok is => l = map Ok is | Err e => In (Err e) l end.
Proof.
  induction l as [|[a|e] l IH]; simpl; auto. destruct (collect_result (fun r => r) l); simpl; [now rewrite IH|auto].
Qed.
Lemma rg_vertices w cuts : rg vertices_read (l_vertices cuts : PR (list I)) w.
Proof.
  unfold l_vertices. apply rg_bind.
  eapply rg_mono; [exact ext_refl|exact ext_trans| |apply (rg_scan s_now ext ext_refl ext_trans F vertex_out)].
  - cbv beta. intros rs w' Hw (L & HL & Hxs). simpl. pose proof (collected rs) as Hc.
    destruct (collect_result (fun r => r) rs) as [is|e].
    + subst rs. split; [|split].
      * intros i Hi. destruct (forall2_in_r _ _ _ (Ok i) Hxs (in_map _ _ _ Hi)) as (kv & _ & Ho). apply Ho.
      * destruct HL as (HL & _ & _). clear - HL Hxs. remember (map Ok is) as xs eqn:E. revert is E.
        induction Hxs as [|kv x L xs Hx H IH]; intros [|i is] [=]; [constructor|]. subst. inversion HL; subst.
        constructor; [now apply IH|]. apply Forall_forall. intros j Hj.
        destruct (forall2_in_r _ _ _ (Ok j) H (in_map _ _ _ Hj)) as (kv' & Hin & Ho). eapply Forall_forall in H3; [|exact Hin].
        unfold key_below in H3. simpl in Hx, Ho. destruct Hx as [Hx _], Ho as [Ho _]. rewrite Hx, Ho, to_be_bytes_cmp in H3. now apply id_cmp_lt in H3.
      * intros i Hi. destruct HL as (_ & _ & HL). destruct (HL (to_be_bytes i) eq_refl) as (d & Hd & Hiff).
        destruct (Hi d (between_past _ _ _ _ _ _ Hd)) as [p Hp]. destruct Hd as (w1 & _ & _ & ->).
        apply shown_node_key in Hp. destruct Hp as [b Hin]. apply Hiff in Hin.
        destruct (forall2_in_l _ _ _ _ Hxs Hin) as (x & Hx & Ho). apply in_map_iff in Hx. destruct Hx as (j & <- & Hj).
        destruct Ho as [Ho _]. apply to_be_bytes_inj in Ho. now subst j.
    + destruct (forall2_in_r _ _ _ _ Hxs Hc) as (kv & _ & Ho). exact Ho.
  - intros w'. exact (sn_order _ _ _ _ _ (s_sane _ _ _ w') TNode).
  - intros; eapply vertex_out_later; eauto.
  - intros [key b] w1 w2 _ Hin Hx w3 H3. split; auto. split; [|intros x Hf; exists x; auto].
    destruct (node_entry _ _ _ Hin) as (i & p & -> & Hp & Hw). cbn [fst]. rewrite decode_be. simpl. split; auto. exists p.
    eapply was_node_later; [|exact Hw]. eapply ext_trans; eauto.
Qed.

(** ** Edges with the properties of their ends *)
(** A vertex not listed at some moment of the past. *)
Definition was_without (w : st) (i : I) : Prop := exists d, In d (s_past w) /\ forall p, ~ In (Ok (i, p)) (shown_nodes d).
Lemma was_without_later w w' i : ext w w' -> was_without w i -> was_without w' i.
Proof. intros (_ & _ & H) (d & Hd & Hi). exists d. auto. Qed.
Lemma without_now w i : bget (to_be_bytes i) (t_node (s_now w)) = None -> was_without w i.
Proof.
  intros Hn. exists (s_now w). split; [apply s_in|]. intros p Hp. apply shown_node_key in Hp. destruct Hp as [b Hb].
  eapply (get_none_notin BC); [exact Hn|exact Hb].
Qed.
Lemma rg_get_node (Q : result err (option NP) -> st -> Prop) (i : I) w :
  (forall w' p, ext w w' -> was_node w' i p -> Q (Ok (Some p)) w') -> (forall w', ext w w' -> was_without w' i -> Q (Ok None) w') ->
  (forall w' e, ext w w' -> fault e -> Q (Err e) w') -> rg Q (get_node_data_by_id cn i : PR (option NP)) w.
Proof.
  intros H1 H2 H3 w' Hw. split; auto. split; [|intros x Hf; apply H3; auto; exists x; auto].
  cbn [Prog.bind tbl]. destruct (bget (to_be_bytes i) (t_node (s_now w'))) as [b|] eqn:Hb; cbn [opt_de]; [|simpl; auto using without_now].
  apply (get_in BC) in Hb. destruct (node_entry _ _ _ Hb) as (j & p & Hj & Hp & Hn). apply to_be_bytes_inj in Hj. subst j.
  unfold bincode, bind_ok. cbn [Prog.bind]. rewrite Hp. simpl. auto.
Qed.

(** An edge listed at some moment and an end of it missing at some moment. *)
Definition was_loose o (w : st) (t : T) : Prop :=
  (exists e, was_edge o w t e) /\ (was_without w (sub t) \/ was_without w (obj t)).
Lemma was_loose_later o w w' t : ext w w' -> was_loose o w t -> was_loose o w' t.
Proof.
  intros H [[e He] Hw]. split; [exists e; eapply was_edge_later; eauto|].
  destruct Hw; [left|right]; eapply was_without_later; eauto.
Qed.

Definition props_out o (kv : bytes * bytes) (x : result err (props_triple I NP EP)) (w : st) : Prop :=
  match x with
  | Ok (PropsTriple s p ob) => fst kv = enc o (Triple (fst s) (fst p) (fst ob)) /\
      was_edge o w (Triple (fst s) (fst p) (fst ob)) (snd p) /\ was_node w (fst s) (snd s) /\ was_node w (fst ob) (snd ob)
  | Err e => (e = MissingPropertyData /\ exists t, fst kv = enc o t /\ (~ keep t \/ was_loose o w t)) \/ fault e
  end.
Lemma props_out_later o kv x w w' : ext w w' -> props_out o kv x w -> props_out o kv x w'.
Proof.
  intros H. destruct x as [[s p ob]|e]; simpl.
  2:{ intros [[He (t & Ht & [Hk|Hl])]|He]; auto; left; split; auto; exists t; split; auto. right. eapply was_loose_later; eauto. }
  intros (H1 & H2 & H3 & H4). repeat split; auto.
  - eapply was_edge_later; eauto.
  - eapply was_node_later; eauto.
  - eapply was_node_later; eauto.
Qed.

Lemma rg_props_item o key r w1 w2 : In (key, r) (idx o (s_now w1)) -> ext w1 w2 ->
  rg (props_out o (key, r)) (next (bind_ok (Ret (decode_key (dec o) key)) (fun t => s_iter_impl cn ce t r)) : PR (props_triple I NP EP)) w2.
Proof.
  intros Hin Hx w3 H3. split; auto. split; [|intros x Hf; right; exists x; auto].
  destruct (entry_key _ _ _ _ Hin) as [t ->]. unfold bind_ok at 1. cbn [Prog.bind]. rewrite decode_enc.
  assert (ext w1 w3) as H13 by (eapply ext_trans; eauto). clear w2 Hx H3. unfold s_iter_impl.
  assert (~ keep t \/ exists e, was_edge o w1 t e) as Hthere.
  { destruct (bget r (t_edge (s_now w1))) as [b|] eqn:Hb.
    - destruct (edge_then o w1 w1 _ _ b Hin (ext_refl w1) Hb) as (t' & e & Ht & _ & Hw). apply enc_inj in Ht. subst t'. eauto.
    - left. destruct (edge_gone o w1 w1 _ _ Hin (ext_refl w1) Hb) as (t' & Ht & Hk). apply enc_inj in Ht. now subst t'. }
  assert (forall w', ext w1 w' -> was_without w' (sub t) \/ was_without w' (obj t) -> props_out o (enc o t, r) (Err MissingPropertyData) w') as Hmiss.
  { intros w' H' Hw. simpl. left. split; auto. exists t. split; auto. destruct Hthere as [Hk|[e He]]; auto. right.
    split; auto. exists e. eapply was_edge_later; eauto. }
  assert (forall w' e, ext w3 w' -> fault e -> props_out o (enc o t, r) (Err e) w') as Hf by (simpl; auto).
  assert (forall (sp : option NP) w4, ext w3 w4 -> (forall p, sp = Some p -> was_node w4 (sub t) p) ->
    (sp = None -> was_without w4 (sub t)) ->
    rg (props_out o (enc o t, r)) (bind_ok (get_edge_data_internal ce r) (fun prod_props =>
      bind_ok (get_node_data_by_id cn (obj t)) (fun obj_props =>
      match sp, prod_props, obj_props with
      | Some s, Some p, Some ob => Ret (Ok (PropsTriple (sub t, s) (pred t, p) (obj t, ob)))
      | _, _, _ => Ret (Err MissingPropertyData)
      end)) : PR (props_triple I NP EP)) w4) as Hrest.
  { intros sp w4 H4 Hsp Hsn w5 H5. split; auto. split; [|intros x Hfx; right; exists x; auto].
    assert (ext w1 w5) as H15 by (eapply ext_trans; [exact H13|]; eapply ext_trans; eauto).
    assert (forall (ep : option EP) w6, ext w5 w6 -> (forall e, ep = Some e -> was_edge o w6 t e) -> (ep = None -> ~ keep t) ->
      rg (props_out o (enc o t, r)) (bind_ok (get_node_data_by_id cn (obj t)) (fun obj_props =>
      match sp, ep, obj_props with
      | Some s, Some p, Some ob => Ret (Ok (PropsTriple (sub t, s) (pred t, p) (obj t, ob)))
      | _, _, _ => Ret (Err MissingPropertyData)
      end) : PR (props_triple I NP EP)) w6) as Hlast.
    { intros ep w6 H6 Hep Hen. apply rg_bind. apply rg_get_node.
      - intros w7 ob H7 Hob. assert (ext w4 w7) as H47 by (eapply ext_trans; [exact H5|]; eapply ext_trans; eauto).
        assert (ext w1 w7) as H17 by (eapply ext_trans; [exact H15|]; eapply ext_trans; eauto).
        destruct sp as [s|]; [|apply Hmiss; auto; left; eapply was_without_later; [exact H47|auto]].
        destruct ep as [e|]; [|left; split; auto; exists t; split; auto]. simpl. destruct t; simpl in *. repeat split; auto.
        + eapply was_edge_later; [exact H7|]. auto.
        + eapply was_node_later; [|apply Hsp; reflexivity]. eapply ext_trans; [exact H5|]. eapply ext_trans; eauto.
      - intros w7 H7 Hw. assert (ext w1 w7) as H17 by (eapply ext_trans; [exact H15|]; eapply ext_trans; eauto).
        destruct sp, ep; apply Hmiss; auto.
      - intros w7 e H7 He. simpl. auto. }
    cbn [Prog.bind tbl]. destruct (bget r (t_edge (s_now w5))) as [b|] eqn:Hb; cbn [opt_de].
    - destruct (edge_then o w1 w5 _ _ b Hin H15 Hb) as (t' & e & Ht & He & Hw). apply enc_inj in Ht. subst t'.
      unfold bincode. cbn [Prog.bind bind_ok]. unfold bind_ok at 1. cbn [Prog.bind]. rewrite He. cbn [Prog.bind].
      apply (Hlast (Some e) w5 (ext_refl w5)); [|discriminate]. intros e' [= <-]. exact Hw.
    - cbn [Prog.bind]. apply (Hlast None w5 (ext_refl w5)); [discriminate|]. intros _.
      destruct (edge_gone o w1 w5 _ _ Hin H15 Hb) as (t' & Ht & Hk). apply enc_inj in Ht. now subst t'. }
  apply rg_bind. apply rg_get_node.
  - intros w4 p H4 Hp. apply (Hrest (Some p) w4 H4); [|discriminate]. intros p' [= <-]. exact Hp.
  - intros w4 H4 Hw. apply (Hrest None w4 H4); [discriminate|auto].
  - intros w4 e H4 He. simpl. auto.
Qed.

Definition end_of (x : props_triple I NP EP) : T :=
  match x with PropsTriple s p ob => Triple (fst s) (fst p) (fst ob) end.
Definition props_read o (xs : list (result err (props_triple I NP EP))) (w : st) : Prop :=
  (forall s p ob, In (Ok (PropsTriple s p ob)) xs ->
     was_edge o w (Triple (fst s) (fst p) (fst ob)) (snd p) /\ was_node w (fst s) (snd s) /\ was_node w (fst ob) (snd ob)) /\
  StronglySorted (edge_lt o) (map end_of (ok_items xs)) /\
  (forall x, In (Err x) xs -> (x = MissingPropertyData /\ exists t, ~ keep t \/ was_loose o w t) \/ fault x) /\
  (forall t, (forall d, In d (s_past w) -> exists e, In (Ok (t, e)) (shown_edges o d)) ->
     In t (map end_of (ok_items xs)) \/
     exists x, In (Err x) xs /\ ((x = MissingPropertyData /\ (~ keep t \/ was_loose o w t)) \/ fault x)).

Lemma props_read_sorted o L xs w : StronglySorted key_below L ->
  Forall2 (fun kv x => props_out o kv x w) L xs -> StronglySorted (edge_lt o) (map end_of (ok_items xs)).
Proof.
  intros HL H. induction H as [|kv x L xs Hx H IH]; [constructor|].
  inversion HL; subst. specialize (IH H2). destruct x as [[s p ob]|er]; [|exact IH].
  change (StronglySorted (edge_lt o) (Triple (fst s) (fst p) (fst ob) :: map end_of (ok_items xs))). constructor; auto.
  apply Forall_forall. intros u Hu. apply in_map_iff in Hu. destruct Hu as ([s' p' ob'] & <- & Hu). simpl.
  apply ok_items_in in Hu. destruct (forall2_in_r _ _ _ _ H Hu) as (kv' & Hin & Ho).
  eapply Forall_forall in H3; [|exact Hin]. unfold key_below in H3. simpl in Hx, Ho.
  destruct Hx as [Hx _], Ho as [Ho _]. rewrite Hx, Ho in H3. now apply enc_lt in H3.
Qed.

Lemma props_scanned o w w' L (xs : list (result err (props_triple I NP EP))) : scanned s_now ext (fun d => idx o d) None w w' L ->
  Forall2 (fun kv x => props_out o kv x w') L xs -> props_read o xs w'.
Proof.
  intros HL Hxs. split; [|split; [|split]].
  - intros s p ob Hin. destruct (forall2_in_r _ _ _ _ Hxs Hin) as (kv & _ & Ho). apply Ho.
  - eapply props_read_sorted; [apply HL|exact Hxs].
  - intros x Hin. destruct (forall2_in_r _ _ _ _ Hxs Hin) as (kv & _ & Ho). simpl in Ho.
    destruct Ho as [[He (t & _ & Hl)]|Ho]; eauto.
  - intros t Ht. destruct HL as (_ & _ & HL). destruct (HL (enc o t) eq_refl) as (d & Hd & Hiff).
    destruct (Ht d (between_past _ _ _ _ _ _ Hd)) as [e He]. rewrite shown_edge in He.
    apply in_map_iff in He. destruct He as ([key r] & Hv & Hin).
    destruct Hd as (w1 & _ & _ & ->). destruct (entry_key _ _ _ _ Hin) as [t' ->].
    unfold edge_val in Hv. cbn [fst snd] in Hv. rewrite decode_enc in Hv. simpl in Hv.
    assert (t' = t) as ->.
    { destruct (get_de _ _) as [[p|]|]; simpl in Hv; congruence. }
    apply Hiff in Hin. destruct (forall2_in_l _ _ _ _ Hxs Hin) as ([[s p ob]|x] & Hx & Ho); simpl in Ho.
    + left. destruct Ho as [Ho _]. apply enc_inj in Ho. apply in_map_iff. exists (PropsTriple s p ob).
      split; [now rewrite Ho|now apply ok_items_in].
    + right. exists x. split; auto. destruct Ho as [[-> (t' & Ht' & Hl)]|Ho]; auto.
      apply enc_inj in Ht'. subst t'. auto.
Qed.

Lemma rg_props o w cuts : rg (props_read o) (l_iter_edges_with_props cn ce cuts o : P (list (result err (props_triple I NP EP)))) w.
Proof.
  assert (l_iter_edges_with_props cn ce cuts o = scan_from (fun d => idx o d)
    (fun kv => bind_ok (Ret (decode_key (dec o) (fst kv))) (fun t => s_iter_impl cn ce t (snd kv))) None cuts
    :> P (list (result err (props_triple I NP EP)))) as -> by (destruct o; reflexivity).
  eapply rg_mono; [exact ext_refl|exact ext_trans| |apply (rg_scan s_now ext ext_refl ext_trans F (props_out o))].
  - cbv beta. intros xs w' Hw (L & HL & Hxs). eapply props_scanned; eauto.
  - intros w'. exact (sn_order _ _ _ _ _ (s_sane _ _ _ w') (tab o)).
  - intros; eapply props_out_later; eauto.
  - intros [key r] w1 w2 _ Hin Hx. now apply rg_props_item with (w1 := w1).
Qed.

(** ** Queries *)
Notation M := (mem k NP EP).

Definition got_edges o (sel : T -> Prop) (s s' : M) (w : st) : Prop :=
  exists items, s' = ins_all items s /\
    (forall t e, In (t, e) items -> sel t /\ was_edge o w t e) /\
    (forall t, keep t -> sel t -> (forall d, In d (s_past w) -> exists e, In (Ok (t, e)) (shown_edges o d)) ->
       In t (map fst items)).

Lemma got_edges_later o sel s s' w w' : ext w w' -> got_edges o sel s s' w -> got_edges o sel s s' w'.
Proof.
  intros Hx (items & H1 & H2 & H3). exists items. split; auto. split.
  - intros t e Hin. destruct (H2 t e Hin). split; auto. eapply was_edge_later; eauto.
  - intros t Kp Ht Hd. apply H3; auto. intros d Hin. apply Hd. now apply Hx.
Qed.

Lemma got_iff o (sel sel' : T -> Prop) s s' w : (forall t, sel t <-> sel' t) -> got_edges o sel s s' w -> got_edges o sel' s s' w.
Proof.
  intros H (items & H1 & H2 & H3). exists items. split; auto. split.
  - intros t e Hin. destruct (H2 t e Hin). split; auto. now apply H.
  - intros t Kp Ht. apply H3; auto. now apply H.
Qed.

Definition entry_out o (kv : bytes * bytes) (s : M) (r : result err M) (w : st) : Prop :=
  match r with
  | Ok s' => (s' = s /\ exists t, fst kv = enc o t /\ ~ keep t) \/ exists t e, fst kv = enc o t /\ was_edge o w t e /\ s' = insert_edge t e s
  | Err e => fault e
  end.
Lemma entry_out_later o kv s r w w' : ext w w' -> entry_out o kv s r w -> entry_out o kv s r w'.
Proof.
  intros Hx. destruct r as [s'|e]; simpl; auto. intros [H|(t & e & H1 & H2 & H3)]; auto.
  right. exists t, e. repeat split; auto. eapply was_edge_later; eauto.
Qed.

Lemma rg_query_entry o key r s w1 w2 : In (key, r) (idx o (s_now w1)) -> ext w1 w2 ->
  rg (entry_out o (key, r) s) (query_entry ce (dec o) (key, r) s : PR M) w2.
Proof.
  intros Hin Hx w3 H3. split; auto. split; [|intros x Hf; exists x; auto].
  intros w4 H4. split; auto. split; [|intros x Hf; exists x; auto].
  assert (ext w1 w4) as H14 by (eapply ext_trans; [|exact H4]; eapply ext_trans; eauto).
  cbn [Prog.bind tbl fst snd]. destruct (bget r (t_edge (s_now w4))) as [b|] eqn:Hb.
  - destruct (edge_then o w1 w4 _ _ b Hin H14 Hb) as (t & e & -> & He & Hw).
    unfold bincode, bind_ok. cbn [Prog.bind]. rewrite decode_enc. cbn [Prog.bind]. rewrite He. simpl. right. eauto.
  - simpl. left. split; auto. eapply edge_gone; eauto.
Qed.

Lemma went_items o w L : forall s s', went (entry_out o) w L s s' ->
  exists items, s' = ins_all items s /\
    (forall t e, In (t, e) items -> was_edge o w t e /\ exists v, In (enc o t, v) L) /\
    (forall t v, keep t -> In (enc o t, v) L -> In t (map fst items)).
Proof.
  induction L as [|kv L IH]; intros s s' H; inversion H as [|z l0 a0 a1 a2 Hv Hr Z1 Z2 Z3]; subst.
  - exists []. repeat split; intros; simpl in *; tauto.
  - destruct (IH _ _ Hr) as (items & E & H1 & H2). simpl in Hv. destruct Hv as [[-> (t0 & Ht0 & Nk)]|(t & e & Hk & Hw & ->)].
    + exists items. split; auto. split.
      * intros t e Hin. destruct (H1 t e Hin) as [? [v ?]]. split; auto. exists v. simpl. auto.
      * intros t v Kp [E'|Hin]; [|eauto]. rewrite E' in Ht0. simpl in Ht0. apply enc_inj in Ht0. subst t0. contradiction.
    + exists ((t, e) :: items). split; auto. split.
      * intros t' e' [[= <- <-]|Hin].
        -- split; auto. exists (snd kv). left. rewrite <- Hk. apply surjective_pairing.
        -- destruct (H1 t' e' Hin) as [? [v ?]]. split; auto. exists v. simpl. auto.
      * intros t' v Kp [E'|Hin]; simpl.
        -- left. rewrite E' in Hk. simpl in Hk. apply enc_inj in Hk. auto.
        -- right. eapply H2; eauto.
Qed.

Definition fetched (sel : M -> M -> st -> Prop) (s : M) (r : result err M) (w : st) : Prop :=
  match r with Ok s' => sel s s' w | Err e => fault e end.

Lemma rg_range o tr cuts (b : bytes * bytes) s w : (forall d, tr d = idx o d) ->
  rg (fetched (got_edges o (fun t => in_range bytes_cmp (fst b) (snd b) (enc o t) = true)) s)
    (l_query_range ce cuts (dec o) tr b s : PR M) w.
Proof.
  intros Htr. unfold l_query_range, l_for.
  eapply rg_mono; [exact ext_refl|exact ext_trans| |apply (rg_for_from s_now ext ext_refl ext_trans F (entry_out o))].
  - cbv beta. intros [s'|e] w' Hx H; simpl.
    + destruct H as (L & HL & Hw). destruct (went_items _ _ _ _ _ Hw) as (items & E & H1 & H2).
      exists items. split; auto. split.
      * intros t e Hin. destruct (H1 t e Hin) as [He [v Hv]]. split; auto.
        destruct (scanned_in _ _ _ _ _ _ _ _ HL Hv) as (d & _ & Hd). unfold om_range in Hd. apply filter_In in Hd. apply Hd.
      * intros t Kp Ht Hd. destruct HL as (_ & _ & HL). destruct (HL (enc o t) eq_refl) as (d & Hb & Hiff).
        destruct (Hd d (between_past _ _ _ _ _ _ Hb)) as [e He]. rewrite shown_edge in He.
        apply in_map_iff in He. destruct He as ([key r] & Hv & Hin).
        destruct Hb as (w1 & _ & _ & ->). destruct (entry_key _ _ _ _ Hin) as [t' ->].
        unfold edge_val in Hv. cbn [fst snd] in Hv. rewrite decode_enc in Hv. simpl in Hv.
        assert (t' = t) as -> by (destruct (get_de _ _) as [[p|]|]; simpl in Hv; congruence).
        apply (H2 t r Kp). apply Hiff. unfold om_range. apply filter_In. rewrite Htr. split; auto.
    + destruct H as (kv & s' & H). exact H.
  - intros w'. apply om_sorted_filter. rewrite Htr. exact (sn_order _ _ _ _ _ (s_sane _ _ _ w') (tab o)).
  - intros; eapply entry_out_later; eauto.
  - intros [key r] s0 w1 w2 _ Hin Hx. unfold om_range in Hin. apply filter_In in Hin. destruct Hin as [Hin _]. rewrite Htr in Hin.
    now apply rg_query_entry with (w1 := w1).
Qed.

Lemma went_got {X} o (sel : X -> T -> Prop) w l : forall s s',
  went (fun x s r w => fetched (got_edges o (sel x)) s r w) w l s s' ->
  got_edges o (fun t => exists x, In x l /\ sel x t) s s' w.
Proof.
  induction l as [|x l IH]; intros s s' H; inversion H as [|z l0 a0 a1 a2 Hv Hr Z1 Z2 Z3]; subst.
  - exists []. repeat split; auto; simpl in *; try tauto. intros t _ (x & [] & _).
  - destruct (IH _ _ Hr) as (i2 & E2 & A2 & B2). destruct Hv as (i1 & E1 & A1 & B1).
    exists (i1 ++ i2). split; [unfold ins_all; rewrite fold_left_app; now subst|]. split.
    + intros t e Hin. apply in_app_iff in Hin. destruct Hin as [Hin|Hin].
      * destruct (A1 t e Hin). split; auto. exists x. simpl. auto.
      * destruct (A2 t e Hin) as [(x' & Hx' & ?) ?]. split; auto. exists x'. simpl. auto.
    + intros t Kp (x' & [<-|Hx'] & Ht) Hd; rewrite map_app, in_app_iff; [left; auto|right; eauto].
Qed.

Lemma rg_loop {X} o (sel : X -> T -> Prop) (f : X -> M -> PR M) l s w :
  (forall x s w', rg (fetched (got_edges o (sel x)) s) (f x s) w') ->
  rg (fetched (got_edges o (fun t => exists x, In x l /\ sel x t)) s) (for_ok f l s) w.
Proof.
  intros Hf. eapply rg_mono; [exact ext_refl|exact ext_trans| |
    apply (rg_for s_now ext ext_refl ext_trans F (fun x s r w => fetched (got_edges o (sel x)) s r w))].
  - cbv beta. intros [s'|e] w' Hx H; simpl.
    + now apply went_got.
    + destruct H as (x & s' & _ & H). exact H.
  - intros x s0 [s1|e] w1 w2 Hx; simpl; auto. now apply got_edges_later.
  - intros x s0 w' _ _. apply Hf.
Qed.

Lemma rg_spo (x : I * I * I) s w :
  rg (fetched (got_edges SPO (fun t => x = (sub t, pred t, obj t))) s) (query_spo ce x s : PR M) w.
Proof.
  destruct x as [[a b] c]. intros w1 H1. split; auto. split; [|intros x Hf; exists x; auto].
  cbn [Prog.bind tbl]. destruct (bget (encode_spo (Triple a b c)) (t_spo (s_now w1))) as [r|] eqn:Hr.
  - apply (get_in BC) in Hr. change (In (enc SPO (Triple a b c), r) (idx SPO (s_now w1))) in Hr.
    intros w2 H2. split; auto. split; [|intros x Hf; exists x; auto]. cbn [Prog.bind tbl].
    destruct (bget r (t_edge (s_now w2))) as [v|] eqn:Hb.
    + destruct (edge_then SPO w1 w2 _ _ v Hr H2 Hb) as (t & e & Ht & He & Hw). apply enc_inj in Ht. subst t.
      unfold bincode, bind_ok. cbn [Prog.bind]. rewrite He. simpl. exists [(Triple a b c, e)]. split; auto. split.
      * intros t' e' [[= <- <-]|[]]. split; auto.
      * intros t' _ [= -> -> ->] _. left. now destruct t'.
    + simpl. exists []. split; auto. split; [intros ? ? []|]. intros t Kp [= -> -> ->] _.
      destruct (edge_gone SPO w1 w2 _ _ Hr H2 Hb) as (t' & Ht & Nk). apply enc_inj in Ht. subst t'. destruct t. contradiction.
  - simpl. exists []. split; auto. split; [intros ? ? []|]. intros t Kp [= -> -> ->] Hd. exfalso.
    destruct (Hd (s_now w1)) as [e He]; [apply s_in|]. rewrite shown_edge in He. apply in_map_iff in He.
    destruct He as ([key r] & Hv & Hin). destruct (entry_key _ _ _ _ Hin) as [t' ->].
    unfold edge_val in Hv. cbn [fst snd] in Hv. rewrite decode_enc in Hv. simpl in Hv.
    assert (t' = t) as -> by (destruct (get_de _ _) as [[p|]|]; simpl in Hv; congruence).
    assert (Triple (sub t) (pred t) (obj t) = t) as Et by (now destruct t). rewrite Et in Hr.
    apply (get_none_notin BC) with (v := r) in Hr. apply Hr. exact Hin.
Qed.

Definition got_nodes (sel : I -> Prop) (s s' : M) (w : st) : Prop :=
  exists items, s' = insn_all items s /\
    (forall i p, In (i, p) items -> sel i /\ was_node w i p) /\
    (forall i, sel i -> (forall d, In d (s_past w) -> exists p, In (Ok (i, p)) (shown_nodes d)) -> In i (map fst items)).
Lemma got_nodes_later sel s s' w w' : ext w w' -> got_nodes sel s s' w -> got_nodes sel s s' w'.
Proof.
  intros Hx (items & H1 & H2 & H3). exists items. split; auto. split.
  - intros t e Hin. destruct (H2 t e Hin). split; auto. eapply was_node_later; eauto.
  - intros t Ht Hd. apply H3; auto. intros d Hin. apply Hd. now apply Hx.
Qed.

Lemma rg_node (i : I) s w : rg (fetched (got_nodes (eq i)) s) (query_node cn i s : PR M) w.
Proof.
  intros w1 H1. split; auto. split; [|intros x Hf; exists x; auto]. cbn [Prog.bind tbl].
  destruct (bget (to_be_bytes i) (t_node (s_now w1))) as [b|] eqn:Hb.
  - apply (get_in BC) in Hb. destruct (node_entry _ _ _ Hb) as (j & p & Hj & Hp & Hn). apply to_be_bytes_inj in Hj. subst j.
    unfold bincode, bind_ok. cbn [Prog.bind]. rewrite Hp. simpl. exists [(i, p)]. split; auto. split.
    + intros j q [[= <- <-]|[]]. auto.
    + intros j <- _. simpl. auto.
  - simpl. exists []. split; auto. split; [intros ? ? []|]. intros j <- Hd. exfalso.
    destruct (Hd (s_now w1)) as [p Hp]; [apply s_in|]. apply shown_node_key in Hp. destruct Hp as [b Hin].
    apply (get_none_notin BC) with (v := b) in Hb. auto.
Qed.

Lemma went_got_nodes (l : list I) w : forall s s',
  went (fun i s r w => fetched (got_nodes (eq i)) s r w) w l s s' -> got_nodes (fun i => In i l) s s' w.
Proof.
  induction l as [|x l IH]; intros s s' H; inversion H as [|z l0 a0 a1 a2 Hv Hr Z1 Z2 Z3]; subst.
  - exists []. repeat split; auto; simpl in *; tauto.
  - destruct (IH _ _ Hr) as (i2 & E2 & A2 & B2). destruct Hv as (i1 & E1 & A1 & B1).
    exists (i1 ++ i2). split; [unfold insn_all; rewrite fold_left_app; now subst|]. split.
    + intros t e Hin. apply in_app_iff in Hin. destruct Hin as [Hin|Hin].
      * destruct (A1 t e Hin). split; auto. simpl. auto.
      * destruct (A2 t e Hin). split; auto. simpl. auto.
    + intros t [<-|Ht] Hd; rewrite map_app, in_app_iff; [left; auto|right; auto].
Qed.

(** What a query returns. *)
Definition run_read (q : query I) (r : result err M) (w : st) : Prop :=
  match r with
  | Err e => fault e
  | Ok m => drawn_distinct (id_generator m) -> exists g, shows m g /\
      (forall i p, g_node g i = Some p -> selects_node q i /\ was_node w i p) /\
      (forall t e, g_edge g t = Some e -> selects q t /\ was_edge (order_of q) w t e) /\
      (forall i, selects_node q i -> (forall d, In d (s_past w) -> exists p, In (Ok (i, p)) (shown_nodes d)) -> g_node g i <> None) /\
      (forall t, keep t -> selects q t -> (forall d, In d (s_past w) -> exists e, In (Ok (t, e)) (shown_edges (order_of q) d)) ->
         g_edge g t <> None)
  end.

Lemma gput_all_get (l : list (T * EP)) : forall (g : graph k NP EP) t,
  (forall e, g_edge (gput_all l g) t = Some e -> In (t, e) l \/ g_edge g t = Some e) /\
  (In t (map fst l) \/ g_edge g t <> None -> g_edge (gput_all l g) t <> None) /\ forall i, g_node (gput_all l g) i = g_node g i.
Proof.
  induction l as [|[t0 e0] l IH]; intros g t.
  - simpl. repeat split; auto; tauto.
  - change (gput_all ((t0, e0) :: l) g) with (gput_all l (g_put_edge t0 e0 g)).
    destruct (IH (g_put_edge t0 e0 g) t) as (H1 & H2 & H3). simpl in H1, H2, H3. split; [|split].
    + intros e He. destruct (H1 e He) as [?|E]; [simpl; auto|]. destruct (triple_eq_dec t t0) as [->|N]; auto.
      injection E as ->. simpl. auto.
    + intros H. apply H2. simpl in H. destruct (triple_eq_dec t t0) as [->|N]; [right; discriminate|].
      destruct H as [[?|?]|?]; auto; congruence.
    + exact H3.
Qed.
Lemma gputn_all_get (l : list (I * NP)) : forall (g : graph k NP EP) i,
  (forall p, g_node (gputn_all l g) i = Some p -> In (i, p) l \/ g_node g i = Some p) /\
  (In i (map fst l) \/ g_node g i <> None -> g_node (gputn_all l g) i <> None) /\ forall t, g_edge (gputn_all l g) t = g_edge g t.
Proof.
  induction l as [|[t0 e0] l IH]; intros g t.
  - simpl. repeat split; auto; tauto.
  - change (gputn_all ((t0, e0) :: l) g) with (gputn_all l (g_put_node t0 e0 g)).
    destruct (IH (g_put_node t0 e0 g) t) as (H1 & H2 & H3). simpl in H1, H2, H3. split; [|split].
    + intros e He. destruct (H1 e He) as [?|E]; [simpl; auto|]. destruct (id_eq_dec t t0) as [->|N]; auto.
      injection E as ->. simpl. auto.
    + intros H. apply H2. simpl in H. destruct (id_eq_dec t t0) as [->|N]; [right; discriminate|].
      destruct H as [[?|?]|?]; auto; congruence.
    + exact H3.
Qed.

Lemma got_run g (q : query I) sel m w : (forall t, sel t <-> selects q t) -> (forall i, ~ selects_node q i) ->
  got_edges (order_of q) sel (mem_new g) m w -> run_read q (Ok m) w.
Proof.
  intros Hsel Hno (items & -> & H1 & H2) D. exists (gput_all items g_empty). split.
  - apply sim_shows; auto. apply sim_ins_all, sim_new.
  - split; [|split; [|split]].
    + intros i p. destruct (gput_all_get items g_empty (Triple i i i)) as (_ & _ & ->). discriminate.
    + intros t e He. destruct (gput_all_get items g_empty t) as (G1 & _ & _). destruct (G1 e He) as [Hin|]; [|discriminate].
      destruct (H1 t e Hin). split; auto. now apply Hsel.
    + intros i Hi. destruct (Hno i Hi).
    + intros t Kp Ht Hd. destruct (gput_all_get items g_empty t) as (_ & G2 & _). apply G2. left. apply H2; auto. now apply Hsel.
Qed.

(** The answer, and the generator of the graph it is in. *)
Definition run_from (g : gen k) (q : query I) (r : result err M) (w : st) : Prop :=
  run_read q r w /\ match r with Ok m => g_seq (id_generator m) = g_seq g | Err _ => True end.
Lemma ins_all_seq (items : list (T * EP)) : forall m : M, g_seq (id_generator (ins_all items m)) = g_seq (id_generator m).
Proof.
  induction items as [|[t e] items IH]; intros m; [reflexivity|]. change (ins_all ((t, e) :: items) m) with (ins_all items (insert_edge t e m)).
  rewrite IH. unfold insert_edge, insert_edge_create_data. now destruct (bget (encode_spo t) (spo_data m)).
Qed.
Lemma insn_all_seq (items : list (I * NP)) : forall m : M, g_seq (id_generator (insn_all items m)) = g_seq (id_generator m).
Proof. induction items as [|[t e] items IH]; intros m; [reflexivity|]. exact (IH _). Qed.

Lemma rg_run_from g (q : query I) cuts w : rg (run_from g q) (l_run cn ce cuts g q : PR M) w.
Proof.
  assert (forall sel (p : PR M), (forall t, sel t <-> selects q t) -> (forall i, ~ selects_node q i) ->
    rg (fetched (got_edges (order_of q) sel) (mem_new g)) p w -> rg (run_from g q) p w) as Hq.
  { intros sel p Hsel Hno. apply rg_mono; [exact ext_refl|exact ext_trans|]. intros [m|e] w' _ H; [|split; [exact H|exact Logic.I]].
    split; [eapply got_run; eauto|]. destruct H as (items & -> & _). apply ins_all_seq. }
  destruct q as [l|l|l|l|l|l|l|l]; cbn [l_run].
  - eapply rg_mono; [exact ext_refl|exact ext_trans| |
      apply (rg_for s_now ext ext_refl ext_trans F (fun i s r w => fetched (got_nodes (eq i)) s r w))].
    + cbv beta. intros [m|e] w' Hx H; [|destruct H as (x & s' & _ & H); split; [exact H|exact Logic.I]].
      apply went_got_nodes in H. destruct H as (items & -> & H1 & H2). split; [|apply insn_all_seq]. intros D. exists (gputn_all items g_empty). split.
      * apply sim_shows; auto. apply sim_insn_all, sim_new.
      * split; [|split; [|split]].
        -- intros i p He. destruct (gputn_all_get items g_empty i) as (G1 & _ & _). destruct (G1 p He) as [Hin|]; [|discriminate].
           apply H1. exact Hin.
        -- intros t e. destruct (gputn_all_get items g_empty (sub t)) as (_ & _ & ->). discriminate.
        -- intros i Hi Hd. destruct (gputn_all_get items g_empty i) as (_ & G2 & _). apply G2. left. apply H2; auto.
        -- intros t _ [].
    + intros i s0 [s1|e] w1 w2 Hx; simpl; auto. now apply got_nodes_later.
    + intros i s0 w' _ _. apply rg_node.
  - apply (Hq (fun t => exists x, In x l /\ x = (sub t, pred t, obj t))); [|simpl; tauto|].
    + intros t. simpl. split; [intros (x & Hx & ->); exact Hx|eauto].
    + apply rg_loop. intros x s w'. apply rg_spo.
  - apply (Hq (fun t => exists x, In x l /\ x = obj t)); [|simpl; tauto|].
    + intros t. simpl. split; [intros (x & Hx & E); simpl in E; now subst|eauto].
    + eapply rg_mono; [exact ext_refl|exact ext_trans| |apply (rg_loop OSP (fun x t => x = obj t))].
      * intros r w' _ H. exact H.
      * intros x s w'. eapply rg_mono; [exact ext_refl|exact ext_trans| |apply (rg_range OSP)]; [|intros; reflexivity].
        intros [m|e] w2 _ H; [|exact H]. revert H. unfold fetched. apply got_iff. intros t. rewrite in_bounds_1_enc. simpl. split; auto.
  - apply (Hq (fun t => exists x, In x l /\ x = sub t)); [|simpl; tauto|].
    + intros t. simpl. split; [intros (x & Hx & E); simpl in E; now subst|eauto].
    + eapply rg_mono; [exact ext_refl|exact ext_trans| |apply (rg_loop SPO (fun x t => x = sub t))].
      * intros r w' _ H. exact H.
      * intros x s w'. eapply rg_mono; [exact ext_refl|exact ext_trans| |apply (rg_range SPO)]; [|intros; reflexivity].
        intros [m|e] w2 _ H; [|exact H]. revert H. unfold fetched. apply got_iff. intros t. rewrite in_bounds_1_enc. simpl. split; auto.
  - apply (Hq (fun t => exists x, In x l /\ x = pred t)); [|simpl; tauto|].
    + intros t. simpl. split; [intros (x & Hx & E); simpl in E; now subst|eauto].
    + eapply rg_mono; [exact ext_refl|exact ext_trans| |apply (rg_loop POS (fun x t => x = pred t))].
      * intros r w' _ H. exact H.
      * intros x s w'. eapply rg_mono; [exact ext_refl|exact ext_trans| |apply (rg_range POS)]; [|intros; reflexivity].
        intros [m|e] w2 _ H; [|exact H]. revert H. unfold fetched. apply got_iff. intros t. rewrite in_bounds_1_enc. simpl. split; auto.
  - apply (Hq (fun t => exists x, In x l /\ x = (pred t, obj t))); [|simpl; tauto|].
    + intros t. simpl. split; [intros (x & Hx & E); simpl in E; now subst|eauto].
    + eapply rg_mono; [exact ext_refl|exact ext_trans| |apply (rg_loop POS (fun x t => x = (pred t, obj t)))].
      * intros r w' _ H. exact H.
      * intros x s w'. eapply rg_mono; [exact ext_refl|exact ext_trans| |apply (rg_range POS)]; [|intros; reflexivity].
        intros [m|e] w2 _ H; [|exact H]. revert H. unfold fetched. apply got_iff. intros t. rewrite in_bounds_2_enc. destruct x. simpl. split; congruence.
  - apply (Hq (fun t => exists x, In x l /\ x = (sub t, obj t))); [|simpl; tauto|].
    + intros t. simpl. split; [intros (x & Hx & E); simpl in E; now subst|eauto].
    + eapply rg_mono; [exact ext_refl|exact ext_trans| |apply (rg_loop OSP (fun x t => x = (sub t, obj t)))].
      * intros r w' _ H. exact H.
      * intros x s w'. eapply rg_mono; [exact ext_refl|exact ext_trans| |apply (rg_range OSP)]; [|intros; reflexivity].
        intros [m|e] w2 _ H; [|exact H]. revert H. unfold fetched. apply got_iff. intros t. rewrite in_bounds_2_enc. destruct x. simpl. split; congruence.
  - apply (Hq (fun t => exists x, In x l /\ x = (sub t, pred t))); [|simpl; tauto|].
    + intros t. simpl. split; [intros (x & Hx & E); simpl in E; now subst|eauto].
    + eapply rg_mono; [exact ext_refl|exact ext_trans| |apply (rg_loop SPO (fun x t => x = (sub t, pred t)))].
      * intros r w' _ H. exact H.
      * intros x s w'. eapply rg_mono; [exact ext_refl|exact ext_trans| |apply (rg_range SPO)]; [|intros; reflexivity].
        intros [m|e] w2 _ H; [|exact H]. revert H. unfold fetched. apply got_iff. intros t. rewrite in_bounds_2_enc. destruct x. simpl. split; congruence.
Qed.

Lemma rg_run g (q : query I) cuts w : rg (run_read q) (l_run cn ce cuts g q : PR M) w.
Proof. eapply rg_mono; [exact ext_refl|exact ext_trans| |apply rg_run_from]. intros r w' _ H. apply H. Qed.

(** ** They only say more about a longer past *)
Lemma edges_read_later o xs w w' : ext w w' -> edges_read o xs w -> edges_read o xs w'.
Proof.
  intros Hx (H1 & H2 & H3 & H4). split; [|split; [|split]]; auto.
  - intros t e Hin. eapply was_edge_later; eauto.
  - intros t Ht. apply H4. intros d Hd. apply Ht. now apply Hx.
Qed.
Lemma nodes_read_later xs w w' : ext w w' -> nodes_read xs w -> nodes_read xs w'.
Proof.
  intros Hx (H1 & H2 & H3 & H4). split; [|split; [|split]]; auto.
  - intros t e Hin. eapply was_node_later; eauto.
  - intros t Ht. apply H4. intros d Hd. apply Ht. now apply Hx.
Qed.
Lemma props_read_later o xs w w' : ext w w' -> props_read o xs w -> props_read o xs w'.
Proof.
  intros Hx (H1 & H2 & H3 & H4). split; [|split; [|split]]; auto.
  - intros s p ob Hin. destruct (H1 s p ob Hin) as (A & B & C).
    split; [eapply was_edge_later; eauto|]. split; eapply was_node_later; eauto.
  - intros x Hin. destruct (H3 x Hin) as [[He (t & [Hk|Hl])]|Hf]; auto; left; split; auto; exists t; auto. right. eapply was_loose_later; eauto.
  - intros t Ht. destruct (H4 t) as [H|(x & Hin & [[He [Hk|Hl]]|Hf])]; auto.
    + intros d Hd. apply Ht. now apply Hx.
    + right. exists x. auto.
    + right. exists x. split; auto. left. split; auto. right. eapply was_loose_later; eauto.
    + right. exists x. auto.
Qed.
Lemma run_read_later q r w w' : ext w w' -> run_read q r w -> run_read q r w'.
Proof.
  intros Hx. destruct r as [m|e]; auto. intros H D. destruct (H D) as (g & S & H1 & H2 & H3 & H4). exists g.
  split; auto. split; [|split; [|split]].
  - intros i p Hi. destruct (H1 i p Hi). split; auto. eapply was_node_later; eauto.
  - intros t e Ht. destruct (H2 t e Ht). split; auto. eapply was_edge_later; eauto.
  - intros i Hi Hd. apply H3; auto. intros d Hin. apply Hd. now apply Hx.
  - intros Kp t Ht Hd. apply H4; auto. intros d Hin. apply Hd. now apply Hx.
Qed.
Lemma run_from_later g q r w w' : ext w w' -> run_from g q r w -> run_from g q r w'.
Proof. intros Hx [H1 H2]. split; auto. eapply run_read_later; eauto. Qed.
End Readers.

(** ** From the first database to the last *)
Section Top.
Context {k : idkind} {NP EP SE BE E : Type} (cn : codec BE NP) (ce : codec BE EP) (keep : triple (Id k) -> Prop).
Context (Hcn : codec_ok cn) (Hce : codec_ok ce) (mn : NP -> NP -> NP) (me : EP -> EP -> EP).
Notation P A := (prog db SE A).
Notation op := (op k NP EP E).
Notation life := (life (k := k) (NP := NP) (EP := EP) (SE := SE) (E := E)).
Notation st := (st (k := k) cn ce keep).
Notation s_now := (s_now (k := k) cn ce keep).
Notation s_past := (s_past (k := k) cn ce keep).
Notation ext := (ext (k := k) cn ce keep).
Let BC := bytes_cmp_ok.

Lemma flat_map_apart {A B} (f : A -> list B) l : NoDup (flat_map f l) -> forall i j a b r, i <> j ->
  nth_error l i = Some a -> nth_error l j = Some b -> In r (f a) -> ~ In r (f b).
Proof.
  induction l as [|x l IH]; intros Hnd i j a b r Nij Hi Hj Ha Hb; [destruct i; discriminate|].
  simpl in Hnd. apply NoDup_app_iff in Hnd. destruct Hnd as (N1 & N2 & N3).
  destruct i as [|i], j as [|j]; simpl in Hi, Hj; try congruence.
  - injection Hi as ->. apply (N3 r Ha). apply in_flat_map. exists b. split; auto. eapply nth_error_In; eauto.
  - injection Hj as ->. apply (N3 r Hb). apply in_flat_map. exists a. split; auto. eapply nth_error_In; eauto.
  - eapply IH with (i := i) (j := j); eauto.
Qed.

Lemma callers_nth cuts (cs : list (handle k * list op)) : forall i0 i p,
  nth_error (l_callers cn ce mn me cuts i0 cs) i = Some p ->
  exists hl, nth_error cs i = Some hl /\ p = l_history cn ce mn me (cuts (i0 + i)) 0 (snd hl) (fst hl) :> P _.
Proof.
  induction cs as [|hl cs IH]; intros i0 i p; [destruct i; discriminate|]. destruct i as [|i]; simpl.
  - intros [= <-]. exists hl. rewrite Nat.add_0_r. auto.
  - intros H. destruct (IH (S i0) i p H) as (hl' & H1 & ->). exists hl'. split; auto. now rewrite Nat.add_succ_r.
Qed.

Definition refers (d : db) : bytes -> triple (Id k) -> Prop := fun r t => exists o, In (enc o t, r) (idx o d).

Lemma sane_fair U d : fair (k := k) cn ce U d -> sane (k := k) cn ce keep (refers d) d.
Proof.
  intros [Fn Fe].
  assert (forall o key r, In (key, r) (idx o d) -> exists b e, bget r (t_edge d) = Some b /\ de ce b = Ok e) as Hrec.
  { intros o key r H. destruct (fe_keys ce _ _ Fe _ _ _ H) as [t ->].
    assert (rid o d t = Some r) as Hr by now apply (get_iff_in BC _ _ _ (fe_isorted ce _ _ Fe o)).
    pose proof (fe_rec ce _ _ Fe _ _ _ Hr) as Hn. unfold record in Hn. destruct (bget r (t_edge d)) as [b|]; [|congruence].
    destruct (de ce b) as [e|] eqn:Eb; [|simpl in Hn; congruence]. eauto. }
  split.
  - intros r t t' (o & H) (o' & H').
    assert (rid o d t = Some r) as Hr by now apply (get_iff_in BC _ _ _ (fe_isorted ce _ _ Fe o)).
    assert (rid o' d t' = Some r) as Hr' by now apply (get_iff_in BC _ _ _ (fe_isorted ce _ _ Fe o')).
    exact (fe_inj ce _ _ Fe _ _ _ _ _ Hr Hr').
  - intros [| | | |]; [apply (fn_sorted cn _ Fn)|apply (fe_sorted ce _ _ Fe)|apply (fe_isorted ce _ _ Fe SPO)|
      apply (fe_isorted ce _ _ Fe POS)|apply (fe_isorted ce _ _ Fe OSP)].
  - apply (fn_items cn _ Fn).
  - intros o key r H. destruct (fe_keys ce _ _ Fe _ _ _ H) as [t ->]. exists t. split; auto. split; [exists o; exact H|].
    intros _. destruct (Hrec o _ r H) as (b & e & -> & _). discriminate.
  - intros r t b (o & H) Hb. destruct (Hrec o _ r H) as (b' & e & Hb' & He). exists e. congruence.
Qed.

Lemma beside_reads {X} (p : P X) (Q : (SE -> Prop) -> X -> st -> Prop) (ls : list life) (cs : list (handle k * list op)) cuts schedule :
  NoDup (life_keys ls ++ session_keys cs) ->
  Forall (fun hl => Forall (fun o => forall t, keep t -> ~ rewrites o t) (snd hl)) cs ->
  (forall F a w1 w2, ext w1 w2 -> Q F a w1 -> Q F a w2) -> (forall F w, rg s_now ext F (Q F) p w) ->
  let d := lives cn ce mn me ls db_new in
  let ps := beside p (l_callers cn ce mn me cuts 0 cs) in
  forall x, has_read x (fst (interleave schedule ps d)) ->
  exists w, Q (met schedule) x w /\ forall d1, In d1 (s_past w) -> during schedule ps d d1.
Proof.
  intros Hnd Ho HQ Hp d ps x Hx. apply NoDup_app_iff in Hnd. destruct Hnd as (N1 & N2 & N3).
  pose proof (fair_lives cn ce Hcn Hce mn me ls (fun _ => False) db_new N1 (fun _ _ H => H) (proj1 (SledDb.good_new (k := k) cn ce _))) as Hf.
  fold d in Hf. pose proof (sane_fair _ _ Hf) as Hs.
  set (w0 := St (k := k) cn ce keep (refers d) d [d] (or_introl eq_refl) Hs).
  assert (world (k := k) cn ce keep (SledBesideTop.s_used _ _ _ w0) (s_now w0) (map (fun q => bind q (fun b => Ret (inr b))) (l_callers cn ce mn me cuts 0 cs)
    : list (P (X + _)))) as Hw.
  { exists (fun _ => nokeys), (fun i r => exists hl, nth_error cs i = Some hl /\ In r (history_keys (fst hl) (snd hl))).
    split; [|split; [|split]].
    - intros i q Hq. rewrite nth_error_map in Hq. destruct (nth_error (l_callers _ _ _ _ _ _ _) i) as [q'|] eqn:Ei; [|discriminate].
      injection Hq as <-. destruct (callers_nth _ _ _ _ _ Ei) as (hl & Hhl & ->). apply own_bind.
      eapply own_mono with (R := fun _ _ _ => True); [|apply own_history]; auto.
      + eapply Forall_forall in Ho; [exact Ho|]. eapply nth_error_In; eauto.
      + apply nth_error_split in Hhl. destruct Hhl as (l1 & l2 & E2 & _). rewrite E2 in N2.
        unfold session_keys in N2. rewrite flat_map_app in N2. simpl in N2. apply NoDup_app_iff in N2. destruct N2 as (_ & N2 & _).
        apply NoDup_app_iff in N2. tauto.
      + intros r Hr. exists hl. auto.
    - intros i r t [].
    - intros i r (hl & Hi & Hr). assert (In r (session_keys cs)) as Hin.
      { apply in_flat_map. exists hl. split; auto. eapply nth_error_In; eauto. }
      assert (bget r (t_edge d) = None) as Hb.
      { destruct (bget r (t_edge d)) as [b|] eqn:Hb; auto. exfalso.
        assert (plus_keys (fun _ => False) (life_keys ls) r) as [[]|Hl]; [|exact (N3 r Hl Hin)].
        apply (fe_used ce _ _ (proj2 Hf)). congruence. }
      split; auto. intros t (o & Hk). assert (rid o d t = Some r) as Hrid by now apply (get_iff_in BC _ _ _ (fe_isorted ce _ _ (proj2 Hf) o)).
      destruct (rid_used ce _ _ _ _ _ (proj2 Hf) Hrid) as [[]|Hl]. exact (N3 r Hl Hin).
    - intros i j r Nij (hl & Hi & Hr) (hl' & Hj & Hr'). eapply flat_map_apart; eauto. }
  pose (Q' := fun (a : X + (list (outcome (SE := SE) (BE := BE) (E := E)) * handle k)) (w : st) =>
    match a with inl x => Q (met schedule) x w | inr _ => True end).
  edestruct (run_beside cn ce keep (met schedule) Q' schedule (bind p (fun a => Ret (inl a)))
    (map (fun q => bind q (fun b => Ret (inr b))) (l_callers cn ce mn me cuts 0 cs)) w0)
    as (p' & ws' & w' & H1 & H2 & H3 & H4); auto.
  - intros [a|b] w1 w2 H; auto. now apply HQ.
  - apply rg_bind. eapply rg_mono; [| | |apply Hp].
    + apply ext_refl.
    + apply ext_trans.
    + simpl. auto.
  - change (s_now w0) with d in H1. unfold has_read in Hx. unfold ps, beside in Hx. rewrite H1 in Hx. simpl in Hx.
    injection Hx as ->. exists w'. split; auto. intros d1 Hd. destruct (H4 d1 Hd) as [[<-|[]]|Hd']; [apply during_nil|exact Hd'].
Qed.
End Top.
