(** Copying a SledTripleStore onto another handle of the same database. *)
From Coq Require Import Arith NArith List Bool Sorted Lia.
From Verif Require Import Bytes BytesFacts OMap OMapFacts Core IdType IdTypeFacts Store Mem Spec
  CodecFacts ListFacts MemFacts MemSim History Prog ProgFacts Sled SledHistory SledDb
  SledOps SledBulk SledRun SledRead SledTop SledMain SledLeaf SledLeafFacts SledLazy.
Import ListNotations.

Section Loop.
Context {D SE W EL ER A B : Type}.
Notation P A := (prog D SE A).
Context (F : SE -> Prop) (R : D -> Prop) (blamed : EL -> Prop) (bad : ER -> Prop).
Context (entries : D -> list (bytes * bytes)) (item : bytes * bytes -> P (result ER A))
        (body : A -> W -> P (result EL unit * W)).
Context (key : B -> bytes) (val : B -> A) (L : list B).
Context (J : list B -> list B -> W -> D -> Prop).

Definition loop_end (rh : result (lr_error EL ER) unit * W) (d : D) : Prop :=
  match fst rh with
  | Ok _ => J L [] (snd rh) d
  | Err (LeftE e) => blamed e
  | Err (RightE e) => bad e
  end.

Context (HR : forall dn td h d, J dn td h d -> R d).
Context (Hkeys : forall dn td h d, J dn td h d -> map fst (entries d) = map key L).
Context (Hsort : forall dn td h d, J dn td h d -> om_sorted bytes_cmp (entries d)).
Context (Hitem : forall dn a td h d r, J dn (a :: td) h d -> In (key a, r) (entries d) ->
  wp F (fun x => x = d) (fun v _ => v = Ok (val a) \/ exists e, bad e /\ v = Err e) (item (key a, r)) d).
Context (Hbody : forall dn a td h d, J dn (a :: td) h d -> dn ++ a :: td = L ->
  wp F R (fun rh d' => match fst rh with
     | Ok _ => J (dn ++ [a]) td (snd rh) d' /\
         forall b r, In b td -> In (key b, r) (entries d) -> In (key b, r) (entries d')
     | Err e => blamed e
     end) (body (val a) h) d).

Lemma wp_leaf_loop rest td2 kvs : forall td1 dn h d,
  J dn (td1 ++ td2) h d -> dn ++ td1 ++ td2 = L ->
  Forall2 (fun kv a => fst kv = key a /\ In kv (entries d)) kvs td1 ->
  (forall h d, J (dn ++ td1) td2 h d -> wp F R loop_end (rest h) d) ->
  wp F R loop_end (leaf_loop item body rest kvs h) d.
Proof.
  induction kvs as [|[ky r] kvs IH]; intros td1 dn h d HJ HL H2 Hrest; inversion H2 as [|? a ? td1' [Hk Hin] H2']; subst; clear H2.
  - apply Hrest. now rewrite app_nil_r.
  - cbn [fst] in Hk. subst ky. cbn [leaf_loop]. apply wp_bind.
    simpl app in HJ, HL.
    pose proof (HR _ _ _ _ HJ) as Rd.
    eapply wp_mono; [| |exact (Hitem _ _ _ _ _ _ HJ Hin)].
    + intros x ->. exact Rd.
    + intros v x -> [->|(y & Hy & ->)].
      2: { split; [exact Rd|]. unfold loop_end. cbn [fst]. exact Hy. }
      apply wp_bind. eapply wp_mono; [| |exact (Hbody _ _ _ _ _ HJ HL)]; auto.
      intros [v h'] x Rx Hv. cbn [fst snd] in Hv |- *. destruct v as [[]|e]; [|split; auto].
      destruct Hv as [HJ' Hst].
      apply (IH td1' (dn ++ [a])); auto.
      * rewrite <- app_assoc. exact HL.
      * assert (forall b r, In b td1' -> In (key b, r) (entries d) -> In (key b, r) (entries x)) as Hb
          by (intros b r0 Hb0; apply Hst; apply in_app_iff; auto).
        clear - H2' Hb. induction H2' as [|[kb rb] b kvs td [Hk Hi] _ IH]; constructor.
        -- cbn [fst] in *. subst kb. split; auto. apply Hb; simpl; auto.
        -- apply IH. intros c r0 Hc. apply Hb. simpl. auto.
      * intros h0 d0 H0. apply Hrest. rewrite <- app_assoc in H0. exact H0.
Qed.

(** Where the loop is: everything before [lo] is done. *)
Definition from (lo : option bytes) (l : list B) : list B := filter (fun a => not_before lo (key a)) l.
Definition upto (lo : option bytes) (l : list B) : list B := filter (fun a => negb (not_before lo (key a))) l.
Definition within (lo hi : option bytes) (l : list B) : list B :=
  filter (fun a => not_before lo (key a) && before hi (key a)) l.

Lemma piece_keys lo hi : forall es l, map fst es = map key l ->
  Forall2 (fun kv a => fst kv = key a /\ In kv es) (piece lo hi es) (within lo hi l).
Proof.
  intros es0. assert (forall es l, incl es es0 -> map fst es = map key l ->
    Forall2 (fun kv a => fst kv = key a /\ In kv es0) (piece lo hi es) (within lo hi l)) as H.
  { induction es as [|kv es IH]; intros [|a l] Hi E; try discriminate; [constructor|].
    simpl in E. injection E as Ek E. unfold piece, within. cbn [filter]. rewrite Ek.
    assert (incl es es0) as Hi' by (intros x Hx; apply Hi; simpl; auto).
    specialize (IH l Hi' E). unfold piece, within in IH.
    destruct (not_before lo (key a) && before hi (key a)); auto. constructor; auto. split; auto. apply Hi. simpl. auto. }
  intros l. apply H. intros x; auto.
Qed.

Definition asc (l : list B) : Prop := StronglySorted (fun a b => bytes_cmp (key a) (key b) = Lt) l.

Lemma keys_asc (es : list (bytes * bytes)) l : om_sorted bytes_cmp es -> map fst es = map key l -> asc l.
Proof.
  intros S. revert l. induction S as [|kv es S IH Hf]; intros [|a l] E; try discriminate; [constructor|].
  simpl in E. injection E as Ek E. constructor; [now apply IH|].
  rewrite Forall_forall in *. intros b Hb. rewrite <- Ek.
  assert (In (key b) (map fst es)) as Hin by (rewrite E; now apply in_map).
  apply in_map_iff in Hin. destruct Hin as (kv' & <- & Hkv). apply (Hf kv' Hkv).
Qed.

Lemma filter_split (f g : B -> bool) l :
  asc l -> (forall a b, bytes_cmp (key a) (key b) = Lt -> g b = true -> g a = true) ->
  filter f l = filter (fun a => f a && g a) l ++ filter (fun a => f a && negb (g a)) l.
Proof.
  intros S Hg. induction S as [|a l S IH Hf]; auto. cbn [filter]. rewrite IH.
  destruct (g a) eqn:Eg; cbn [negb]; rewrite ?andb_true_r, ?andb_false_r.
  - destruct (f a); reflexivity.
  - assert (filter (fun a => f a && g a) l = []) as ->.
    { rewrite Forall_forall in Hf. clear IH S. induction l as [|b l IHl]; auto. cbn [filter].
      destruct (g b) eqn:Eb.
      - rewrite (Hg a b) in Eg; [discriminate| |exact Eb]. apply Hf. simpl. auto.
      - rewrite andb_false_r. apply IHl. intros x Hx. apply Hf. simpl. auto. }
    destruct (f a); reflexivity.
Qed.

Lemma from_upto lo l : asc l -> upto lo l ++ from lo l = l.
Proof.
  intros S. unfold upto, from.
  assert (l = filter (fun _ => true) l) as E by (clear; induction l; simpl; congruence).
  rewrite E at 3. rewrite (filter_split (fun _ => true) (fun a => negb (not_before lo (key a)))); auto.
  - f_equal. apply filter_ext. intros a. simpl. now rewrite negb_involutive.
  - intros a b Hlt Hb. apply negb_true_iff in Hb. apply negb_true_iff.
    destruct (not_before lo (key a)) eqn:Ea; auto. rewrite <- Hb. symmetry.
    rewrite not_before_spec in Ea |- *. intros c ->. specialize (Ea c eq_refl).
    intros Hgt. pose proof (le_lt _ _ _ Ea Hlt). congruence.
Qed.

Lemma from_cut lo c l : asc l -> from lo l = within lo (Some c) l ++ from (Some (later lo c)) l.
Proof.
  intros S. unfold from, within.
  rewrite (filter_split (fun a => not_before lo (key a)) (fun a => before (Some c) (key a)) l S).
  - f_equal. apply filter_ext. intros a. now rewrite later_spec.
  - intros a b Hlt Hb. rewrite before_spec in Hb |- *. intros x [= <-].
    specialize (Hb c eq_refl). eapply (cmp_trans _ bytes_cmp_ok); eauto.
Qed.

Lemma wp_loop_from cuts : forall lo dn h d, J dn (from lo L) h d -> dn ++ from lo L = L -> asc L ->
  wp F R loop_end (loop_from entries item body lo cuts h) d.
Proof.
  induction cuts as [|c cuts IH]; intros lo dn h d HJ HL S; cbn [loop_from wp].
  - assert (within lo None L = from lo L) as E.
    { unfold within, from. apply filter_ext. intros a. simpl. apply andb_true_r. }
    apply (wp_leaf_loop _ [] _ (from lo L) dn); rewrite ?app_nil_r; auto.
    + rewrite <- E. apply piece_keys. eapply Hkeys; eauto.
    + intros h' d' H'. rewrite HL in H'. simpl. split; [eapply HR; eauto|exact H'].
  - pose proof (from_cut lo c L S) as E.
    apply (wp_leaf_loop _ (from (Some (later lo c)) L) _ (within lo (Some c) L) dn); rewrite <- ?E; auto.
    + apply piece_keys. eapply Hkeys; eauto.
    + intros h' d' H'. apply (IH _ (dn ++ within lo (Some c) L)); auto.
      rewrite <- app_assoc, <- E. exact HL.
Qed.

Lemma wp_loop cuts h d : J [] L h d -> wp F R loop_end (loop_from entries item body None cuts h) d.
Proof.
  intros HJ. assert (from None L = L) as E by (clear; unfold from; simpl; induction L; simpl; congruence).
  apply (wp_loop_from cuts None []); rewrite ?E; auto.
  eapply keys_asc; [eapply Hsort; eauto|eapply Hkeys; eauto].
Qed.

End Loop.

(** ** Some entries are changed *)
Definition updated {X V} (f : V -> V) (dn : list (X * V)) (new old : X -> option V) : Prop :=
  (forall x v, In (x, v) dn -> new x = Some (f v)) /\ (forall x, ~ In x (map fst dn) -> new x = old x).

Lemma updated_nil {X V} (f : V -> V) (new old : X -> option V) : (forall x, new x = old x) -> updated f [] new old.
Proof. intros H. split; [intros x v []|]. auto. Qed.

Lemma updated_more {X V} (f : V -> V) dn x v (new new' old : X -> option V) :
  updated f dn new old -> ~ In x (map fst dn) ->
  new' x = Some (f v) -> (forall y, y <> x -> new' y = new y) -> updated f (dn ++ [(x, v)]) new' old.
Proof.
  intros [H1 H2] N Hx Hn. split.
  - intros y w Hy. apply in_app_iff in Hy. destruct Hy as [Hy|[[= <- <-]|[]]]; auto.
    rewrite Hn; auto. intros ->. apply N. apply (in_map fst) in Hy. exact Hy.
  - intros y Hy. rewrite map_app, in_app_iff in Hy. simpl in Hy.
    rewrite Hn; [apply H2; tauto|]. intros ->. tauto.
Qed.

Lemma updated_ext {X V} (f : V -> V) dn (new new' old : X -> option V) :
  (forall x, new' x = new x) -> updated f dn new old -> updated f dn new' old.
Proof. intros H [H1 H2]. split; intros; rewrite H; auto. Qed.

Lemma updated_rest {X V} (f : V -> V) dn x v td (new old : X -> option V) : updated f dn new old ->
  NoDup (map fst (dn ++ (x, v) :: td)) -> new x = old x.
Proof.
  intros [_ H2] N. apply H2. rewrite map_app in N. simpl in N. apply NoDup_remove_2 in N.
  rewrite in_app_iff in N. tauto.
Qed.

Lemma insert_keys (key : bytes) (b : bytes) (m : tree) : om_sorted bytes_cmp m -> bget key m <> None ->
  map fst (binsert key b m) = map fst m.
Proof.
  intros S. induction S as [|[k' v'] m S IH Hf]; simpl; [congruence|]. intros H.
  destruct (bytes_cmp key k') eqn:E; simpl.
  - apply (cmp_eq _ bytes_cmp_ok) in E. now subst.
  - exfalso. apply H. apply (get_none_notin bytes_cmp_ok). intros v Hv.
    rewrite Forall_forall in Hf. specialize (Hf _ Hv). unfold key_lt in Hf. cbn [fst] in Hf.
    assert (bytes_cmp key key = Lt) as X by (eapply (cmp_trans _ bytes_cmp_ok); eauto).
    rewrite (cmp_refl bytes_cmp_ok) in X. discriminate.
  - f_equal. auto.
Qed.

Lemma keys_of {E A} (v : bytes * bytes -> result E A) (key : A -> bytes) : forall es l, map v es = map Ok l ->
  (forall kv a, In kv es -> v kv = Ok a -> fst kv = key a) -> map fst es = map key l.
Proof.
  induction es as [|kv es IH]; intros [|a l] E0 H; try discriminate; auto.
  simpl in E0. injection E0 as Ev E0. simpl. f_equal.
  - apply H; simpl; auto.
  - apply IH; auto. intros; apply H; simpl; auto.
Qed.

Lemma asc_NoDup {A B} (key : A -> bytes) (f : A -> B) (l : list A) :
  (forall a b, f a = f b -> key a = key b) -> asc key l -> NoDup (map f l).
Proof.
  intros Hf S. induction S as [|a l S IH Hl]; simpl; constructor; auto.
  rewrite in_map_iff. intros (b & E & Hb). rewrite Forall_forall in Hl. specialize (Hl _ Hb).
  rewrite (Hf _ _ E), (cmp_refl bytes_cmp_ok) in Hl. discriminate.
Qed.

(** A failure of the storage. *)
Definition fault {SE BE} (F : SE -> Prop) (e : sled_error SE BE) : Prop := exists x, F x /\ e = SledError x.
Lemma rd_item {SE BE A} F d (p : prog db SE (result (sled_error SE BE) A)) a : rd F d p (Ok a) ->
  wp F (fun x => x = d) (fun v _ => v = Ok a \/ exists e, fault F e /\ v = Err e) (next p) d.
Proof.
  intros H. eapply wp_mono; [| |exact (rd_next F d _ _ H)]; auto.
  intros v x _ [->|(y & Hy & ->)]; auto. right. exists (SledError y). split; auto. exists y. auto.
Qed.

Section Self.
Context {k : idkind} {NP EP SE BE : Type} (cn : codec BE NP) (ce : codec BE EP).
Notation I := (Id k).
Notation T := (triple (Id k)).
Notation err := (sled_error SE BE).
Notation P A := (prog db SE A).
Notation PR A := (prog db SE (result err A)).
Notation fair := (fair (k := k) cn ce).
Notation nod := (nod (k := k) cn).
Notation view := (view (k := k) ce).
Notation blame := (blame (SE := SE) cn ce).
Implicit Types t u : T.
Let BC := bytes_cmp_ok.

Context (F : SE -> Prop) (R : db -> Prop) (base : bytes -> Prop) (d0 : db) (Hd0 : fair base d0).
Context (ns : list (I * NP)) (es : list (T * EP)).
Context (Hns : map (vertex_val (SE := SE) cn) (t_node d0) = map Ok ns)
        (Hes : map (edge_val (SE := SE) ce d0 SPO) (idx SPO d0) = map Ok es).

Definition nkey (a : I * NP) : bytes := to_be_bytes (fst a).
Definition ekey (a : T * EP) : bytes := enc SPO (fst a).

Lemma ns_keys : map fst (t_node d0) = map nkey ns.
Proof.
  eapply keys_of; [exact Hns|]. intros [key b] a Hin Ha.
  destruct (fn_items cn _ (proj1 Hd0) _ _ Hin) as (i & p & -> & Hb).
  unfold vertex_val, decode_id, ser_err in Ha. cbn [fst snd] in Ha. rewrite try_from_to_be_bytes, Hb in Ha.
  simpl in Ha. injection Ha as <-. reflexivity.
Qed.

Lemma es_keys : map fst (idx SPO d0) = map ekey es.
Proof.
  eapply keys_of; [exact Hes|]. intros [key r] a Hin Ha.
  destruct (edge_entry (SE := SE) ce base d0 SPO key r (proj2 Hd0) Hin) as (t & e & -> & _ & _ & Hv).
  rewrite Hv in Ha. injection Ha as <-. reflexivity.
Qed.

Lemma ns_in i p : In (i, p) ns <-> nod d0 i = Some p.
Proof.
  destruct (fair_vertices (SE := SE) cn d0 (proj1 Hd0)) as (l & E & _ & H). rewrite Hns in E.
  assert (ns = l) as -> by (clear -E; revert l E; induction ns as [|a l' IH]; intros [|b l] E; try discriminate; auto;
    injection E as -> E; f_equal; auto).
  apply H.
Qed.
Lemma es_in t e : In (t, e) es <-> view SPO d0 t = Some e.
Proof.
  destruct (fair_edges (SE := SE) ce base d0 SPO (proj2 Hd0)) as (l & E & _ & H). rewrite Hes in E.
  assert (es = l) as -> by (clear -E; revert l E; induction es as [|a l' IH]; intros [|b l] E; try discriminate; auto;
    injection E as -> E; f_equal; auto).
  apply H.
Qed.

Lemma ns_nodup : NoDup (map fst ns).
Proof.
  apply (asc_NoDup nkey); [intros a b H; unfold nkey; now rewrite H|].
  eapply keys_asc; [apply (fn_sorted cn _ (proj1 Hd0))|apply ns_keys].
Qed.
Lemma es_nodup : NoDup (map fst es).
Proof.
  apply (asc_NoDup ekey); [intros a b H; unfold ekey; now rewrite H|].
  eapply keys_asc; [apply (fe_isorted ce _ _ (proj2 Hd0) SPO)|apply es_keys].
Qed.

(** *** The nodes *)
Section Nodes.
Context (fn : NP -> NP) (nbody : I -> NP -> PR unit) (h : handle k).
Context (Hbody : forall d i p, fair base d -> nod d i = Some p ->
  wp F (fun x => x = d \/ exists b, de cn b = Ok (fn p) /\ x = d_put_node i b d)
    (fun r x => match r with
       | Ok _ => exists b, de cn b = Ok (fn p) /\ x = d_put_node i b d
       | Err e => blame F e
       end) (nbody i p) d).

Definition Jn (dn td : list (I * NP)) (h' : handle k) (d : db) : Prop :=
  dn ++ td = ns /\ h' = h /\ fair base d /\ updated fn dn (nod d) (nod d0) /\
  (forall x, x <> TNode -> tbl x d = tbl x d0) /\ map fst (t_node d) = map nkey ns.

Context (HR : forall dn td h' d, Jn dn td h' d -> R d).

Lemma put_node_J dn i p td d b : Jn dn ((i, p) :: td) h d -> de cn b = Ok (fn p) ->
  Jn (dn ++ [(i, p)]) td h (d_put_node i b d).
Proof.
  intros (E & _ & [F1 F2] & Hu & Ht & Hk) Hb.
  assert (~ In i (map fst dn)) as Ni.
  { pose proof ns_nodup as N. rewrite <- E, map_app in N. simpl in N. apply NoDup_remove_2 in N.
    rewrite in_app_iff in N. tauto. }
  split; [now rewrite <- app_assoc|]. split; auto. split; [|split; [|split]].
  - apply (put_node_near cn ce base d i b (fn p) (conj F1 F2) Hb).
  - eapply updated_more; [exact Hu|exact Ni| |].
    + rewrite (nod_put cn i b (fn p)) by auto. destruct (id_eq_dec i i); congruence.
    + intros y Ny. rewrite (nod_put cn i b (fn p)) by auto. destruct (id_eq_dec y i); congruence.
  - intros x Nx. unfold d_put_node. rewrite tbl_set_neq by auto. auto.
  - unfold d_put_node. simpl. rewrite insert_keys; auto; [apply (fn_sorted cn _ F1)|].
    intros H.
    assert (In (to_be_bytes i) (map fst (t_node d))) as Hin.
    { rewrite Hk, <- E, map_app, in_app_iff. right. left. reflexivity. }
    apply in_map_iff in Hin. destruct Hin as ([ky v] & Eky & Hin). cbn [fst] in Eky. subst ky.
    pose proof (proj1 (get_none_notin BC _ _) H v). auto.
Qed.

Lemma wp_nodes cuts : wp F R (loop_end (blame F) (fault F) ns Jn)
  (loop_from t_node (fun kv => next (node_read cn kv)) (fun ip h => and_handle h (nbody (fst ip) (snd ip))) None cuts h) d0.
Proof.
  apply (wp_loop F R (blame F) (fault F) t_node (fun kv => next (node_read cn kv)) _ nkey (fun a => a) ns Jn).
  - exact HR.
  - intros dn td h' d H. apply H.
  - intros dn td h' d (_ & _ & F1 & _). apply (fn_sorted cn _ (proj1 F1)).
  - intros dn [i p] td h' d r (E & _ & F1 & Hu & _) Hin. unfold nkey in *. cbn [fst] in *.
    assert (nod d i = Some p) as Hn.
    { rewrite (updated_rest _ _ _ _ _ _ _ Hu (eq_ind_r (fun l => NoDup (map fst l)) ns_nodup E)).
      apply ns_in. rewrite <- E, in_app_iff. simpl. auto. }
    destruct (nod_some cn d i r (proj1 F1)) as (q & Hq & Hn').
    { apply (get_iff_in BC); auto. apply (fn_sorted cn _ (proj1 F1)). }
    assert (q = p) by congruence. subst q.
    apply rd_item. unfold node_read. eapply rd_eq; [apply rd_bind; [apply rd_ret|]; intros j _;
      apply rd_bind; [apply rd_bincode|]; intros v _; apply rd_ret|].
    unfold decode_id. cbn [fst snd]. rewrite try_from_to_be_bytes, Hq. reflexivity.
  - intros dn [i p] td h' d HJ HL. pose proof HJ as (E & -> & F1 & Hu & Ht & Hk).
    assert (nod d i = Some p) as Hn.
    { rewrite (updated_rest _ _ _ _ _ _ _ Hu (eq_ind_r (fun l => NoDup (map fst l)) ns_nodup E)).
      apply ns_in. rewrite <- E, in_app_iff. simpl. auto. }
    cbn [fst snd]. eapply wp_mono; [| |apply wp_and_handle, (Hbody d i p F1 Hn)].
    + intros x [->|(b & Hb & ->)]; [exact (HR _ _ _ _ HJ)|]. exact (HR _ _ _ _ (put_node_J _ _ _ _ _ _ HJ Hb)).
    + intros [r h'] x _ [Eh Hr]. cbn [fst snd] in *. subst h'. destruct r as [[]|e]; auto.
      destruct Hr as (b & Hb & ->). split; [now apply put_node_J|].
      intros [j q] r Hj Hin. unfold nkey in *. cbn [fst] in *.
      unfold d_put_node. simpl. apply (in_insert_iff BC); [apply (fn_sorted cn _ (proj1 F1))|]. right. split; auto.
      intros Ej. apply to_be_bytes_inj in Ej. subst j.
      pose proof ns_nodup as N. rewrite <- E, map_app in N. simpl in N. apply NoDup_remove_2 in N.
      apply N. rewrite in_app_iff. right. apply (in_map fst) in Hj. exact Hj.
  - split; auto. split; auto. split; auto. split; [apply updated_nil; auto|]. split; auto. apply ns_keys.
Qed.
End Nodes.

(** *** The edges *)
Section Edges.
Context (fe : EP -> EP).
Context (hs : nat -> handle k) (us : nat -> bytes -> Prop) (N : I -> option NP).

Definition Je (dn td : list (T * EP)) (h' : handle k) (d : db) : Prop :=
  dn ++ td = es /\ h' = hs (length dn) /\ fair (us (length dn)) d /\
  (forall o, updated fe dn (view o d) (view o d0)) /\
  (forall i, nod d i = N i) /\ map fst (idx SPO d) = map ekey es.

Lemma es_apart dn t e td : dn ++ (t, e) :: td = es -> ~ In t (map fst dn) /\ ~ In t (map fst td).
Proof.
  intros E. pose proof es_nodup as D. rewrite <- E, map_app in D. simpl in D. apply NoDup_remove_2 in D.
  rewrite in_app_iff in D. tauto.
Qed.

Lemma Je_view dn t e td h' d : Je dn ((t, e) :: td) h' d -> view SPO d t = Some e.
Proof.
  intros (E & _ & _ & Hu & _).
  rewrite (updated_rest _ _ _ _ _ _ _ (Hu SPO) (eq_ind_r (fun l => NoDup (map fst l)) es_nodup E)).
  apply es_in. rewrite <- E, in_app_iff. simpl. auto.
Qed.

Lemma set_edge_J dn t e td h' d r b : Je dn ((t, e) :: td) h' d -> ~ us (length dn) r ->
  (forall x, us (length dn) x \/ x = r -> us (S (length dn)) x) -> de ce b = Ok (fe e) ->
  Je (dn ++ [(t, e)]) td (hs (S (length dn))) (d_set_edge t r b d).
Proof.
  intros HJ Nr Hus Hb. pose proof (Je_view _ _ _ _ _ _ HJ) as Hv. destruct HJ as (E & _ & [F1 F2] & Hu & Hn & Hk).
  destruct (es_apart _ _ _ _ E) as [N1 N2].
  assert (length (dn ++ [(t, e)]) = S (length dn)) as El by (rewrite app_length; simpl; lia).
  split; [now rewrite <- app_assoc|]. rewrite El. split; auto. split; [|split; [|split]].
  - split; [unfold d_set_edge; now apply fairn_drop, fairn_put_edge|].
    eapply faire_mono; [exact Hus|]. eapply set_edge_faire; eauto.
  - intros o. eapply updated_more; [exact (Hu o)|exact N1| |].
    + rewrite (set_edge_view ce _ d t r b (fe e) o t F2 Nr Hb). destruct (triple_eq_dec t t); congruence.
    + intros u Nu. rewrite (set_edge_view ce _ d t r b (fe e) o u F2 Nr Hb). destruct (triple_eq_dec u t); congruence.
  - intros i. rewrite <- Hn. unfold d_set_edge. destruct (rid SPO d t); reflexivity.
  - assert (idx SPO (d_set_edge t r b d) = binsert (enc SPO t) r (idx SPO d)) as ->
      by (unfold d_set_edge; destruct (rid SPO d t); reflexivity).
    rewrite insert_keys; auto; [apply (fe_isorted ce _ _ F2)|].
    unfold SledDb.view, rid in Hv. intros H. rewrite H in Hv. discriminate.
Qed.

(** Where the database may be while the edge is written. *)
Context (ebody : T -> EP -> handle k -> P (result err unit * handle k)) (mid : nat -> db -> T -> EP -> db -> Prop).
Context (Hbody : forall c d t e, c < length es -> fair (us c) d -> view SPO d t = Some e ->
  wp F (mid c d t e)
    (fun rh x => match fst rh with
       | Ok _ => snd rh = hs (S c) /\ exists r b, ~ us c r /\ (forall x, us c x \/ x = r -> us (S c) x) /\
           de ce b = Ok (fe e) /\ x = d_set_edge t r b d
       | Err e => blame F e
       end) (ebody t e (hs c)) d).
Context (HR : forall dn td h' d, Je dn td h' d -> R d).
Context (Hmid : forall dn t e td h' d x, Je dn ((t, e) :: td) h' d -> mid (length dn) d t e x -> R x).

Lemma edge_read_val d kv : rd (SE := SE) (BE := BE) F d (edge_read (k := k) ce kv) (edge_val ce d SPO kv).
Proof.
  unfold edge_read, edge_val. apply rd_bind; [apply rd_ret|]. intros t _.
  apply (rd_eq F d _ (and_then (Ok (bget (snd kv) (tbl TEdge d))) (fun data => and_then (get_de ce data) (fun p =>
    match p with Some p => Ok (t, p) | None => Err MissingPropertyData end)))); [|reflexivity].
  apply rd_bind; [apply rd_get|]. intros data _. apply rd_bind; [apply rd_opt_de|]. intros [p|] _; apply rd_ret.
Qed.

Lemma wp_edges cuts h d : Je [] es h d -> wp F R (loop_end (blame F) (fault F) es Je)
  (loop_from t_spo (fun kv => next (edge_read ce kv)) (fun te h => ebody (fst te) (snd te) h) None cuts h) d.
Proof.
  apply (wp_loop F R (blame F) (fault F) t_spo (fun kv => next (edge_read ce kv)) _ ekey (fun a => a) es Je).
  - exact HR.
  - intros dn td h' x H. apply H.
  - intros dn td h' x (_ & _ & F1 & _). apply (fe_isorted ce _ _ (proj2 F1) SPO).
  - intros dn [t e] td h' x r HJ Hin. pose proof (Je_view _ _ _ _ _ _ HJ) as Hv. unfold ekey in *. cbn [fst] in *.
    destruct HJ as (_ & _ & F1 & _).
    destruct (edge_entry (SE := SE) ce _ x SPO _ _ (proj2 F1) Hin) as (u & e' & Eu & Hr & He & Hval).
    apply (enc_inj SPO) in Eu. subst u. unfold SledDb.view in Hv. rewrite Hr, He in Hv. injection Hv as ->.
    apply rd_item. eapply rd_eq; [apply edge_read_val|]. exact Hval.
  - intros dn [t e] td h' x HJ HL. pose proof (Je_view _ _ _ _ _ _ HJ) as Hv. pose proof HJ as (E & -> & F1 & Hu & Hn & Hk).
    cbn [fst snd]. eapply wp_mono; [| |apply (Hbody (length dn) x t e)]; auto.
    + intros y. now apply (Hmid dn t e td (hs (length dn)) x).
    + intros [v h'] y _ Hr. cbn [fst snd] in *. destruct v as [[]|er]; auto.
      destruct Hr as (-> & r & b & Nr & Hus & Hb & ->). split; [eapply set_edge_J; eauto|].
      intros [u e'] r' Hin Hi. unfold ekey in *. cbn [fst] in *.
      destruct (es_apart _ _ _ _ E) as [_ N2].
      assert (u <> t) as Nu by (intros ->; apply N2; apply (in_map fst) in Hin; exact Hin).
      assert (t_spo (d_set_edge t r b x) = binsert (enc SPO t) r (t_spo x)) as ->
        by (unfold d_set_edge; destruct (rid SPO x t); reflexivity).
      apply (in_insert_iff BC); [apply (fe_isorted ce _ _ (proj2 F1) SPO)|]. right. split; auto.
      intros Eu. now apply (enc_inj SPO) in Eu.
    + rewrite <- E, app_length. simpl. lia.
Qed.
End Edges.
End Self.
