(** Facts about the five trees of a SledTripleStore: what they mean, when they are
    consistent, and how elementary updates act on them. *)
From Coq Require Import Arith NArith List Bool Sorted Lia.
From Verif Require Import Bytes BytesFacts OMap OMapFacts Core IdType IdTypeFacts Store Mem Spec
  CodecFacts ListFacts MemSim History Prog Sled SledHistory.
Import ListNotations.

Definition tab (o : edge_order) : table := match o with SPO => TSpo | POS => TPos | OSP => TOsp end.
Definition idx (o : edge_order) (d : db) : tree := tbl (tab o) d.

Lemma table_dec (x y : table) : {x = y} + {x <> y}.
Proof. decide equality. Defined.
Lemma order_dec (x y : edge_order) : {x = y} + {x <> y}.
Proof. decide equality. Defined.

Lemma tbl_set_eq x v d : tbl x (set_tbl x v d) = v.
Proof. destruct x; reflexivity. Qed.
Lemma tbl_set_neq x y v d : x <> y -> tbl x (set_tbl y v d) = tbl x d.
Proof. destruct x, y; intros H; try reflexivity; congruence. Qed.
Lemma set_tbl_same x d : set_tbl x (tbl x d) d = d.
Proof. destruct x, d; reflexivity. Qed.
Lemma db_ext (d d' : db) : (forall x, tbl x d = tbl x d') -> d = d'.
Proof.
  intros H. destruct d, d'.
  pose proof (H TNode); pose proof (H TEdge); pose proof (H TSpo); pose proof (H TPos); pose proof (H TOsp).
  simpl in *. congruence.
Qed.
Lemma tab_edge o : tab o <> TEdge. Proof. destruct o; discriminate. Qed.
Lemma tab_node o : tab o <> TNode. Proof. destruct o; discriminate. Qed.
Lemma tab_inj o o' : tab o = tab o' -> o = o'. Proof. destruct o, o'; simpl; congruence. Qed.

(** ** Keyed trees *)
Section Trees.
Let BC := bytes_cmp_ok.

Lemma bremove_absent key (m : tree) : bget key m = None -> bremove key m = m.
Proof.
  induction m as [|[k' v] m IH]; simpl; auto.
  destruct (bytes_cmp key k') eqn:E; try discriminate; intros H; rewrite IH; auto.
Qed.

Lemma insert_remove_comm r old b (m : tree) : r <> old -> om_sorted bytes_cmp m ->
  binsert r b (bremove old m) = bremove old (binsert r b m).
Proof.
  intros N S. apply (om_get_ext BC).
  - now apply (om_sorted_insert BC), (om_sorted_filter).
  - apply om_sorted_filter. now apply (om_sorted_insert BC).
  - intros j. destruct (list_eq_dec Byte.byte_eq_dec j r) as [->|Nr].
    + now rewrite (get_insert_eq BC), (get_remove_neq BC), (get_insert_eq BC).
    + rewrite (get_insert_neq BC) by auto. destruct (list_eq_dec Byte.byte_eq_dec j old) as [->|No].
      * now rewrite !(get_remove_eq).
      * now rewrite !(get_remove_neq BC), (get_insert_neq BC) by auto.
Qed.

Definition removes (keys : list bytes) (m : tree) : tree := fold_left (fun t key => bremove key t) keys m.

Lemma removes_app a b m : removes (a ++ b) m = removes b (removes a m).
Proof. apply fold_left_app. Qed.

Lemma removes_sorted keys : forall m, om_sorted bytes_cmp m -> om_sorted bytes_cmp (removes keys m).
Proof. induction keys as [|key keys IH]; intros m S; simpl; auto. apply IH. now apply om_sorted_filter. Qed.

Lemma removes_get_in keys : forall m j, In j keys -> bget j (removes keys m) = None.
Proof.
  assert (forall keys (m : tree) j, bget j m = None -> bget j (removes keys m) = None) as Hn.
  { induction keys0 as [|key keys' IH]; intros m j H; simpl; auto. apply IH.
    destruct (list_eq_dec Byte.byte_eq_dec j key) as [->|N].
    - apply get_remove_eq.
    - now rewrite (get_remove_neq BC). }
  induction keys as [|key keys IH]; intros m j [].
  - subst. simpl. apply Hn, get_remove_eq.
  - simpl. auto.
Qed.

Lemma removes_get_notin keys : forall m j, ~ In j keys -> bget j (removes keys m) = bget j m.
Proof.
  induction keys as [|key keys IH]; intros m j H; simpl; auto.
  simpl in H. rewrite IH by tauto. apply (get_remove_neq BC). intros ->. tauto.
Qed.

Lemma removes_in keys : forall m j v, In (j, v) (removes keys m) -> In (j, v) m.
Proof.
  induction keys as [|key keys IH]; intros m j v H; simpl in *; auto.
  apply IH in H. apply (in_remove BC) in H. tauto.
Qed.

End Trees.

Section Db.
Context {k : idkind} {NP EP BE : Type} (cn : codec BE NP) (ce : codec BE EP).
Notation I := (Id k).
Notation T := (triple (Id k)).
Notation G := (graph k NP EP).
Let BC := bytes_cmp_ok.

(** ** Meaning *)
Definition ok_value {P} (r : result BE P) : option P := match r with Ok p => Some p | Err _ => None end.

Definition nod (d : db) (i : I) : option NP :=
  match bget (to_be_bytes i) (t_node d) with Some b => ok_value (de cn b) | None => None end.
Definition rid (o : edge_order) (d : db) (t : T) : option bytes := bget (enc o t) (idx o d).
Definition record (d : db) (r : bytes) : option EP :=
  match bget r (t_edge d) with Some b => ok_value (de ce b) | None => None end.
Definition view (o : edge_order) (d : db) (t : T) : option EP :=
  match rid o d t with Some r => record d r | None => None end.
Definition sabs (d : db) : G := Graph (nod d) (view SPO d).

(** ** Consistency *)
Record fairn (d : db) : Prop := {
  fn_sorted : om_sorted bytes_cmp (t_node d);
  fn_items : forall key b, In (key, b) (t_node d) -> exists (i : I) p, key = to_be_bytes i /\ de cn b = Ok p
}.

(** Each index alone is consistent with the property records.  [U] are the record keys in use
    or abandoned. *)
Record faire (U : bytes -> Prop) (d : db) : Prop := {
  fe_sorted : om_sorted bytes_cmp (t_edge d);
  fe_isorted : forall o, om_sorted bytes_cmp (idx o d);
  fe_keys : forall o key r, In (key, r) (idx o d) -> exists t : T, key = enc o t;
  fe_rec : forall o t r, rid o d t = Some r -> record d r <> None;
  fe_inj : forall o o' t t' r, rid o d t = Some r -> rid o' d t' = Some r -> t = t';
  fe_used : forall r, bget r (t_edge d) <> None -> U r
}.

Definition fair (U : bytes -> Prop) (d : db) : Prop := fairn d /\ faire U d.

(** The three indexes agree. *)
Definition indexes_agree (d : db) : Prop := forall o t, rid o d t = rid SPO d t.

Definition sgood (U : bytes -> Prop) (d : db) : Prop := fair U d /\ indexes_agree d.

Lemma good_view U d o t : sgood U d -> view o d t = view SPO d t.
Proof. intros [_ A]. unfold view. now rewrite A. Qed.

Lemma faire_mono (U U' : bytes -> Prop) d : (forall r, U r -> U' r) -> faire U d -> faire U' d.
Proof. intros H [F1 F2 F3 F4 F5 F6]. split; auto. Qed.
Lemma good_mono (U U' : bytes -> Prop) d : (forall r, U r -> U' r) -> sgood U d -> sgood U' d.
Proof. intros H [[F1 F2] A]. split; [split|]; auto. eapply faire_mono; eauto. Qed.

Lemma rid_used U d o t r : faire U d -> rid o d t = Some r -> U r.
Proof.
  intros F H. apply (fe_used _ _ F). apply (fe_rec _ _ F) in H. unfold record in H.
  destruct (bget r (t_edge d)); congruence.
Qed.

Lemma good_new U : sgood U db_new.
Proof.
  split; [split|].
  - split; simpl; [constructor | intros ? ? []].
  - split.
    + constructor.
    + intros []; constructor.
    + intros [] ? ? [].
    + intros []; unfold rid; simpl; discriminate.
    + intros [] ? ? ? ?; unfold rid; simpl; discriminate.
    + simpl. congruence.
  - intros o t. destruct o; reflexivity.
Qed.

Lemma abs_new : g_equiv (sabs db_new) g_empty.
Proof. split; reflexivity. Qed.

(** ** Updates of the node table *)
Definition d_put_node (i : I) (b : bytes) (d : db) : db := set_tbl TNode (binsert (to_be_bytes i) b (t_node d)) d.
Definition d_del_node (i : I) (d : db) : db := set_tbl TNode (bremove (to_be_bytes i) (t_node d)) d.

Lemma fairn_put i b p d : fairn d -> de cn b = Ok p -> fairn (d_put_node i b d).
Proof.
  intros [S H] Hb. split; simpl.
  - now apply (om_sorted_insert BC).
  - intros key b' Hin. apply in_insert_weak in Hin. destruct Hin as [[-> ->]|Hin]; eauto.
Qed.

Lemma fairn_del i d : fairn d -> fairn (d_del_node i d).
Proof.
  intros [S H]. split; simpl.
  - now apply om_sorted_filter.
  - intros key b Hin. apply (in_remove BC) in Hin. destruct Hin. eauto.
Qed.

Lemma nod_put i b p d j : de cn b = Ok p ->
  nod (d_put_node i b d) j = if id_eq_dec j i then Some p else nod d j.
Proof.
  intros Hb. unfold nod. simpl. destruct (id_eq_dec j i) as [->|N].
  - now rewrite (get_insert_eq BC), Hb.
  - rewrite (get_insert_neq BC); auto. intros H. now apply to_be_bytes_inj in H.
Qed.

Lemma nod_del i d j : nod (d_del_node i d) j = if id_eq_dec j i then None else nod d j.
Proof.
  unfold nod. simpl. destruct (id_eq_dec j i) as [->|N].
  - now rewrite get_remove_eq.
  - rewrite (get_remove_neq BC); auto. intros H. now apply to_be_bytes_inj in H.
Qed.

(** An edge-side property does not see the node table, and conversely. *)
Lemma faire_node U d v : faire U d -> faire U (set_tbl TNode v d).
Proof.
  intros [F1 F2 F3 F4 F5 F6].
  assert (forall o, idx o (set_tbl TNode v d) = idx o d) as Hi by (intros []; reflexivity).
  assert (forall o t, rid o (set_tbl TNode v d) t = rid o d t) as Hr
    by (intros; unfold rid; now rewrite Hi).
  split; auto.
  - intros o. rewrite Hi. apply F2.
  - intros o. rewrite Hi. apply F3.
  - intros o t r. rewrite Hr. apply F4.
  - intros o o' t t' r. rewrite !Hr. apply F5.
Qed.
Lemma agree_node d v : indexes_agree d -> indexes_agree (set_tbl TNode v d).
Proof. intros A o t. generalize (A o t). destruct o; auto. Qed.
Lemma view_node o d v t : view o (set_tbl TNode v d) t = view o d t.
Proof. destruct o; reflexivity. Qed.
Lemma fairn_other x d v : x <> TNode -> fairn d -> fairn (set_tbl x v d).
Proof. intros N [S H]. split; destruct x; auto; congruence. Qed.
Lemma nod_other x d v i : x <> TNode -> nod (set_tbl x v d) i = nod d i.
Proof. unfold nod. destruct x; simpl; congruence. Qed.

(** ** Updates of the property records *)
Definition d_put_rec (r b : bytes) (d : db) : db := set_tbl TEdge (binsert r b (t_edge d)) d.
Definition d_del_rec (r : bytes) (d : db) : db := set_tbl TEdge (bremove r (t_edge d)) d.

Lemma rid_edge o d v t : rid o (set_tbl TEdge v d) t = rid o d t.
Proof. destruct o; reflexivity. Qed.
Lemma idx_edge o d v : idx o (set_tbl TEdge v d) = idx o d.
Proof. destruct o; reflexivity. Qed.

Lemma record_put r b e d r' : de ce b = Ok e ->
  record (d_put_rec r b d) r' = if list_eq_dec Byte.byte_eq_dec r' r then Some e else record d r'.
Proof.
  intros Hb. unfold record. simpl. destruct (list_eq_dec _ r' r) as [->|N].
  - now rewrite (get_insert_eq BC), Hb.
  - now rewrite (get_insert_neq BC).
Qed.
Lemma record_del r d r' :
  record (d_del_rec r d) r' = if list_eq_dec Byte.byte_eq_dec r' r then None else record d r'.
Proof.
  unfold record. simpl. destruct (list_eq_dec _ r' r) as [->|N].
  - now rewrite get_remove_eq.
  - now rewrite (get_remove_neq BC).
Qed.

Lemma fresh_unused (U : bytes -> Prop) d r : faire U d -> ~ U r -> forall o t, rid o d t <> Some r.
Proof. intros F N o t H. apply N. eapply rid_used; eauto. Qed.

(** A new record. *)
Lemma faire_put_rec (U : bytes -> Prop) d r b e : faire U d -> ~ U r -> de ce b = Ok e ->
  faire (fun x => U x \/ x = r) (d_put_rec r b d).
Proof.
  intros F N Hb. pose proof (fresh_unused U d r F N) as Hn. destruct F as [F1 F2 F3 F4 F5 F6]. split.
  - now apply (om_sorted_insert BC).
  - intros o. unfold d_put_rec. rewrite idx_edge. apply F2.
  - intros o. unfold d_put_rec. rewrite idx_edge. apply F3.
  - intros o t r'. unfold d_put_rec at 1. rewrite rid_edge. intros H. rewrite (record_put r b e) by auto.
    destruct (list_eq_dec _ r' r); [discriminate | eauto].
  - intros o o' t t' r'. unfold d_put_rec. rewrite !rid_edge. eauto.
  - intros r'. simpl. destruct (list_eq_dec Byte.byte_eq_dec r' r) as [->|N']; auto.
    rewrite (get_insert_neq BC) by auto. auto.
Qed.

Lemma view_put_rec (U : bytes -> Prop) d r b o t : faire U d -> ~ U r ->
  view o (d_put_rec r b d) t = view o d t.
Proof.
  intros F N. unfold view, d_put_rec. rewrite rid_edge. destruct (rid o d t) as [r'|] eqn:Hr; auto.
  assert (r' <> r) as Nr by (intros ->; now apply (fresh_unused U d r F N o t)).
  unfold record. simpl. now rewrite (get_insert_neq BC).
Qed.

(** Removing a record that no index refers to. *)
Lemma faire_del_rec (U : bytes -> Prop) d r : faire U d -> (forall o t, rid o d t <> Some r) ->
  faire U (d_del_rec r d).
Proof.
  intros [F1 F2 F3 F4 F5 F6] Hn. split.
  - now apply om_sorted_filter.
  - intros o. unfold d_del_rec. rewrite idx_edge. apply F2.
  - intros o. unfold d_del_rec. rewrite idx_edge. apply F3.
  - intros o t r'. unfold d_del_rec at 1. rewrite rid_edge. intros H. rewrite record_del.
    destruct (list_eq_dec _ r' r) as [->|]; [now apply Hn in H | eauto].
  - intros o o' t t' r'. unfold d_del_rec. rewrite !rid_edge. eauto.
  - intros r'. simpl. destruct (list_eq_dec Byte.byte_eq_dec r' r) as [->|N'].
    + rewrite get_remove_eq. congruence.
    + rewrite (get_remove_neq BC) by auto. auto.
Qed.

Lemma view_del_rec d r o t : (forall o t, rid o d t <> Some r) -> view o (d_del_rec r d) t = view o d t.
Proof.
  intros Hn. unfold view, d_del_rec. rewrite rid_edge. destruct (rid o d t) as [r'|] eqn:Hr; auto.
  fold (d_del_rec r d). rewrite record_del. destruct (list_eq_dec _ r' r) as [->|]; auto.
  now apply Hn in Hr.
Qed.

(** ** Updates of one index *)
Definition d_put_idx (o : edge_order) (t : T) (r : bytes) (d : db) : db :=
  set_tbl (tab o) (binsert (enc o t) r (idx o d)) d.
Definition d_del_idx (o : edge_order) (t : T) (d : db) : db :=
  set_tbl (tab o) (bremove (enc o t) (idx o d)) d.

Lemma idx_set_eq o v d : idx o (set_tbl (tab o) v d) = v.
Proof. apply tbl_set_eq. Qed.
Lemma idx_set_neq o o' v d : o <> o' -> idx o (set_tbl (tab o') v d) = idx o d.
Proof. intros N. apply tbl_set_neq. intros H. now apply tab_inj in H. Qed.
Lemma t_edge_set o v d : t_edge (set_tbl (tab o) v d) = t_edge d.
Proof. destruct o; reflexivity. Qed.
Lemma t_node_set o v d : t_node (set_tbl (tab o) v d) = t_node d.
Proof. destruct o; reflexivity. Qed.
Lemma record_set o v d r : record (set_tbl (tab o) v d) r = record d r.
Proof. unfold record. now rewrite t_edge_set. Qed.

Lemma enc_neq o (t u : T) : t <> u -> enc o t <> enc o u.
Proof. intros N H. apply N. now apply enc_inj in H. Qed.

Lemma rid_put o t r d o' u :
  rid o' (d_put_idx o t r d) u =
  if order_dec o' o then if triple_eq_dec u t then Some r else rid o' d u else rid o' d u.
Proof.
  unfold rid, d_put_idx. destruct (order_dec o' o) as [->|No].
  - rewrite idx_set_eq. destruct (triple_eq_dec u t) as [->|N].
    + apply (get_insert_eq BC).
    + apply (get_insert_neq BC). now apply enc_neq.
  - now rewrite idx_set_neq.
Qed.

Lemma rid_del o t d o' u :
  rid o' (d_del_idx o t d) u =
  if order_dec o' o then if triple_eq_dec u t then None else rid o' d u else rid o' d u.
Proof.
  unfold rid, d_del_idx. destruct (order_dec o' o) as [->|No].
  - rewrite idx_set_eq. destruct (triple_eq_dec u t) as [->|N].
    + apply get_remove_eq.
    + apply (get_remove_neq BC). now apply enc_neq.
  - now rewrite idx_set_neq.
Qed.

Lemma faire_put_idx (U : bytes -> Prop) d o t r : faire U d -> record d r <> None ->
  (forall o' u, rid o' d u = Some r -> u = t) -> faire U (d_put_idx o t r d).
Proof.
  intros [F1 F2 F3 F4 F5 F6] Hr Hu.
  assert (forall o' u r', rid o' (d_put_idx o t r d) u = Some r' ->
    (u = t /\ r' = r) \/ rid o' d u = Some r') as Hcase.
  { intros o' u r'. rewrite rid_put. destruct (order_dec o' o); auto. destruct (triple_eq_dec u t); auto.
    intros [= <-]. auto. }
  split.
  - unfold d_put_idx. now rewrite t_edge_set.
  - intros o'. unfold d_put_idx. destruct (order_dec o' o) as [->|No].
    + rewrite idx_set_eq. apply (om_sorted_insert BC). auto.
    + rewrite idx_set_neq by auto. auto.
  - intros o' key r'. unfold d_put_idx. destruct (order_dec o' o) as [->|No].
    + rewrite idx_set_eq. intros H. apply in_insert_weak in H. destruct H as [[-> _]|H]; eauto.
    + rewrite idx_set_neq by auto. eauto.
  - intros o' u r' H. unfold d_put_idx. rewrite record_set.
    apply Hcase in H. destruct H as [[_ ->]|H]; eauto.
  - intros o1 o2 u1 u2 r' H1 H2. apply Hcase in H1, H2.
    destruct H1 as [[-> ->]|H1]; destruct H2 as [[E2 E2']|H2]; subst; auto.
    + symmetry. eauto.
    + eauto.
    + eauto.
  - unfold d_put_idx. rewrite t_edge_set. auto.
Qed.

Lemma faire_del_idx (U : bytes -> Prop) d o t : faire U d -> faire U (d_del_idx o t d).
Proof.
  intros [F1 F2 F3 F4 F5 F6].
  assert (forall o' u r', rid o' (d_del_idx o t d) u = Some r' -> rid o' d u = Some r') as Hcase.
  { intros o' u r'. rewrite rid_del. destruct (order_dec o' o); auto. destruct (triple_eq_dec u t); auto.
    discriminate. }
  split.
  - unfold d_del_idx. now rewrite t_edge_set.
  - intros o'. unfold d_del_idx. destruct (order_dec o' o) as [->|No].
    + rewrite idx_set_eq. apply om_sorted_filter. auto.
    + rewrite idx_set_neq by auto. auto.
  - intros o' key r'. unfold d_del_idx. destruct (order_dec o' o) as [->|No].
    + rewrite idx_set_eq. intros H. apply (in_remove BC) in H. destruct H. eauto.
    + rewrite idx_set_neq by auto. eauto.
  - intros o' u r' H. unfold d_del_idx. rewrite record_set. eauto.
  - intros o1 o2 u1 u2 r' H1 H2. eauto.
  - unfold d_del_idx. rewrite t_edge_set. auto.
Qed.

Lemma view_put_idx o t r d o' u :
  view o' (d_put_idx o t r d) u =
  if order_dec o' o then if triple_eq_dec u t then record d r else view o' d u else view o' d u.
Proof.
  unfold view. rewrite rid_put. unfold d_put_idx.
  destruct (order_dec o' o); [destruct (triple_eq_dec u t)|]; auto.
  - apply record_set.
  - destruct (rid o' d u); auto. apply record_set.
  - destruct (rid o' d u); auto. apply record_set.
Qed.

Lemma view_del_idx o t d o' u :
  view o' (d_del_idx o t d) u =
  if order_dec o' o then if triple_eq_dec u t then None else view o' d u else view o' d u.
Proof.
  unfold view. rewrite rid_del. unfold d_del_idx.
  destruct (order_dec o' o); [destruct (triple_eq_dec u t)|]; auto.
  - destruct (rid o' d u); auto. apply record_set.
  - destruct (rid o' d u); auto. apply record_set.
Qed.

End Db.
