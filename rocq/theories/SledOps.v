(** Each call of the SledTripleStore API on a consistent database: at every moment, with
    storage failures, and at its end. *)
From Coq Require Import Arith NArith List Bool Sorted Lia.
From Verif Require Import Bytes BytesFacts OMap OMapFacts Core IdType IdTypeFacts Store Mem Spec
  CodecFacts ListFacts MemSim History Prog ProgFacts Sled SledHistory SledDb.
Import ListNotations.

Section Ops.
Context {k : idkind} {NP EP SE BE : Type} (cn : codec BE NP) (ce : codec BE EP).
Context (Hcn : codec_ok cn) (Hce : codec_ok ce).
Notation I := (Id k).
Notation T := (triple (Id k)).
Notation G := (graph k NP EP).
Notation err := (sled_error SE BE).
Notation P A := (prog db SE A).
Notation PR A := (prog db SE (result err A)).
Notation fair := (fair (k := k) cn ce).
Notation sgood := (sgood (k := k) cn ce).
Notation agree := (indexes_agree (k := k)).
Notation sabs := (sabs (k := k) cn ce).
Notation nod := (nod (k := k) cn).
Notation view := (view (k := k) ce).
Notation record := (record ce).
Notation bytes_dec := (list_eq_dec Byte.byte_eq_dec).
Let BC := bytes_cmp_ok.
Implicit Types t u : T.
Implicit Types F : SE -> Prop.
Implicit Types U : bytes -> Prop.

(** ** Compound updates *)
Definition d_put_edge (t : T) (r b : bytes) (d : db) : db :=
  d_put_idx OSP t r (d_put_idx POS t r (d_put_idx SPO t r (d_put_rec r b d))).

Definition d_drop (old : option bytes) (d : db) : db :=
  match old with Some r => d_del_rec r d | None => d end.

Definition d_set_edge (t : T) (r b : bytes) (d : db) : db := d_drop (rid SPO d t) (d_put_edge t r b d).

Definition d_rm_edge (t : T) (d : db) : db :=
  d_drop (rid SPO d t) (d_del_idx OSP t (d_del_idx POS t (d_del_idx SPO t d))).

Definition d_rm_many (ts : list T) (rs : list bytes) (d : db) : db :=
  Db (t_node d) (removes rs (t_edge d)) (removes (map (enc SPO) ts) (t_spo d))
     (removes (map (enc POS) ts) (t_pos d)) (removes (map (enc OSP) ts) (t_osp d)).

Lemma rid_put_edge t r b d o u :
  rid o (d_put_edge t r b d) u = if triple_eq_dec u t then Some r else rid o d u.
Proof.
  unfold d_put_edge. rewrite !rid_put. unfold d_put_rec. rewrite rid_edge.
  destruct (triple_eq_dec u t); destruct o; reflexivity.
Qed.

Lemma record_put_edge t r b e d r' : de ce b = Ok e ->
  record (d_put_edge t r b d) r' = if bytes_dec r' r then Some e else record d r'.
Proof.
  intros Hb. unfold d_put_edge, d_put_idx. rewrite !record_set. now apply record_put.
Qed.

Lemma nod_put_edge t r b d i : nod (d_put_edge t r b d) i = nod d i.
Proof. reflexivity. Qed.

Lemma put_edge_faire (U : bytes -> Prop) d t r b e : faire (k := k) ce U d -> ~ U r -> de ce b = Ok e ->
  faire (k := k) ce (fun x => U x \/ x = r) (d_put_edge t r b d).
Proof.
  intros F N Hb. unfold d_put_edge.
  pose proof (faire_put_rec ce U d r b e F N Hb) as F1.
  assert (record (d_put_rec r b d) r <> None) as Hr.
  { rewrite (record_put ce r b e) by auto. destruct (bytes_dec r r); congruence. }
  assert (forall o u, rid (k := k) o (d_put_rec r b d) u = Some r -> u = t) as H1.
  { intros o u. unfold d_put_rec. rewrite rid_edge. intros H. exfalso. revert H. eapply fresh_unused; eauto. }
  apply faire_put_idx; [apply faire_put_idx; [apply faire_put_idx|..]|..].
  - exact F1.
  - exact Hr.
  - apply H1.
  - unfold d_put_idx. now rewrite record_set.
  - intros o u. rewrite rid_put. destruct (triple_eq_dec u t); auto. destruct (order_dec o SPO); apply H1.
  - unfold d_put_idx. now rewrite !record_set.
  - intros o u. rewrite !rid_put. destruct (triple_eq_dec u t); auto.
    destruct (order_dec o POS), (order_dec o SPO); apply H1.
Qed.

Lemma put_edge_view (U : bytes -> Prop) d t r b e o u : faire (k := k) ce U d -> ~ U r -> de ce b = Ok e ->
  view o (d_put_edge t r b d) u = if triple_eq_dec u t then Some e else view o d u.
Proof.
  intros F N Hb. unfold SledDb.view. rewrite rid_put_edge. destruct (triple_eq_dec u t).
  - rewrite (record_put_edge t r b e) by auto. destruct (bytes_dec r r); congruence.
  - destruct (rid o d u) as [r'|] eqn:Hr; auto. rewrite (record_put_edge t r b e) by auto.
    destruct (bytes_dec r' r) as [->|]; auto. exfalso. revert Hr. eapply fresh_unused; eauto.
Qed.

Lemma put_edge_old (U : bytes -> Prop) d t r b old : faire (k := k) ce U d -> ~ U r -> rid SPO d t = Some old ->
  forall o (u : T), rid o (d_put_edge t r b d) u <> Some old.
Proof.
  intros F N Ho o u. rewrite rid_put_edge. destruct (triple_eq_dec u t) as [->|Nu].
  - intros [= ->]. apply N. eapply rid_used; eauto.
  - intros H. apply Nu. eapply (fe_inj ce _ _ F); eauto.
Qed.

Lemma rid_drop old d o u : rid (k := k) o (d_drop old d) u = rid o d u.
Proof. destruct old; simpl; auto. unfold d_del_rec. apply rid_edge. Qed.

Lemma set_edge_faire (U : bytes -> Prop) d t r b e : faire (k := k) ce U d -> ~ U r -> de ce b = Ok e ->
  faire (k := k) ce (fun x => U x \/ x = r) (d_set_edge t r b d).
Proof.
  intros F N Hb. unfold d_set_edge. pose proof (put_edge_faire U d t r b e F N Hb) as F1.
  destruct (rid SPO d t) as [old|] eqn:Ho; simpl; auto.
  apply faire_del_rec; auto. eapply put_edge_old; eauto.
Qed.

Lemma set_edge_view (U : bytes -> Prop) d t r b e o u : faire (k := k) ce U d -> ~ U r -> de ce b = Ok e ->
  view o (d_set_edge t r b d) u = if triple_eq_dec u t then Some e else view o d u.
Proof.
  intros F N Hb. unfold d_set_edge. rewrite <- (put_edge_view U d t r b e o u F N Hb).
  destruct (rid SPO d t) as [old|] eqn:Ho; simpl; auto.
  apply view_del_rec. eapply put_edge_old; eauto.
Qed.

Lemma rid_set_edge t r b d o u :
  rid o (d_set_edge t r b d) u = if triple_eq_dec u t then Some r else rid o d u.
Proof. unfold d_set_edge. rewrite rid_drop. apply rid_put_edge. Qed.

Lemma put_edge_agree t r b d : agree d -> agree (d_put_edge t r b d).
Proof. intros A o u. rewrite !rid_put_edge. destruct (triple_eq_dec u t); auto. Qed.
Lemma set_edge_agree t r b d : agree d -> agree (d_set_edge t r b d).
Proof. intros A o u. rewrite !rid_set_edge. destruct (triple_eq_dec u t); auto. Qed.

Lemma rid_rm_edge t d o u :
  rid o (d_rm_edge t d) u = if triple_eq_dec u t then None else rid o d u.
Proof.
  unfold d_rm_edge. rewrite rid_drop, !rid_del. destruct (triple_eq_dec u t); destruct o; reflexivity.
Qed.

Lemma rm_edge_old (U : bytes -> Prop) d t old : faire (k := k) ce U d -> rid SPO d t = Some old ->
  forall o (u : T), rid o (d_del_idx OSP t (d_del_idx POS t (d_del_idx SPO t d))) u <> Some old.
Proof.
  intros F Ho o u. rewrite !rid_del. destruct (triple_eq_dec u t) as [->|N].
  - destruct o; discriminate.
  - intros H. apply N. assert (rid o d u = Some old) by (destruct o; exact H).
    eapply (fe_inj ce _ _ F); eauto.
Qed.

Lemma rm_edge_faire (U : bytes -> Prop) d t : faire (k := k) ce U d -> faire (k := k) ce U (d_rm_edge t d).
Proof.
  intros F. unfold d_rm_edge.
  assert (faire (k := k) ce U (d_del_idx OSP t (d_del_idx POS t (d_del_idx SPO t d)))) as F1
    by (do 3 apply faire_del_idx; auto).
  destruct (rid SPO d t) as [old|] eqn:Ho; simpl; auto.
  apply faire_del_rec; auto. eapply rm_edge_old; eauto.
Qed.

Lemma rm_edge_view (U : bytes -> Prop) d t o u : faire (k := k) ce U d ->
  view o (d_rm_edge t d) u = if triple_eq_dec u t then None else view o d u.
Proof.
  intros F. unfold d_rm_edge.
  assert (view o (d_del_idx OSP t (d_del_idx POS t (d_del_idx SPO t d))) u
          = if triple_eq_dec u t then None else view o d u) as E.
  { rewrite !view_del_idx. destruct (triple_eq_dec u t); destruct o; reflexivity. }
  rewrite <- E. destruct (rid SPO d t) as [old|] eqn:Ho; simpl; auto.
  apply view_del_rec. eapply rm_edge_old; eauto.
Qed.

Lemma rm_edge_agree t d : agree d -> agree (d_rm_edge t d).
Proof. intros A o u. rewrite !rid_rm_edge. destruct (triple_eq_dec u t); auto. Qed.

(** ** Removing many *)
Lemma enc_in o (ts : list T) u : In (enc o u) (map (enc o) ts) <-> In u ts.
Proof.
  rewrite in_map_iff. split.
  - intros (t & E & H). apply enc_inj in E. now subst.
  - eauto.
Qed.

Lemma rid_rm_many ts rs d o u :
  rid o (d_rm_many ts rs d) u = if in_dec triple_eq_dec u ts then None else rid o d u.
Proof.
  assert (idx o (d_rm_many ts rs d) = removes (map (enc o) ts) (idx o d)) as E by (destruct o; reflexivity).
  unfold rid. rewrite E. destruct (in_dec triple_eq_dec u ts) as [H|H].
  - apply removes_get_in. now apply enc_in.
  - apply removes_get_notin. now rewrite enc_in.
Qed.

Lemma record_rm_many ts rs d r :
  record (d_rm_many ts rs d) r = if in_dec bytes_dec r rs then None else record d r.
Proof.
  unfold SledDb.record. simpl. destruct (in_dec bytes_dec r rs).
  - now rewrite removes_get_in.
  - now rewrite removes_get_notin.
Qed.

Lemma rm_many_faire (U : bytes -> Prop) d ts rs : faire (k := k) ce U d ->
  (forall o t r, In r rs -> rid o d t = Some r -> In t ts) -> faire (k := k) ce U (d_rm_many ts rs d).
Proof.
  intros [F1 F2 F3 F4 F5 F6] H.
  assert (forall o, idx o (d_rm_many ts rs d) = removes (map (enc o) ts) (idx o d)) as E
    by (intros []; reflexivity).
  split.
  - now apply removes_sorted.
  - intros o. rewrite E. now apply removes_sorted.
  - intros o key r. rewrite E. intros Hin. apply removes_in in Hin. eauto.
  - intros o t r. rewrite rid_rm_many, record_rm_many.
    destruct (in_dec triple_eq_dec t ts); [discriminate|]. intros Hr.
    destruct (in_dec bytes_dec r rs); [exfalso; eauto | eauto].
  - intros o o' t t' r. rewrite !rid_rm_many.
    destruct (in_dec triple_eq_dec t ts), (in_dec triple_eq_dec t' ts); try discriminate. eauto.
  - intros r Hr. apply F6. intros H0. apply Hr. simpl.
    destruct (in_dec bytes_dec r rs); [now apply removes_get_in | now rewrite removes_get_notin].
Qed.

Lemma rm_many_view d ts rs o u :
  (forall o t r, In r rs -> rid o d t = Some r -> In t ts) ->
  view o (d_rm_many ts rs d) u = if in_dec triple_eq_dec u ts then None else view o d u.
Proof.
  intros H. unfold SledDb.view. rewrite rid_rm_many. destruct (in_dec triple_eq_dec u ts); auto.
  destruct (rid o d u) as [r|] eqn:Hr; auto. rewrite record_rm_many.
  destruct (in_dec bytes_dec r rs); auto. exfalso. eauto.
Qed.

(** ** Specifications of the calls *)

(** Why a call may fail. *)
Definition blame (F : SE -> Prop) (e : err) : Prop :=
  match e with
  | SledError x => F x
  | SerializationError b => (exists p, ser cn p = Err b) \/ (exists p, ser ce p = Err b)
  | _ => False
  end.

Definition near (U : bytes -> Prop) (d : db) (f : G -> G) (x : db) : Prop :=
  fair U x /\ (agree d -> agree x /\ (g_equiv (sabs x) (sabs d) \/ g_equiv (sabs x) (f (sabs d)))).

Definition finished (F : SE -> Prop) (d : db) (f : G -> G) (r : result err unit) (x : db) : Prop :=
  match r with
  | Ok _ => agree d -> g_equiv (sabs x) (f (sabs d))
  | Err e => blame F e
  end.

Lemma near_refl U d f : fair U d -> near U d f d.
Proof. intros H. split; auto. intros A. split; auto. left. apply g_equiv_refl. Qed.

Lemma fair_mono (U U' : bytes -> Prop) d : (forall r, U r -> U' r) -> fair U d -> fair U' d.
Proof. intros H [F1 F2]. split; auto. eapply faire_mono; eauto. Qed.

Lemma wp_bincode {A} F (R : db -> Prop) (Q : result err A -> db -> Prop) (r : result BE A) d :
  R d -> match r with Ok a => Q (Ok a) d | Err e => Q (Err (SerializationError e)) d end ->
  wp F R Q (bincode r) d.
Proof. intros HR HQ. destruct r; simpl; auto. Qed.

Lemma wp_transaction {A} F (R : db -> Prop) (Q : result err A -> db -> Prop) (body : txn A) d :
  R d ->
  match body d with Ok (a, d') => R d' /\ Q (Ok a) d' | Err e => Q (Err e) d end ->
  (forall x, F x -> Q (Err (SledError x)) d) ->
  wp F R Q (transaction body) d.
Proof.
  intros HR HQ HF. unfold transaction. simpl. destruct (body d) as [[a d']|e]; intuition.
Qed.

Lemma wp_tree_insert F (R : db -> Prop) (Q : result err (option bytes) -> db -> Prop) x key v d :
  R d -> R (set_tbl x (binsert key v (tbl x d)) d) ->
  Q (Ok (bget key (tbl x d))) (set_tbl x (binsert key v (tbl x d)) d) ->
  (forall e, F e -> Q (Err (SledError e)) d) ->
  wp F R Q (tree_insert x key v) d.
Proof. intros. simpl. auto 6. Qed.

Lemma wp_tree_remove F (R : db -> Prop) (Q : result err (option bytes) -> db -> Prop) x key d :
  R d -> R (set_tbl x (bremove key (tbl x d)) d) ->
  Q (Ok (bget key (tbl x d))) (set_tbl x (bremove key (tbl x d)) d) ->
  (forall e, F e -> Q (Err (SledError e)) d) ->
  wp F R Q (tree_remove x key) d.
Proof. intros. simpl. auto 6. Qed.

(** *** insert_node *)
Lemma put_node_near U d n b p : fair U d -> de cn b = Ok p ->
  near U d (g_put_node n p) (d_put_node n b d) /\
  (agree d -> g_equiv (sabs (d_put_node n b d)) (g_put_node n p (sabs d))).
Proof.
  intros [F1 F2] Hb.
  assert (g_equiv (sabs (d_put_node n b d)) (g_put_node n p (sabs d))) as Hg.
  { split; simpl.
    - intros i. rewrite (nod_put cn n b p) by auto. reflexivity.
    - intros t. reflexivity. }
  split; auto. split.
  - split; [eapply fairn_put; eauto | now apply faire_node].
  - intros A. split; auto. now apply agree_node.
Qed.

Lemma wp_insert_node F U n p d : fair U d ->
  wp F (near U d (g_put_node n p)) (finished F d (g_put_node n p)) (s_insert_node cn n p : PR unit) d.
Proof.
  intros H. unfold s_insert_node. apply wp_bind_ok.
  destruct (ser cn p) as [b|e] eqn:Hs; simpl.
  - split; [now apply near_refl|]. destruct (put_node_near U d n b p H (Hcn _ _ Hs)) as [H1 H2].
    split; [now apply near_refl|]. split; [split; auto|]. intros x Hx. split; [now apply near_refl | exact Hx].
  - split; [now apply near_refl|]. split; [now apply near_refl|]. simpl. eauto.
Qed.

(** *** insert_edge *)
Lemma put_edge_equiv_abs U d t r b e : faire (k := k) ce U d -> ~ U r -> de ce b = Ok e ->
  g_equiv (sabs (d_put_edge t r b d)) (g_put_edge t e (sabs d)) /\
  g_equiv (sabs (d_set_edge t r b d)) (g_put_edge t e (sabs d)).
Proof.
  intros H N Hb. split; split; simpl; intros.
  - reflexivity.
  - eapply put_edge_view; eauto.
  - unfold d_set_edge. destruct (rid SPO d t); reflexivity.
  - eapply set_edge_view; eauto.
Qed.

Lemma fairn_put_edge t r b d : fairn (k := k) cn d -> fairn (k := k) cn (d_put_edge t r b d).
Proof. intros [S H]. split; auto. Qed.
Lemma fairn_drop old d : fairn (k := k) cn d -> fairn (k := k) cn (d_drop old d).
Proof. intros [S H]. destruct old; split; auto. Qed.

Lemma put_edge_near U d t r b e : fair U d -> ~ U r -> de ce b = Ok e ->
  near (fun x => U x \/ x = r) d (g_put_edge t e) (d_put_edge t r b d).
Proof.
  intros [F1 F2] N Hb. split.
  - split; [now apply fairn_put_edge | eapply put_edge_faire; eauto].
  - intros A. split; [now apply put_edge_agree|]. right. eapply put_edge_equiv_abs; eauto.
Qed.
Lemma set_edge_near U d t r b e : fair U d -> ~ U r -> de ce b = Ok e ->
  near (fun x => U x \/ x = r) d (g_put_edge t e) (d_set_edge t r b d).
Proof.
  intros [F1 F2] N Hb. split.
  - split; [now apply fairn_drop, fairn_put_edge | eapply set_edge_faire; eauto].
  - intros A. split; [now apply set_edge_agree|]. right. eapply put_edge_equiv_abs; eauto.
Qed.

Lemma insert_edge_txn_eq t r b d : @insert_edge_txn k SE BE t r b d = Ok (tt, d_put_edge t r b d).
Proof. reflexivity. Qed.

Definition next_key (h : handle k) : bytes := to_be_bytes (g_seq (h_gen h) (g_pos (h_gen h))).
Definition next_ulid (h : handle k) : bytes := to_be_bytes (g_seq (h_ulid h) (g_pos (h_ulid h))).
Definition step_gen (h : handle k) : handle k :=
  Handle (Gen (g_seq (h_gen h)) (S (g_pos (h_gen h)))) (h_ulid h).
Definition step_ulid (h : handle k) : handle k :=
  Handle (h_gen h) (Gen (g_seq (h_ulid h)) (S (g_pos (h_ulid h)))).

Definition with_h (h : handle k) (Q : result err unit -> db -> Prop) (rh : result err unit * handle k) (d : db) : Prop :=
  snd rh = h /\ Q (fst rh) d.

Lemma wp_and_handle F R Q (h : handle k) (p : PR unit) d :
  wp F R Q p d -> wp F R (with_h h Q) (and_handle h p) d.
Proof.
  intros H. unfold and_handle. apply wp_bind. eapply wp_mono; [| |exact H]; auto.
  intros a d' HR HQ. simpl. split; auto. split; auto.
Qed.

Lemma wp_insert_edge F U t e h d : fair U d -> ~ U (next_key h) ->
  wp F (near (fun x => U x \/ x = next_key h) d (g_put_edge t e))
       (with_h (step_gen h) (finished F d (g_put_edge t e)))
       (s_insert_edge ce t e h : P (result err unit * handle k)) d.
Proof.
  intros H N. set (U' := fun x => U x \/ x = next_key h).
  assert (near U' d (g_put_edge t e) d) as Hd
    by (apply near_refl; eapply fair_mono; [|exact H]; unfold U'; auto).
  unfold s_insert_edge, draw, fresh. apply wp_and_handle. apply wp_bind_ok. apply wp_bincode; auto.
  destruct (ser ce e) as [b|be] eqn:Hs; [|split; auto; simpl; eauto].
  apply wp_bind_ok. apply wp_transaction; auto.
  - rewrite insert_edge_txn_eq. fold (next_key h).
    pose proof (put_edge_near U d t (next_key h) b e H N (Hce _ _ Hs)) as H1.
    split; auto. simpl. split; auto. intros A. apply (put_edge_equiv_abs U d t (next_key h) b e); auto. apply H.
Qed.

(** *** merge_node *)
Lemma nod_some d n b : fairn (k := k) cn d -> bget (to_be_bytes n) (t_node d) = Some b ->
  exists p, de cn b = Ok p /\ nod d n = Some p.
Proof.
  intros F H. pose proof (get_in BC _ _ _ H) as Hin. apply (fn_items cn _ F) in Hin.
  destruct Hin as (i & p & _ & Hb). exists p. split; auto. unfold SledDb.nod. now rewrite H, Hb.
Qed.

Lemma wp_merge_node mn F U n p d : fair U d ->
  wp F (near U d (g_merge_node mn n p)) (finished F d (g_merge_node mn n p))
       (s_merge_node cn mn n p : PR unit) d.
Proof.
  intros H. pose proof (near_refl U d (g_merge_node mn n p) H) as Hd.
  unfold s_merge_node. apply wp_bind_ok. apply wp_transaction; auto.
  unfold merge_node_txn, t_bind, t_get, t_bincode, t_insert, t_ret, t_abort.
  change (tbl TNode d) with (t_node d).
  destruct (bget (to_be_bytes n) (t_node d)) as [old|] eqn:Ho.
  - destruct (nod_some d n old (proj1 H) Ho) as (q & Hq & Hn). rewrite Hq.
    assert (g_merge_node mn n p (sabs d) = g_put_node n (mn q p) (sabs d)) as E
      by (unfold g_merge_node; simpl; now rewrite Hn).
    destruct (ser cn (mn q p)) as [b|be] eqn:Hs.
    + destruct (put_node_near U d n b (mn q p) H (Hcn _ _ Hs)) as [[H1 H1'] H2].
      change (set_tbl TNode (binsert (to_be_bytes n) b (tbl TNode d)) d) with (d_put_node n b d).
      assert (near U d (g_merge_node mn n p) (d_put_node n b d)) as Hn'
        by (split; auto; rewrite E; auto).
      split; auto. simpl. split; auto. rewrite E. auto.
    + simpl. split; auto. eauto.
  - assert (g_merge_node mn n p (sabs d) = g_put_node n p (sabs d)) as E
      by (unfold g_merge_node; simpl; unfold SledDb.nod; now rewrite Ho).
    destruct (ser cn p) as [b|be] eqn:Hs.
    + destruct (put_node_near U d n b p H (Hcn _ _ Hs)) as [[H1 H1'] H2].
      change (set_tbl TNode (binsert (to_be_bytes n) b (tbl TNode d)) d) with (d_put_node n b d).
      assert (near U d (g_merge_node mn n p) (d_put_node n b d)) as Hn'
        by (split; auto; rewrite E; auto).
      split; auto. simpl. split; auto. rewrite E. auto.
    + simpl. split; auto. eauto.
Qed.

(** *** merge_edge *)
Lemma merge_edge_txn_ok me U d t r e : fair U d -> ~ U r ->
  match @merge_edge_txn k EP SE BE ce me t r e d with
  | Ok (_, d') => exists b e', de ce b = Ok e' /\ e' = merged me (view SPO d t) e /\ d' = d_set_edge t r b d
  | Err x => exists b, x = SerializationError b /\ exists p, ser ce p = Err b
  end.
Proof.
  intros [F1 F2] N. unfold merge_edge_txn, t_bind, t_insert, t_remove, t_bincode, t_ret, t_abort.
  change (bget (encode_spo t) (tbl TSpo d)) with (rid SPO d t).
  destruct (rid SPO d t) as [old|] eqn:Ho.
  - assert (U old) as Hold by (eapply rid_used; eauto).
    pose proof (fe_rec ce _ _ F2 _ _ _ Ho) as Hrec. unfold SledDb.record in Hrec.
    cbn [tbl set_tbl t_edge t_node t_spo t_pos t_osp].
    destruct (bget old (t_edge d)) as [v|] eqn:Hv; [|congruence].
    destruct (de ce v) as [q|] eqn:Hq; [|simpl in Hrec; congruence].
    assert (view SPO d t = Some q) as Hview.
    { unfold SledDb.view. rewrite Ho. unfold SledDb.record. rewrite Hv, Hq. reflexivity. }
    destruct (ser ce (me q e)) as [b|be] eqn:Hs.
    + exists b, (me q e). rewrite Hview. split; [now apply Hce|]. split; auto.
      unfold d_set_edge. rewrite Ho. apply db_ext. intros x.
      destruct x; try reflexivity. simpl. apply insert_remove_comm.
      * intros ->. contradiction.
      * apply (fe_sorted ce _ _ F2).
    + eauto.
  - assert (view SPO d t = None) as Hview by (unfold SledDb.view; now rewrite Ho).
    destruct (ser ce e) as [b|be] eqn:Hs.
    + exists b, e. rewrite Hview. split; [now apply Hce|]. split; auto.
      unfold d_set_edge. rewrite Ho. reflexivity.
    + eauto.
Qed.

Lemma wp_merge_edge me F U t e h d : fair U d -> ~ U (next_key h) ->
  wp F (near (fun x => U x \/ x = next_key h) d (g_merge_edge me t e))
       (with_h (step_gen h) (finished F d (g_merge_edge me t e)))
       (s_merge_edge ce me t e h : P (result err unit * handle k)) d.
Proof.
  intros H N. set (U' := fun x => U x \/ x = next_key h).
  assert (near U' d (g_merge_edge me t e) d) as Hd
    by (apply near_refl; eapply fair_mono; [|exact H]; unfold U'; auto).
  unfold s_merge_edge, draw, fresh. apply wp_and_handle. apply wp_bind_ok. apply wp_transaction; auto.
  fold (next_key h). pose proof (merge_edge_txn_ok me U d t (next_key h) e H N) as Ht.
  destruct (merge_edge_txn ce me t (next_key h) e d) as [[[] d']|x].
  - destruct Ht as (b & e' & Hb & -> & ->).
    destruct (set_edge_near U d t (next_key h) b _ H N Hb) as [H1 H2].
    assert (near U' d (g_merge_edge me t e) (d_set_edge t (next_key h) b d)) as Hn by (split; auto).
    split; auto. simpl. split; auto. intros A. apply (put_edge_equiv_abs U d t (next_key h) b); auto. apply H.
  - destruct Ht as (b & -> & p & Hp). simpl. split; auto. eauto.
Qed.

(** *** remove_edge *)
Lemma remove_edge_txn_eq t d : @remove_edge_txn k SE BE t d = Ok (tt, d_rm_edge t d).
Proof.
  unfold remove_edge_txn, t_bind, t_remove, t_ret, d_rm_edge.
  change (bget (encode_spo t) (tbl TSpo d)) with (rid SPO d t).
  destruct (rid SPO d t); reflexivity.
Qed.

Lemma rm_edge_near U d t : fair U d ->
  near U d (g_del_edge t) (d_rm_edge t d) /\ (agree d -> g_equiv (sabs (d_rm_edge t d)) (g_del_edge t (sabs d))).
Proof.
  intros [F1 F2].
  assert (g_equiv (sabs (d_rm_edge t d)) (g_del_edge t (sabs d))) as Hg.
  { split; simpl.
    - intros i. unfold d_rm_edge. destruct (rid SPO d t); reflexivity.
    - intros u. eapply rm_edge_view; eauto. }
  split; auto. split.
  - split; [unfold d_rm_edge; apply fairn_drop; destruct F1; split; auto | now apply rm_edge_faire].
  - intros A. split; auto. now apply rm_edge_agree.
Qed.

(** Removing what is not there. *)
Lemma rm_absent x key (d : db) : bget key (tbl x d) = None -> set_tbl x (bremove key (tbl x d)) d = d.
Proof. intros H. rewrite bremove_absent by auto. apply set_tbl_same. Qed.

Lemma rm_edge_absent t d o : bget (enc o t) (tbl (tab o) (d_rm_edge t d)) = None.
Proof.
  change (rid o (d_rm_edge t d) t = None). rewrite rid_rm_edge.
  destruct (triple_eq_dec t t); congruence.
Qed.

Lemma wp_remove_edge F U t d : fair U d ->
  wp F (near U d (g_del_edge t)) (finished F d (g_del_edge t)) (s_remove_edge t : PR unit) d.
Proof.
  intros H. pose proof (near_refl U d (g_del_edge t) H) as Hd. destruct (rm_edge_near U d t H) as [H1 H2].
  set (d' := d_rm_edge t d) in *.
  pose proof (rm_edge_absent t d SPO) as E1. pose proof (rm_edge_absent t d POS) as E2.
  pose proof (rm_edge_absent t d OSP) as E3. fold d' in E1, E2, E3. simpl enc in *. simpl tab in *.
  unfold s_remove_edge. apply wp_bind_ok. apply wp_transaction; auto.
  rewrite remove_edge_txn_eq. fold d'. split; auto.
  apply wp_bind_ok. apply wp_tree_remove; auto.
  - now rewrite rm_absent.
  - rewrite rm_absent, E1 by auto. apply wp_bind_ok. apply wp_tree_remove; auto.
    + now rewrite rm_absent.
    + rewrite rm_absent by auto. apply wp_bind_ok. apply wp_tree_remove; auto.
      * now rewrite rm_absent.
      * rewrite rm_absent by auto. simpl. auto.
Qed.

End Ops.
