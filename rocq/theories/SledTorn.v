(** A SledTripleStore after calls of extend that were cut short. *)
From Coq Require Import Arith NArith List Bool Sorted Lia.
From Verif Require Import Bytes BytesFacts OMap OMapFacts Core IdType IdTypeFacts Store Mem Spec
  CodecFacts ListFacts MemSim History Prog ProgFacts Sled SledHistory SledDb SledOps SledBulk SledRun
  SledRead SledTop SledTornSpec.
Import ListNotations.

Section Torn.
Context {k : idkind} {NP EP SE BE E : Type} (cn : codec BE NP) (ce : codec BE EP).
Context (Hcn : codec_ok cn) (Hce : codec_ok ce).
Context (mn : NP -> NP -> NP) (me : EP -> EP -> EP).
Notation I := (Id k).
Notation T := (triple (Id k)).
Notation G := (graph k NP EP).
Notation err := (sled_error SE BE).
Notation P A := (prog db SE A).
Notation PR A := (prog db SE (result err A)).
Notation fair := (fair (k := k) cn ce).
Notation agree := (indexes_agree (k := k)).
Notation sabs := (sabs (k := k) cn ce).
Notation nod := (nod (k := k) cn).
Notation view := (view (k := k) ce).
Notation record := (record ce).
Notation op := (op k NP EP E).
Notation outcome := (outcome (SE := SE) (BE := BE) (E := E)).
Notation acts := (acts (E := E) mn me).
Notation whole := (whole (E := E) mn me).
Notation cut := (cut (E := E) mn me).
Implicit Types K : list T.
Implicit Types t u : T.
Implicit Types F : SE -> Prop.
Implicit Types U : bytes -> Prop.

(** The orders agree but on [K], and the SPO order has every edge. *)
Definition off K (d : db) : Prop :=
  (forall o t, ~ In t K -> rid o d t = rid SPO d t) /\ (forall o t, rid o d t <> None -> rid SPO d t <> None).

Lemma off_agree d : agree d -> off [] d.
Proof. intros A. split; intros o t; rewrite A; auto. Qed.
Lemma off_none d : off [] d -> agree d.
Proof. intros [A _] o t. apply A. auto. Qed.
Lemma off_mono K K' d : incl K K' -> off K d -> off K' d.
Proof. intros H [A B]. split; [|exact B]. intros o t N. apply A. intros X. apply N, H, X. Qed.

Definition fin (o : op) K (d x : db) : Prop := exists K', acts o K (sabs d) K' (sabs x) /\ off K' x.
Definition dur (b : bool) U (o : op) K (d x : db) : Prop :=
  fair U x /\ exists K' n, cut b [o] K (sabs d) K' (sabs x) n /\ off K' x.

Lemma dur_start b U o K d : fair U d -> off K d -> dur b U o K d d.
Proof. intros H Ho. split; auto. exists K, 0. split; auto. apply Cu_here; [apply incl_refl|apply g_equiv_refl]. Qed.

Lemma fin_dur b U o K d x : fair U x -> fin o K d x -> dur b U o K d x.
Proof.
  intros H (K' & Ha & Ho). split; auto. exists K', 0. split; auto. eapply Cu_next; [exact Ha|].
  apply Cu_here; [apply incl_refl|apply g_equiv_refl].
Qed.

(** ** The closed forms *)
Lemma fin_node (o : op) K d x : (forall u, ~ settles o u) ->
  g_equiv (sabs x) (spec_apply mn me o (sabs d)) -> (forall oo u, rid oo x u = rid oo d u) ->
  off K d -> fin o K d x.
Proof.
  intros Hs [G1 G2] Hr [A B]. exists K. split.
  - split; [|split]; auto.
  - split; intros oo u; rewrite !Hr; [apply A|apply (B oo)].
Qed.

Lemma fin_edge (o : op) K d x t z : (forall u, settles o u <-> u = t) ->
  g_equiv (sabs x) (spec_apply mn me o (sabs d)) ->
  (forall oo u, rid oo x u = if triple_eq_dec u t then z else rid oo d u) ->
  off K d -> fin o K d x.
Proof.
  intros Hs [G1 G2] Hr [A B]. exists (filter (fun u => if triple_eq_dec u t then false else true) K). split.
  - split; [|split]; auto. intros u Hu. apply filter_In in Hu. destruct Hu as [H1 H2]. split; auto.
    rewrite Hs. destruct (triple_eq_dec u t); congruence.
  - split; intros oo u; rewrite !Hr; destruct (triple_eq_dec u t) as [Eu|Nu] eqn:Ed; auto; [|apply (B oo)].
    intros N. apply A. intros Ku. apply N. apply filter_In. split; auto. now rewrite Ed.
Qed.

Lemma fin_rm_node U n K d : fair U d -> off K d -> fin (ORemoveNode n) K d (d_rm_node n d).
Proof.
  intros [F1 F2] [A B]. pose proof (rm_node_closed ce U d n F2) as Hc. simpl in Hc.
  assert (forall oo u, rid oo (d_rm_node n d) u =
    if in_dec triple_eq_dec u (map (ent (k := k) SPO) (brange (key_bounds_1 n) (t_spo d)) ++ map (ent OSP) (brange (key_bounds_1 n) (t_osp d)))
    then None else rid oo d u) as Hr by (intros oo u; rewrite <- (rid_rm_many _ (map snd (brange (key_bounds_1 n) (t_spo d)) ++ map snd (brange (key_bounds_1 n) (t_osp d))) d oo u); destruct oo; reflexivity).
  assert (forall u, sub u = n -> forall oo, rid oo (d_rm_node n d) u = None) as Hs.
  { intros u Hu oo. rewrite Hr. destruct (in_dec triple_eq_dec u _) as [|N]; auto.
    destruct (rid oo d u) eqn:Ro; auto. exfalso. apply N, in_app_iff. left.
    apply (in_ent ce U d SPO n); auto. split; [|exact Hu]. apply (B oo). congruence. }
  exists (filter (fun u => if id_eq_dec (sub u) n then false else true) K). split; [split; [|split]|split].
  - intros u Hu. apply filter_In in Hu. destruct Hu as [H1 H2]. split; auto. simpl.
    destruct (id_eq_dec (sub u) n); congruence.
  - intros i. simpl. unfold d_rm_node. now rewrite nod_del.
  - intros u. cbn [spec_apply g_del_node g_edge SledDb.sabs]. unfold d_rm_node, d_del_node.
    rewrite view_node, rm_many_view by exact Hc.
    destruct (in_dec triple_eq_dec u _) as [H|H].
    + left. rewrite in_app_iff in H.
      destruct (id_eq_dec (sub u) n) as [|Ns]; auto. destruct (id_eq_dec (obj u) n) as [|No]; auto.
      exfalso. destruct H as [H|H].
      * apply (in_ent ce U d SPO n) in H; auto. simpl in H. tauto.
      * apply (in_ent ce U d OSP n) in H; auto. simpl in H. tauto.
    + rewrite in_app_iff in H. destruct (id_eq_dec (sub u) n) as [Es|Ns].
      * left. unfold SledDb.view. destruct (rid SPO d u) eqn:Eu; auto. exfalso. apply H. left.
        apply (in_ent ce U d SPO n); auto. split; [congruence | exact Es].
      * destruct (id_eq_dec (obj u) n) as [Eo|No]; auto.
        unfold SledDb.view. destruct (rid SPO d u) as [r|] eqn:Eu; auto.
        destruct (rid OSP d u) as [r'|] eqn:Eo'.
        -- exfalso. apply H. right. apply (in_ent ce U d OSP n); auto. split; [congruence | exact Eo].
        -- right. split; [eauto|]. split; auto.
           destruct (in_dec triple_eq_dec u K) as [|Nk]; auto. exfalso. rewrite (A OSP u Nk) in Eo'. congruence.
  - intros oo u N. destruct (id_eq_dec (sub u) n) as [Es|Ns] eqn:Ed.
    + now rewrite !Hs.
    + rewrite !Hr. destruct (in_dec triple_eq_dec u _); auto. apply A. intros Ku. apply N. apply filter_In.
      split; auto. now rewrite Ed.
  - intros oo u. rewrite !Hr. destruct (in_dec triple_eq_dec u _); auto. apply (B oo).
Qed.

(** ** The single calls *)
Definition ends_well F (o : op) K d (r : result err unit) (x : db) : Prop :=
  match r with Ok _ => fin o K d x | Err e => blame cn ce F e end.

Lemma fin_put_node U (o : op) n b p K d : fair U d -> off K d -> de cn b = Ok p ->
  (forall u, ~ settles o u) -> spec_apply mn me o (sabs d) = g_put_node n p (sabs d) ->
  fair U (d_put_node n b d) /\ fin o K d (d_put_node n b d).
Proof.
  intros H Ho Hb Hs Hp. destruct (put_node_near cn ce U d n b p H Hb) as [[H1 _] _]. split; auto.
  apply fin_node; auto; [|intros []; reflexivity].
  rewrite Hp. split; simpl; auto. intros i. now rewrite (nod_put cn n b p).
Qed.

Lemma wt_insert_node F b U n p K d : fair U d -> off K d ->
  wp F (dur b U (OInsertNode n p) K d) (ends_well F (OInsertNode n p) K d) (s_insert_node cn n p : PR unit) d.
Proof.
  intros H Ho. pose proof (dur_start b U (OInsertNode n p) K d H Ho) as Hd.
  unfold s_insert_node. apply wp_bind_ok. apply wp_bincode; auto.
  destruct (ser cn p) as [v|e] eqn:Hs; [|split; auto; simpl; eauto].
  destruct (fin_put_node U (OInsertNode n p) n v p K d H Ho (Hcn _ _ Hs)) as [H1 H2]; [intros u [] | reflexivity |].
  apply wp_bind_ok. apply wp_tree_insert; auto.
  - now apply fin_dur.
  - simpl. split; auto. now apply fin_dur.
Qed.

Lemma wt_merge_node F b U n p K d : fair U d -> off K d ->
  wp F (dur b U (OMergeNode n p) K d) (ends_well F (OMergeNode n p) K d) (s_merge_node cn mn n p : PR unit) d.
Proof.
  intros H Ho. pose proof (dur_start b U (OMergeNode n p) K d H Ho) as Hd.
  unfold s_merge_node. apply wp_bind_ok. apply wp_transaction; auto.
  unfold merge_node_txn, t_bind, t_get, t_bincode, t_insert, t_ret, t_abort.
  change (tbl TNode d) with (t_node d).
  assert (forall v q, de cn v = Ok q -> spec_apply mn me (OMergeNode (E := E) n p) (sabs d) = g_put_node n q (sabs d) ->
    let x := set_tbl TNode (binsert (to_be_bytes n) v (tbl TNode d)) d in
    dur b U (OMergeNode n p) K d x /\ wp F (dur b U (OMergeNode n p) K d) (ends_well F (OMergeNode n p) K d) (Ret (Ok tt) : PR unit) x) as Hput.
  { intros v q Hv Hq. destruct (fin_put_node U (OMergeNode n p) n v q K d H Ho Hv) as [H1 H2]; [intros u [] | exact Hq |].
    change (set_tbl TNode (binsert (to_be_bytes n) v (tbl TNode d)) d) with (d_put_node n v d).
    assert (dur b U (OMergeNode n p) K d (d_put_node n v d)) by now apply fin_dur. cbv zeta. split; auto. simpl. auto. }
  destruct (bget (to_be_bytes n) (t_node d)) as [old|] eqn:Hold.
  - destruct (nod_some cn d n old (proj1 H) Hold) as (q & Hq & Hn). rewrite Hq.
    destruct (ser cn (mn q p)) as [v|be] eqn:Hs; [|simpl; split; auto; eauto].
    apply (Hput v (mn q p)); [now apply Hcn|]. simpl. unfold g_merge_node. simpl. now rewrite Hn.
  - destruct (ser cn p) as [v|be] eqn:Hs; [|simpl; split; auto; eauto].
    apply (Hput v p); [now apply Hcn|]. simpl. unfold g_merge_node. simpl. unfold SledDb.nod. now rewrite Hold.
Qed.

Lemma wt_insert_edge F b U t e h K d : fair U d -> ~ U (next_key h) -> off K d ->
  wp F (dur b (fun x => U x \/ x = next_key h) (OInsertEdge t e) K d)
       (with_h (step_gen h) (ends_well F (OInsertEdge t e) K d))
       (s_insert_edge ce t e h : P (result err unit * handle k)) d.
Proof.
  intros H N Ho. set (U' := fun x => U x \/ x = next_key h).
  assert (dur b U' (OInsertEdge t e) K d d) as Hd
    by (apply dur_start; auto; eapply fair_mono; [|exact H]; unfold U'; auto).
  unfold s_insert_edge, draw, fresh. apply wp_and_handle. apply wp_bind_ok. apply wp_bincode; auto.
  destruct (ser ce e) as [v|be] eqn:Hs; [|split; auto; simpl; eauto].
  apply wp_bind_ok. apply wp_transaction; auto.
  rewrite insert_edge_txn_eq. fold (next_key h).
  destruct (put_edge_near cn ce U d t (next_key h) v e H N (Hce _ _ Hs)) as [H1 _].
  assert (fin (OInsertEdge t e) K d (d_put_edge t (next_key h) v d)) as Hf.
  { apply (fin_edge _ _ _ _ t (Some (next_key h))); auto.
    - simpl. tauto.
    - apply (put_edge_equiv_abs cn ce U d t (next_key h) v e); auto. apply H.
    - intros oo u. apply rid_put_edge. }
  assert (dur b U' (OInsertEdge t e) K d (d_put_edge t (next_key h) v d)) by now apply fin_dur.
  simpl. auto.
Qed.

Lemma wt_merge_edge F b U t e h K d : fair U d -> ~ U (next_key h) -> off K d ->
  wp F (dur b (fun x => U x \/ x = next_key h) (OMergeEdge t e) K d)
       (with_h (step_gen h) (ends_well F (OMergeEdge t e) K d))
       (s_merge_edge ce me t e h : P (result err unit * handle k)) d.
Proof.
  intros H N Ho. set (U' := fun x => U x \/ x = next_key h).
  assert (dur b U' (OMergeEdge t e) K d d) as Hd
    by (apply dur_start; auto; eapply fair_mono; [|exact H]; unfold U'; auto).
  unfold s_merge_edge, draw, fresh. apply wp_and_handle. apply wp_bind_ok. apply wp_transaction; auto.
  fold (next_key h). pose proof (merge_edge_txn_ok (SE := SE) cn ce Hce me U d t (next_key h) e H N) as Ht.
  destruct (merge_edge_txn ce me t (next_key h) e d) as [[[] d']|x].
  - destruct Ht as (v & e' & Hb & -> & ->).
    destruct (set_edge_near cn ce U d t (next_key h) v _ H N Hb) as [H1 _].
    assert (fin (OMergeEdge t e) K d (d_set_edge t (next_key h) v d)) as Hf.
    { apply (fin_edge _ _ _ _ t (Some (next_key h))); auto.
      - simpl. tauto.
      - apply (put_edge_equiv_abs cn ce U d t (next_key h) v _); auto. apply H.
      - intros oo u. apply rid_set_edge. }
    assert (dur b U' (OMergeEdge t e) K d (d_set_edge t (next_key h) v d)) by now apply fin_dur.
    simpl. auto.
  - destruct Ht as (v & -> & p & Hp). simpl. split; auto. eauto.
Qed.

Lemma wt_remove_edge F b U t K d : fair U d -> off K d ->
  wp F (dur b U (ORemoveEdge t) K d) (ends_well F (ORemoveEdge t) K d) (s_remove_edge t : PR unit) d.
Proof.
  intros H Ho. pose proof (dur_start b U (ORemoveEdge t) K d H Ho) as Hd.
  destruct (rm_edge_near cn ce U d t H) as [[H1 _] _].
  assert (fin (ORemoveEdge t) K d (d_rm_edge t d)) as Hf.
  { apply (fin_edge _ _ _ _ t None); auto.
    - simpl. tauto.
    - split; simpl.
      + intros i. unfold d_rm_edge. destruct (rid SPO d t); reflexivity.
      + intros u. eapply rm_edge_view; eauto. apply H.
    - intros oo u. apply rid_rm_edge. }
  assert (dur b U (ORemoveEdge t) K d (d_rm_edge t d)) as Hx by now apply fin_dur.
  set (d' := d_rm_edge t d) in *.
  pose proof (rm_edge_absent t d SPO) as E1. pose proof (rm_edge_absent t d POS) as E2.
  pose proof (rm_edge_absent t d OSP) as E3. fold d' in E1, E2, E3. simpl enc in *. simpl tab in *.
  unfold s_remove_edge. apply wp_bind_ok. apply wp_transaction; auto.
  rewrite remove_edge_txn_eq. fold d'. split; auto.
  apply wp_bind_ok. apply wp_tree_remove; auto.
  - now rewrite rm_absent.
  - rewrite rm_absent, E1 by auto. apply wp_bind_ok. apply wp_tree_remove; auto.
    + now rewrite rm_absent.
    + rewrite rm_absent by auto. apply wp_bind_ok. apply wp_tree_remove; auto.
      * now rewrite rm_absent.
      * rewrite rm_absent by auto. simpl. auto.
Qed.

Lemma wt_remove_node F b U n K d : fair U d -> off K d ->
  wp F (dur b U (ORemoveNode n) K d) (ends_well F (ORemoveNode n) K d) (s_remove_node n : PR unit) d.
Proof.
  intros H Ho. pose proof (dur_start b U (ORemoveNode n) K d H Ho) as Hd.
  pose proof (fin_rm_node U n K d H Ho) as Hf. destruct (rm_node_near cn ce U d n H) as [[H1 _] _].
  assert (dur b U (ORemoveNode n) K d (d_rm_node n d)) as Hx by now apply fin_dur.
  pose proof (range_good_len ce U d SPO n (proj2 H)) as L1. pose proof (range_good_len ce U d OSP n (proj2 H)) as L2.
  change (idx SPO d) with (t_spo d) in L1. change (idx OSP d) with (t_osp d) in L2.
  assert (forall es, Forall (good_len (k := k)) es -> ~ Exists (fun kv => ~ good_len (k := k) kv) es) as Hno.
  { intros es He Hy. rewrite Forall_forall in He. apply Exists_exists in Hy. destruct Hy as (y & Hy & Ny). auto. }
  unfold s_remove_node. apply wp_bind_ok. cbn [wp].
  eapply wp_mono; [| |apply (wp_forward F _ d Hd)]; auto.
  intros r x _ [-> Hr]. destruct r as [f|e].
  2: { split; [exact Hd|]. destruct Hr as [(y & Hy & ->)|[-> Hy]]; [exact Hy | exfalso; revert Hy; apply Hno; assumption]. }
  destruct Hr as [_ ->]. apply wp_bind_ok. cbn [wp].
  eapply wp_mono; [| |apply (wp_backward F _ d Hd)]; auto.
  intros r x _ [-> Hr]. destruct r as [f|e].
  2: { split; [exact Hd|]. destruct Hr as [(y & Hy & ->)|[-> Hy]]; [exact Hy | exfalso; revert Hy; apply Hno; assumption]. }
  destruct Hr as [_ ->]. apply wp_bind_ok. apply wp_transaction; auto.
  fold no_batches. rewrite remove_node_txn_eq by auto. split; auto. simpl. auto.
Qed.

(** ** One edge of extend *)
Lemma wt_extend_edge F U t e h K d : fair U d -> ~ U (next_ulid h) -> off K d ->
  wp F (dur true (fun x => U x \/ x = next_ulid h) (OInsertEdge t e) K d)
       (with_h (step_ulid h) (ends_well F (OInsertEdge t e) K d))
       (s_extend_edge ce t e h : P (result err unit * handle k)) d.
Proof.
  intros [F1 F2] N Ho. set (r := next_ulid h) in *. set (U' := fun x => U x \/ x = r).
  assert (dur true U' (OInsertEdge t e) K d d) as Hd.
  { apply dur_start; auto. split; auto. eapply faire_mono; [|exact F2]. unfold U'; auto. }
  unfold s_extend_edge, draw_ulid, fresh. apply wp_and_handle. fold (next_ulid h). fold r.
  apply wp_bind_ok. apply wp_bincode; auto.
  destruct (ser ce e) as [b|be] eqn:Hs; [|split; auto; simpl; eauto].
  pose proof (Hce _ _ Hs) as Hb.
  pose proof (faire_put_rec ce U d r b e F2 N Hb) as E1.
  assert (record (d_put_rec r b d) r = Some e) as Hr.
  { rewrite (record_put ce r b e) by auto. destruct (list_eq_dec Byte.byte_eq_dec r r); congruence. }
  assert (record (d_put_rec r b d) r <> None) as Hr' by congruence.
  assert (forall o u, rid o (d_put_rec r b d) u = rid o d u) as R1.
  { intros o u. unfold d_put_rec. apply rid_edge. }
  assert (forall o u, rid o (d_put_rec r b d) u = Some r -> u = t) as H1.
  { intros o u. rewrite R1. intros H. exfalso. revert H. eapply fresh_unused; eauto. }
  assert (faire (k := k) ce U' (d_put_idx SPO t r (d_put_rec r b d))) as E2 by (now apply faire_put_idx).
  assert (faire (k := k) ce U' (d_put_idx POS t r (d_put_idx SPO t r (d_put_rec r b d)))) as E3.
  { apply faire_put_idx; auto. intros o u. rewrite rid_put.
    destruct (triple_eq_dec u t); auto. destruct (order_dec o SPO); apply H1. }
  pose proof (put_edge_faire ce U d t r b e F2 N Hb) as E4.
  pose proof (set_edge_faire ce U d t r b e F2 N Hb) as E5.
  assert (forall x, t_node x = t_node d -> fairn (k := k) cn x) as Hfn
    by (intros x Ex; destruct F1 as [S1 S2]; split; rewrite Ex; auto).
  assert (dur true U' (OInsertEdge t e) K d (d_put_rec r b d)) as N1.
  { split; [split; auto|]. exists K, 0. split.
    - apply Cu_here; [apply incl_refl|]. split; auto. intros u. simpl. eapply view_put_rec; eauto.
    - destruct Ho as [A B]. split; intros o u; rewrite !R1; [apply A|apply (B o)]. }
  assert (forall x, (forall i, nod x i = nod d i) -> (forall u, view SPO x u = if triple_eq_dec u t then Some e else view SPO d u) ->
    (forall o u, u <> t -> rid o x u = rid o d u) -> rid SPO x t = Some r -> fair U' x ->
    dur true U' (OInsertEdge t e) K d x) as Htear.
  { intros x Hn Hv Hx Ht Hf. split; auto. exists (t :: K), 1. split.
    - apply Cu_tear; auto. split; [intros u [<-|Hu]; auto|]. right. split; simpl; auto.
    - destruct Ho as [A B]. split; intros o u.
      + intros Nu. simpl in Nu. rewrite !Hx by (intros ->; tauto). apply A. tauto.
      + destruct (triple_eq_dec u t) as [->|Nu]; [congruence|]. rewrite !Hx by auto. apply (B o). }
  assert (dur true U' (OInsertEdge t e) K d (d_put_idx SPO t r (d_put_rec r b d))) as N2.
  { apply Htear; [reflexivity | | | | split; auto].
    - intros u. rewrite view_put_idx. simpl. destruct (triple_eq_dec u t); auto. eapply view_put_rec; eauto.
    - intros o u Nu. rewrite rid_put. destruct (triple_eq_dec u t); [contradiction|]. rewrite R1. destruct (order_dec o SPO); auto.
    - rewrite rid_put. destruct (triple_eq_dec t t); [reflexivity|contradiction]. }
  assert (dur true U' (OInsertEdge t e) K d (d_put_idx POS t r (d_put_idx SPO t r (d_put_rec r b d)))) as N3.
  { apply Htear; [reflexivity | | | | split; auto].
    - intros u. rewrite !view_put_idx. simpl. destruct (triple_eq_dec u t); auto. eapply view_put_rec; eauto.
    - intros o u Nu. rewrite !rid_put. destruct (triple_eq_dec u t); [contradiction|]. rewrite R1.
      destruct (order_dec o SPO), (order_dec o POS); auto.
    - rewrite !rid_put. destruct (triple_eq_dec t t); [reflexivity|contradiction]. }
  destruct (put_edge_equiv_abs cn ce U d t r b e F2 N Hb) as [G4 G5].
  assert (fin (OInsertEdge t e) K d (d_put_edge t r b d)) as Q4.
  { apply (fin_edge _ _ _ _ t (Some r)); auto; [simpl; tauto|]. intros oo u. apply rid_put_edge. }
  assert (dur true U' (OInsertEdge t e) K d (d_put_edge t r b d)) as N4.
  { apply fin_dur; auto. split; auto. }
  assert (fin (OInsertEdge t e) K d (d_set_edge t r b d)) as Q5.
  { apply (fin_edge _ _ _ _ t (Some r)); auto; [simpl; tauto|]. intros oo u. apply rid_set_edge. }
  assert (dur true U' (OInsertEdge t e) K d (d_set_edge t r b d)) as N5.
  { apply fin_dur; auto. split; auto. apply Hfn. unfold d_set_edge. destruct (rid SPO d t); auto. }
  assert (forall (d' : db) x, F x -> dur true U' (OInsertEdge t e) K d d' ->
    dur true U' (OInsertEdge t e) K d d' /\ ends_well F (OInsertEdge t e) K d (Err (SledError x)) d') as Herr by (simpl; auto).
  assert (rid SPO (d_put_rec r b d) t = rid SPO d t) as Eold by apply R1.
  apply wp_bind_ok. apply wp_tree_insert; [exact Hd | exact N1 | | intros; now apply Herr].
  apply wp_bind_ok. apply wp_tree_insert; [exact N1 | exact N2 | | intros; now apply Herr].
  apply wp_bind_ok. apply wp_tree_insert; [exact N2 | exact N3 | | intros; now apply Herr].
  apply wp_bind_ok. apply wp_tree_insert; [exact N3 | exact N4 | | intros; now apply Herr].
  change (bget (encode_spo t) _) with (rid SPO (d_put_rec r b d) t). rewrite Eold.
  change (set_tbl TOsp _ _) with (d_put_edge t r b d).
  unfold d_set_edge in *. destruct (rid SPO d t) as [old|]; simpl d_drop in *.
  - apply wp_bind_ok. apply wp_tree_remove; [exact N4 | exact N5 | | intros; now apply Herr].
    simpl. auto.
  - simpl. auto.
Qed.

(** ** The relations *)
Lemma spec_apply_equiv (o : op) (g g' : G) : g_equiv g g' -> g_equiv (spec_apply mn me o g) (spec_apply mn me o g').
Proof. exact (spec_history_equiv mn me [o] g g'). Qed.

Lemma acts_start (o : op) K1 (g1 : G) K g K' g' : incl K1 K -> g_equiv g1 g -> acts o K1 g1 K' g' -> acts o K g K' g'.
Proof.
  intros HK Hg (H1 & H2 & H3). destruct (spec_apply_equiv o g1 g Hg) as [S1 S2]. split; [|split].
  - intros t Ht. destruct (H1 t Ht). auto.
  - intros i. now rewrite H2, S1.
  - intros t. destruct (H3 t) as [H|(Hn & Hk & H)]; [left; congruence|].
    right. split; [exact Hn|]. split; [now apply HK|]. rewrite H. apply Hg.
Qed.

Lemma cut_start b (l : list op) K1 (g1 : G) K g K' g' n : incl K1 K -> g_equiv g1 g ->
  cut b l K1 g1 K' g' n -> cut b l K g K' g' n.
Proof.
  intros HK Hg H. inversion H as [l0 K0 g0 K0' g0' Hi He|t e l0 K0 g0 K0' g0' Hb [Ht1 Ht2]|o l0 K0 g0 K2 g2 K0' g0' n0 Ha Hc]; subst.
  - apply Cu_here; [eapply incl_tran; eauto | eapply g_equiv_trans; eauto].
  - apply Cu_tear; auto. split.
    + intros u Hu. destruct (Ht1 u Hu); auto.
    + destruct Ht2 as [Ht2|Ht2]; [left|right]; eapply g_equiv_trans; eauto.
      now apply (spec_apply_equiv (OInsertEdge t e)).
  - eapply Cu_next; [|exact Hc]. eapply acts_start; eauto.
Qed.

Lemma whole_start (l : list op) K1 (g1 : G) K g K' g' : incl K1 K -> g_equiv g1 g ->
  whole l K1 g1 K' g' -> whole l K g K' g'.
Proof.
  intros HK Hg H. inversion H as [K0 g0 K0' g0' Hi He|o l0 K0 g0 K2 g2 K0' g0' Ha Hc]; subst.
  - apply Wh_nil; [eapply incl_tran; eauto | eapply g_equiv_trans; eauto].
  - eapply Wh_cons; [|exact Hc]. eapply acts_start; eauto.
Qed.

Lemma cut_more b (l l' : list op) K g K' g' n : cut b l K g K' g' n -> cut b (l ++ l') K g K' g' n.
Proof.
  induction 1; simpl; [apply Cu_here | apply Cu_tear | eapply Cu_next]; eauto.
Qed.

Lemma cut_later b (l l' : list op) K g K1 g1 K' g' n : whole l K g K1 g1 -> cut b l' K1 g1 K' g' n ->
  cut b (l ++ l') K g K' g' n.
Proof.
  intros H Hc. induction H; simpl; [eapply cut_start; eauto | eapply Cu_next; eauto].
Qed.

Lemma whole_app (l l' : list op) K g K1 g1 K' g' : whole l K g K1 g1 -> whole l' K1 g1 K' g' -> whole (l ++ l') K g K' g'.
Proof.
  intros H Hc. induction H; simpl; [eapply whole_start; eauto | eapply Wh_cons; eauto].
Qed.

Lemma whole_nil K (g : G) : whole [] K g K g.
Proof. apply Wh_nil; [apply incl_refl|apply g_equiv_refl]. Qed.

Definition durl b U (l : list op) K (d x : db) : Prop :=
  fair U x /\ exists K' n, cut b l K (sabs d) K' (sabs x) n /\ off K' x.

Lemma durl_start b U l K d : fair U d -> off K d -> durl b U l K d d.
Proof. intros H Ho. split; auto. exists K, 0. split; auto. apply Cu_here; [apply incl_refl|apply g_equiv_refl]. Qed.

Lemma durl_more b U l l' K d x : durl b U l K d x -> durl b U (l ++ l') K d x.
Proof. intros (H1 & K' & n & H2 & H3). split; auto. exists K', n. split; auto. now apply cut_more. Qed.

Lemma durl_later b U l l' K d K1 y x : whole l K (sabs d) K1 (sabs y) -> durl b U l' K1 y x -> durl b U (l ++ l') K d x.
Proof. intros H (H1 & K' & n & H2 & H3). split; auto. exists K', n. split; auto. eapply cut_later; eauto. Qed.

Definition finl (l : list op) K (d x : db) : Prop := exists K', whole l K (sabs d) K' (sabs x) /\ off K' x.

Lemma fin_finl o K d x : fin o K d x -> finl [o] K d x.
Proof. intros (K' & H1 & H2). exists K'. split; auto. eapply Wh_cons; [exact H1|apply whole_nil]. Qed.

(** ** Loops over a source *)
Section Window.
Context (base : bytes -> Prop) (h0 : handle k) (n m : nat).
Notation used := (used base h0).
Notation at_ := (at_ h0).
Context (Hnd : NoDup (gkeys h0 n ++ ukeys h0 m)) (Hbase : forall x, In x (gkeys h0 n ++ ukeys h0 m) -> ~ base x).
Context (F : SE -> Prop) (b : bool).

Lemma up i j x : i <= n -> j <= m -> fair (used i j) x -> fair (used n m) x.
Proof. intros Hi Hj. apply fair_mono. intros r. now apply (used_mono base h0 n m Hbase). Qed.

Definition aftert {Er} (l : list op) (exp : result (lr_error err Er) unit) (i j dg du : nat) K (d : db)
    (rh : result (lr_error err Er) unit * handle k) (x : db) : Prop :=
  exists i' j', i <= i' <= i + dg /\ j <= j' <= j + du /\ snd rh = at_ i' j' /\ fair (used i' j') x /\
  match fst rh with
  | Err (LeftE e) => blame cn ce F e
  | r => r = exp /\ finl l K d x
  end.

Definition bodyt {A} (body : A -> handle k -> P (result err unit * handle k)) (el : A -> op) (dg du : nat) : Prop :=
  forall a i j K d, i + dg <= n -> j + du <= m -> fair (used i j) d -> off K d ->
  wp F (durl b (used n m) [el a] K d)
    (fun rh x => snd rh = at_ (i + dg) (j + du) /\ fair (used (i + dg) (j + du)) x /\ ends_well F (el a) K d (fst rh) x)
    (body a (at_ i j)) d.

Lemma wt_for_source {A Er} body (el : A -> op) dg du (l : list (result Er A)) : bodyt body el dg du ->
  forall i j K d, i + length (before_error l) * dg <= n -> j + length (before_error l) * du <= m ->
  fair (used i j) d -> off K d ->
  wp F (durl b (used n m) (map el (before_error l)) K d)
    (aftert (map el (before_error l)) (src_expected l) i j
       (length (before_error l) * dg) (length (before_error l) * du) K d)
    (for_source body l (at_ i j)) d.
Proof.
  intros Hb. induction l as [|[a|e] l IH]; intros i j K d Hi Hj H Ho.
  - simpl in *. split; [apply durl_start; auto; eapply up; [| |exact H]; lia|].
    exists i, j. simpl. split; [lia|]. split; [lia|]. split; auto. split; auto. split; auto.
    exists K. split; auto. apply whole_nil.
  - cbn [before_error length map for_source] in *.
    apply wp_bind. eapply wp_mono; [| |apply (Hb a i j K d); auto; lia].
    + intros x. apply (durl_more b _ [el a]).
    + intros [r h] x Hx (Eh & Hf & Hr). simpl in Eh, Hr |- *. subst h. destruct r as [[]|er]; simpl in Hr.
      * apply fin_finl in Hr. destruct Hr as (K1 & Hw & Ho1).
        eapply wp_mono; [| |apply (IH (i + dg) (j + du) K1 x); auto; lia].
        -- intros y Hy. apply (durl_later b _ [el a] _ K d K1 x y); auto.
        -- intros [r h] y _ (i' & j' & Hi' & Hj' & E1 & E2 & E3). exists i', j'.
           split; [lia|]. split; [lia|]. split; auto. split; auto. simpl in *.
           destruct r as [[]|[el'|er]]; auto; destruct E3 as (E3 & K2 & E4 & E5); (split; [exact E3|]);
             exists K2; (split; [|exact E5]); exact (whole_app [el a] _ _ _ _ _ _ _ Hw E4).
      * simpl. split; [apply (durl_more b _ [el a]); exact Hx|].
        exists (i + dg), (j + du). simpl. split; [lia|]. split; [lia|]. auto.
  - simpl in *. split; [apply durl_start; auto; eapply up; [| |exact H]; lia|].
    exists i, j. simpl. split; [lia|]. split; [lia|]. split; auto. split; auto. split; auto.
    exists K. split; auto. apply whole_nil.
Qed.

Lemma wt_nodes_edges {Er} fn fe f1 f2 dg du (s : source k NP EP Er) :
  bodyt fn (fun ip => f1 (fst ip) (snd ip)) 0 0 -> bodyt fe (fun te => f2 (fst te) (snd te)) dg du ->
  forall i j K d, i + length (before_error (src_edges s)) * dg <= n ->
  j + length (before_error (src_edges s)) * du <= m ->
  fair (used i j) d -> off K d ->
  let l := map (fun ip => f1 (fst ip) (snd ip)) (before_error (src_nodes s)) ++
      match first_error (src_nodes s) with
      | Some _ => []
      | None => map (fun te => f2 (fst te) (snd te)) (before_error (src_edges s))
      end in
  wp F (durl b (used n m) l K d)
    (aftert l (match bulk_error s with None => Ok tt | Some e => Err (RightE e) end) i j
       (length (before_error (src_edges s)) * dg) (length (before_error (src_edges s)) * du) K d)
    (for_nodes_edges fn fe s (at_ i j)) d.
Proof.
  intros Hfn Hfe i j K d Hi Hj H Ho. cbv zeta. unfold for_nodes_edges, bulk_error.
  set (ne := length (before_error (src_edges s))) in *.
  apply wp_bind. eapply wp_mono.
  3: { apply (wt_for_source fn (fun ip => f1 (fst ip) (snd ip)) 0 0 (src_nodes s) Hfn i j K d); auto; lia. }
  - intros x. apply durl_more.
  - intros [r h] x Hx (i' & j' & Hi' & Hj' & Eh & Hf & Hr). simpl in Eh, Hr |- *. subst h.
    assert (i' = i) as -> by lia. assert (j' = j) as -> by lia.
    unfold src_expected in Hr. destruct r as [[]|[el|er]].
    + destruct Hr as (Er1 & K1 & Hw & Ho1). destruct (first_error (src_nodes s)) as [e0|]; [discriminate|].
      eapply wp_mono.
      3: { apply (wt_for_source fe (fun te => f2 (fst te) (snd te)) dg du (src_edges s) Hfe i j K1 x); auto. }
      * intros y Hy. eapply durl_later; eauto.
      * intros [r h] y _ (i' & j' & Hi'' & Hj'' & E1 & E2 & E3). exists i', j'.
        split; [exact Hi''|]. split; [exact Hj''|]. split; auto. split; auto. simpl in *.
        destruct r as [[]|[el'|er']]; auto; destruct E3 as (E3 & K2 & E4 & E5); (split; [exact E3|]);
          exists K2; (split; [|exact E5]); eapply whole_app; eauto.
    + split; [now apply durl_more|].
      exists i, j. split; [lia|]. split; [lia|]. auto.
    + destruct Hr as [Er1 Hr]. destruct (first_error (src_nodes s)) as [e0|]; [|discriminate].
      rewrite app_nil_r. split; [exact Hx|].
      exists i, j. split; [lia|]. split; [lia|]. split; [reflexivity|]. split; [exact Hf|]. simpl. auto.
Qed.

Lemma wt_lift (o : op) i j dg du U K (p : P (result err unit * handle k)) d :
  elements o = [o] -> expected (SE := SE) (BE := BE) o = Ok tt -> (forall x, U x -> used (i + dg) (j + du) x) -> i + dg <= n -> j + du <= m ->
  wp F (dur b U o K d) (with_h (at_ (i + dg) (j + du)) (ends_well F o K d)) p d ->
  wp F (durl b (used n m) (elements o) K d) (aftert (elements o) (expected o) i j dg du K d) (lift p) d.
Proof.
  intros El Ex HU Hi Hj H. rewrite El, Ex. unfold lift. apply wp_bind.
  assert (forall x, dur b U o K d x -> durl b (used n m) [o] K d x) as Up.
  { intros x [H1 H2]. split; auto. apply (up (i + dg) (j + du)); auto. eapply fair_mono; eauto. }
  eapply wp_mono; [exact Up| |exact H].
  intros [r h] x Hx [Eh Hr]. simpl in Eh, Hr. subst h. simpl. split; [auto|].
  exists (i + dg), (j + du). split; [lia|]. split; [lia|]. split; auto.
  split; [destruct Hx as [Hx _]; eapply fair_mono; eauto|].
  destruct r as [[]|e]; simpl in *; auto. split; auto. now apply fin_finl.
Qed.

Lemma wt_body {A} (body : A -> handle k -> P (result err unit * handle k)) (el : A -> op) dg du
  (Hbody : forall a i j K d, i + dg <= n -> j + du <= m -> fair (used i j) d -> off K d ->
    wp F (dur b (used (i + dg) (j + du)) (el a) K d) (with_h (at_ (i + dg) (j + du)) (ends_well F (el a) K d)) (body a (at_ i j)) d) :
  bodyt body el dg du.
Proof.
  intros a i j K d Hi Hj H Ho. eapply wp_mono; [| |apply (Hbody a i j K d); auto].
  - intros x [H1 H2]. split; auto. apply (up (i + dg) (j + du)); auto.
  - intros [r h] x [Hx _] [Eh Hr]. simpl in *. auto.
Qed.

Lemma dur_gen_wp {A} i j (o : op) K d (Q : A -> db -> Prop) p :
  wp F (dur b (fun x => used i j x \/ x = next_key (at_ i j)) o K d) Q p d -> wp F (dur b (used (S i) j) o K d) Q p d.
Proof.
  intros H. eapply wp_mono; [| |exact H]; auto. intros x [H1 H2]. split; auto. eapply fair_mono; [|exact H1].
  intros r. apply used_gen.
Qed.

End Window.

Lemma wt_op base h0 n m (Hnd : NoDup (gkeys h0 n ++ ukeys h0 m)) (Hbase : forall x, In x (gkeys h0 n ++ ukeys h0 m) -> ~ base x)
  F (o : op) i j K d :
  i + draws o <= n -> j + draws_ulid o <= m -> fair (used base h0 i j) d -> off K d ->
  wp F (durl (is_extend o) (used base h0 n m) (elements o) K d)
    (aftert base h0 F (elements o) (expected o) i j (draws o) (draws_ulid o) K d)
    (sled_apply cn ce mn me o (at_ h0 i j)) d.
Proof.
  intros Hi Hj H Ho.
  assert (forall i j x, used base h0 i j x -> used base h0 (i + 0) (j + 0) x) as U0 by (intros; now rewrite !Nat.add_0_r).
  assert (forall i j, at_ h0 (i + 0) (j + 0) = at_ h0 i j) as A00 by (intros; now rewrite !Nat.add_0_r).
  assert (forall i j, at_ h0 (i + 1) (j + 0) = step_gen (at_ h0 i j)) as A10.
  { intros i0 j0. rewrite Nat.add_0_r, Nat.add_1_r. symmetry. apply (at_gen h0). }
  destruct o as [v p|t e|v|t|v p|t e|s|s]; cbn [draws draws_ulid sled_apply is_extend] in *.
  - apply (wt_lift base h0 n m Hbase F false (OInsertNode v p) i j 0 0 (used base h0 i j)); try reflexivity; [apply U0 | lia | lia |].
    rewrite A00. apply wp_and_handle, wt_insert_node; auto.
  - apply (wt_lift base h0 n m Hbase F false (OInsertEdge t e) i j 1 0 (used base h0 (S i) j)); try reflexivity; [| lia | lia |].
    + intros x. now rewrite Nat.add_0_r, Nat.add_1_r.
    + rewrite A10. apply (dur_gen_wp base h0). apply wt_insert_edge; auto. apply (fresh_gen base h0 n m Hnd Hbase); lia.
  - apply (wt_lift base h0 n m Hbase F false (ORemoveNode v) i j 0 0 (used base h0 i j)); try reflexivity; [apply U0 | lia | lia |].
    rewrite A00. apply wp_and_handle, wt_remove_node; auto.
  - apply (wt_lift base h0 n m Hbase F false (ORemoveEdge t) i j 0 0 (used base h0 i j)); try reflexivity; [apply U0 | lia | lia |].
    rewrite A00. apply wp_and_handle, wt_remove_edge; auto.
  - apply (wt_lift base h0 n m Hbase F false (OMergeNode v p) i j 0 0 (used base h0 i j)); try reflexivity; [apply U0 | lia | lia |].
    rewrite A00. apply wp_and_handle, wt_merge_node; auto.
  - apply (wt_lift base h0 n m Hbase F false (OMergeEdge t e) i j 1 0 (used base h0 (S i) j)); try reflexivity; [| lia | lia |].
    + intros x. now rewrite Nat.add_0_r, Nat.add_1_r.
    + rewrite A10. apply (dur_gen_wp base h0). apply wt_merge_edge; auto. apply (fresh_gen base h0 n m Hnd Hbase); lia.
  - unfold s_extend.
    replace 0 with (length (before_error (src_edges s)) * 0) by lia.
    replace (length (before_error (src_edges s))) with (length (before_error (src_edges s)) * 1) at 2 by lia.
    apply (wt_nodes_edges base h0 n m Hbase F true _ _ OInsertNode OInsertEdge); auto; try lia.
    + apply (wt_body base h0 n m Hbase). intros [v p] i0 j0 K0 d0 Hi0 Hj0 H0 Ho0. rewrite A00, !Nat.add_0_r.
      apply wp_and_handle. simpl fst. simpl snd. apply wt_insert_node; auto.
    + apply (wt_body base h0 n m Hbase). intros [t e] i0 j0 K0 d0 Hi0 Hj0 H0 Ho0. cbn [fst snd].
      replace (i0 + 0) with i0 by lia. replace (j0 + 1) with (S j0) by lia.
      eapply wp_mono; [| |apply (wt_extend_edge F (used base h0 i0 j0) t e _ K0); [exact H0 | apply (fresh_ulid base h0 n m Hnd Hbase); lia | exact Ho0]].
      * intros x [H1 H2]. split; auto. eapply fair_mono; [|exact H1]. intros r Hr. now apply used_ulid.
      * intros [r h] x _ [Eh Hr]. simpl in *. split; auto. simpl. rewrite Eh. apply (at_ulid h0).
  - unfold s_merge.
    replace 0 with (length (before_error (src_edges s)) * 0) by lia.
    replace (length (before_error (src_edges s))) with (length (before_error (src_edges s)) * 1) at 1 by lia.
    apply (wt_nodes_edges base h0 n m Hbase F false _ _ OMergeNode OMergeEdge); auto; try lia.
    + apply (wt_body base h0 n m Hbase). intros [v p] i0 j0 K0 d0 Hi0 Hj0 H0 Ho0. rewrite A00, !Nat.add_0_r.
      apply wp_and_handle. simpl fst. simpl snd. apply wt_merge_node; auto.
    + apply (wt_body base h0 n m Hbase). intros [t e] i0 j0 K0 d0 Hi0 Hj0 H0 Ho0. cbn [fst snd].
      rewrite A10. replace (j0 + 0) with j0 by lia. replace (i0 + 1) with (S i0) by lia.
      apply (dur_gen_wp base h0). apply wt_merge_edge; auto. apply (fresh_gen base h0 n m Hnd Hbase); lia.
Qed.

(** ** Histories *)
Notation goes := (goes (SE := SE) (BE := BE) (E := E) mn me).
Notation gone := (gone (SE := SE) (BE := BE) (E := E) mn me).

Definition lasts U (l : list op) K (d x : db) : Prop :=
  fair U x /\ exists K' n, goes l K (sabs d) K' (sabs x) n /\ off K' x.
Definition finished_all (l : list op) K (d : db) (rs : list outcome) (x : db) : Prop :=
  (forall r, In r rs -> ~ failed r) -> rs = map expected l /\ exists K', done mn me l K (sabs d) K' (sabs x) /\ off K' x.

Lemma wt_history base h0 n m (Hnd : NoDup (gkeys h0 n ++ ukeys h0 m)) (Hbase : forall x, In x (gkeys h0 n ++ ukeys h0 m) -> ~ base x)
  F (l : list op) : forall i j K d,
  i + sum (map draws l) <= n -> j + sum (map draws_ulid l) <= m -> fair (used base h0 i j) d -> off K d ->
  wp F (lasts (used base h0 n m) l K d) (fun rsh x => finished_all l K d (fst rsh) x)
    (sled_history cn ce mn me l (at_ h0 i j)) d.
Proof.
  induction l as [|o l IH]; intros i j K d Hi Hj H Ho; simpl in Hi, Hj |- *.
  - split.
    + split; [eapply (up base h0 n m Hbase); [| |exact H]; lia|]. exists K, 0. split; auto. apply Go_nil; [apply incl_refl|apply g_equiv_refl].
    + intros _. split; auto. exists K. split; auto. apply Do_nil; [apply incl_refl|apply g_equiv_refl].
  - apply wp_bind. eapply wp_mono; [| |apply (wt_op base h0 n m Hnd Hbase F o i j K d); auto; lia].
    + intros x (Hx & K' & c & Hc & Ho'). split; auto. exists K', c. split; auto. now apply Go_cut.
    + intros [r h] x (Hx & K0 & c0 & Hc & Ho') (i' & j' & Hi' & Hj' & Eh & Hf & Hr). simpl in Eh, Hr. subst h. simpl.
      assert (exists K1 c, does mn me o r K (sabs d) K1 (sabs x) c /\ off K1 x) as (K1 & c & Hdo & Ho1).
      { unfold does. destruct r as [[]|[e|e]].
        - destruct Hr as (Er & K1 & H1 & H2). exists K1, 0. auto.
        - exists K0, c0. auto.
        - destruct Hr as (Er & K1 & H1 & H2). exists K1, 0. auto. }
      apply wp_bind. eapply wp_mono; [| |apply (IH i' j' K1 x); [lia|lia|exact Hf|exact Ho1]].
      * intros y (Hy & K2 & c2 & Hg & Ho2). split; auto. exists K2, (c + c2). split; auto. eapply Go_next; eauto.
      * intros [rs h] y (Hy & K2 & c2 & Hg & Ho2) Hfin. simpl in Hfin |- *. split.
        -- split; auto. exists K2, (c + c2). split; auto. eapply Go_next; eauto.
        -- intros Hno.
           destruct Hfin as (-> & K3 & Hd3 & Ho3); [intros r' Hr'; apply Hno; now right|].
           unfold does in Hdo.
           assert (r = expected o /\ whole (elements o) K (sabs d) K1 (sabs x)) as [-> Hw].
           { destruct r as [[]|[e|e]]; [tauto | exfalso; apply (Hno (Err (LeftE e))); simpl; auto | tauto]. }
           split; auto. exists K3. split; auto. eapply Do_cons; eauto.
Qed.

Lemma handle_lasts F base (h : handle k) (l : list op) K d :
  NoDup (history_keys h l) -> (forall x, In x (history_keys h l) -> ~ base x) -> fair base d -> off K d ->
  wp F (lasts (plus_keys base (history_keys h l)) l K d) (fun rsh x => finished_all l K d (fst rsh) x)
    (sled_history cn ce mn me l h) d.
Proof.
  intros Hnd Hbase Hd Ho.
  replace (sled_history cn ce mn me l h) with (sled_history (SE := SE) cn ce mn me l (at_ h 0 0)) by now rewrite at_00.
  eapply wp_mono; [| |apply (wt_history base h _ _ Hnd Hbase F l 0 0 K d); [lia|lia| |exact Ho]].
  - intros x (Hx & Hg). split; auto. eapply end_fair; [| | |exact Hx]; eauto.
  - intros rsh x _ H. auto.
  - apply start_fair; auto.
Qed.

Lemma lives_last (ls : list (life (k := k) (NP := NP) (EP := EP) (SE := SE) (E := E))) : forall base K d,
  NoDup (life_keys ls) -> (forall x, In x (life_keys ls) -> ~ base x) -> fair base d -> off K d ->
  fair (plus_keys base (life_keys ls)) (lives cn ce mn me ls d) /\
  exists K' n, gone (map lf_ops ls) K (sabs d) K' (sabs (lives cn ce mn me ls d)) n /\ off K' (lives cn ce mn me ls d).
Proof.
  intros base K d Hnd Hb Hd Ho. split; [now apply fair_lives|]. revert base K d Hnd Hb Hd Ho.
  induction ls as [|[h l faults n] ls IH]; intros base K d Hnd Hb Hd Ho; simpl in Hnd, Hb |- *.
  - exists K, 0. split; auto. apply Gn_nil; [apply incl_refl|apply g_equiv_refl].
  - apply NoDup_app_iff in Hnd. destruct Hnd as (N1 & N2 & N3).
    destruct (wp_crash _ _ _ _ n faults d (allowed_all _)
      (handle_lasts (fun _ => True) base h l K d N1 (fun r Hr => Hb r (proj2 (in_app_iff _ _ _) (or_introl Hr))) Hd Ho))
      as (H1 & K1 & c & H2 & H3).
    change (lives cn ce mn me ({| lf_handle := h; lf_ops := l; lf_faults := faults; lf_steps := n |} :: ls) d) with (lives cn ce mn me ls (crash n (sled_history cn ce mn me l h) faults d)).
    destruct (IH (plus_keys base (history_keys h l)) K1 (crash n (sled_history cn ce mn me l h) faults d)) as (K2 & c2 & G2 & O2); auto.
    { intros r Hr' [H|H]; [apply (Hb r); auto; apply in_app_iff; auto | apply (N3 r); auto]. }
    exists K2, (c + c2). split; auto. eapply Gn_cons; eauto.
Qed.

Lemma off_shows U K d : fair U d -> off K d -> shows_but SE cn ce K d (sabs d).
Proof.
  intros [F1 F2] [A B]. split; [|split].
  - rewrite (rds_now _ _ _ (rds_iter_vertices cn never d)). now apply fair_vertices.
  - rewrite (rds_now _ _ _ (rds_iter_edges ce never d SPO)). eapply fair_edges; eauto.
  - intros o. exists (view o d). split; [|split].
    + rewrite (rds_now _ _ _ (rds_iter_edges ce never d o)). eapply fair_edges; eauto.
    + intros t. simpl. unfold SledDb.view. intros H. destruct (rid SPO d t) as [r|] eqn:Er.
      * eapply (fe_rec ce _ _ F2); eauto.
      * exfalso. apply H. destruct (rid o d t) eqn:Eo; auto. exfalso. apply (B o t); congruence.
    + intros t N. simpl. unfold SledDb.view. now rewrite (A o t N).
Qed.

End Torn.
