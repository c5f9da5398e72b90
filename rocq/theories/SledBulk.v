(** remove_node, extend, merge and whole histories on a SledTripleStore. *)
From Coq Require Import Arith NArith List Bool Sorted Lia.
From Verif Require Import Bytes BytesFacts OMap OMapFacts Core IdType IdTypeFacts Store Mem Spec
  CodecFacts ListFacts MemSim History Prog ProgFacts Sled SledHistory SledDb SledOps.
Import ListNotations.

Section Bulk.
Context {k : idkind} {NP EP SE BE : Type} (cn : codec BE NP) (ce : codec BE EP).
Context (Hcn : codec_ok cn) (Hce : codec_ok ce).
Notation I := (Id k).
Notation T := (triple (Id k)).
Notation G := (graph k NP EP).
Notation err := (sled_error SE BE).
Notation P A := (prog db SE A).
Notation PR A := (prog db SE (result err A)).
Notation fair := (fair (k := k) cn ce).
Notation agree := (indexes_agree (k := k)).
Notation sabs := (sabs (k := k) cn ce).
Notation nod := (nod (k := k) cn).
Notation view := (view (k := k) ce).
Notation record := (record ce).
Notation near := (near (k := k) cn ce).
Notation blame := (blame (SE := SE) cn ce).
Notation finished := (finished (k := k) (SE := SE) cn ce).
Notation bytes_dec := (list_eq_dec Byte.byte_eq_dec).
Let BC := bytes_cmp_ok.
Implicit Types t u : T.
Implicit Types n : I.
Implicit Types F : SE -> Prop.
Implicit Types U : bytes -> Prop.

(** ** remove_node *)
Definition good_len (kv : bytes * bytes) : Prop := length (fst kv) = 3 * width k.

Lemma decode_key_spec (dcd : bytes -> T) key :
  (length key = 3 * width k /\ decode_key (SE := SE) (BE := BE) dcd key = Ok (dcd key)) \/
  (length key <> 3 * width k /\ decode_key (SE := SE) (BE := BE) dcd key = Err KeySizeError).
Proof.
  unfold decode_key, try_into_array. destruct (Nat.eqb_spec (length key) (3 * width k)); auto.
Qed.

Definition ent (o : edge_order) (kv : bytes * bytes) : T := dec o (fst kv).

Definition fwd (es : list (bytes * bytes)) (b : batches) : batches :=
  Batches (b_spo b ++ map fst es) (b_pos b ++ map (fun kv => encode_pos (ent SPO kv)) es)
          (b_osp b ++ map (fun kv => encode_osp (ent SPO kv)) es) (b_edge b ++ map snd es).
Definition bwd (es : list (bytes * bytes)) (b : batches) : batches :=
  Batches (b_spo b ++ map (fun kv => encode_spo (ent OSP kv)) es)
          (b_pos b ++ map (fun kv => encode_pos (ent OSP kv)) es)
          (b_osp b ++ map fst es) (b_edge b ++ map snd es).

Definition scan_result F (es : list (bytes * bytes)) (d : db) (b' : batches) (r : result err batches) (x : db) : Prop :=
  x = d /\
  match r with
  | Ok b => Forall good_len es /\ b = b'
  | Err e => (exists y, F y /\ e = SledError y) \/ (e = KeySizeError /\ Exists (fun kv => ~ good_len kv) es)
  end.

Lemma wp_forward F (R : db -> Prop) d : R d -> forall es b,
  wp F R (scan_result F es d (fwd es b)) (for_ok (forward_entry (k := k)) es b : PR batches) d.
Proof.
  intros HR. induction es as [|kv es IH]; intros b.
  - simpl. split; auto. split; auto. split; auto. unfold fwd. simpl. rewrite !app_nil_r. now destruct b.
  - cbn [for_ok]. apply wp_bind_ok. unfold forward_entry at 1, next. simpl.
    split; auto. split.
    + destruct (decode_key_spec decode_spo (fst kv)) as [[Hl ->]|[Hl ->]]; simpl.
      * split; auto. eapply wp_mono; [| |apply IH]; auto.
        intros r x _ [-> H]. split; auto. destruct r as [b'|e].
        -- destruct H as [H1 ->]. split; [constructor; auto|].
           unfold fwd. simpl. now rewrite <- !app_assoc.
        -- destruct H as [H|[H1 H2]]; auto.
      * repeat (split; auto).
    + intros x Hx. repeat (split; auto). left. eauto.
Qed.

Lemma wp_backward F (R : db -> Prop) d : R d -> forall es b,
  wp F R (scan_result F es d (bwd es b)) (for_ok (backward_entry (k := k)) es b : PR batches) d.
Proof.
  intros HR. induction es as [|kv es IH]; intros b.
  - simpl. split; auto. split; auto. split; auto. unfold bwd. simpl. rewrite !app_nil_r. now destruct b.
  - cbn [for_ok]. apply wp_bind_ok. unfold backward_entry at 1, next. simpl.
    split; auto. split.
    + destruct (decode_key_spec decode_osp (fst kv)) as [[Hl ->]|[Hl ->]]; simpl.
      * split; auto. eapply wp_mono; [| |apply IH]; auto.
        intros r x _ [-> H]. split; auto. destruct r as [b'|e].
        -- destruct H as [H1 ->]. split; [constructor; auto|].
           unfold bwd. simpl. now rewrite <- !app_assoc.
        -- destruct H as [H|[H1 H2]]; auto.
      * repeat (split; auto).
    + intros x Hx. repeat (split; auto). left. eauto.
Qed.

Definition no_batches : batches := Batches [] [] [] [].

Definition d_rm_node (n : I) (d : db) : db :=
  let fs := brange (key_bounds_1 n) (t_spo d) in
  let bs := brange (key_bounds_1 n) (t_osp d) in
  d_del_node n (d_rm_many (map (ent SPO) fs ++ map (ent OSP) bs) (map snd fs ++ map snd bs) d).

Lemma map_ent_fst o es : Forall good_len es -> map (enc o) (map (ent o) es) = map fst es.
Proof.
  rewrite map_map. intros H. apply map_ext_in. intros kv Hin. rewrite Forall_forall in H.
  unfold ent. apply enc_dec. now apply H.
Qed.

Lemma remove_node_txn_eq n d :
  let fs := brange (key_bounds_1 n) (t_spo d) in
  let bs := brange (key_bounds_1 n) (t_osp d) in
  Forall good_len fs -> Forall good_len bs ->
  remove_node_txn (SE := SE) (BE := BE) n (fwd fs no_batches) (bwd bs no_batches) d = Ok (tt, d_rm_node n d).
Proof.
  intros fs bs Hf Hb.
  unfold remove_node_txn, t_bind, t_remove, t_apply_removals, t_ret. f_equal. f_equal.
  unfold d_rm_node, d_del_node, d_rm_many. fold fs bs. cbn [set_tbl tbl t_node t_edge t_spo t_pos t_osp fwd bwd b_spo b_pos b_osp b_edge no_batches app].
  rewrite !map_app, !removes_app. unfold removes.
  f_equal.
  - rewrite map_ent_fst by auto. rewrite map_map. reflexivity.
  - rewrite !map_map. reflexivity.
  - rewrite map_ent_fst by auto. rewrite map_map. reflexivity.
Qed.

Lemma in_range_entry U d o n key r : faire (k := k) ce U d ->
  In (key, r) (brange (key_bounds_1 n) (idx o d)) <->
  exists t, key = enc o t /\ rid o d t = Some r /\ fst (fst (comps o t)) = n.
Proof.
  intros F. unfold om_range. rewrite filter_In. simpl. split.
  - intros [H Hr]. destruct (fe_keys ce _ _ F _ _ _ H) as [t ->]. exists t. split; auto.
    split; [now apply (get_iff_in BC _ _ _ (fe_isorted ce _ _ F o))|].
    pose proof (bounds_1 k n t) as B. destruct (key_bounds_1 n) as [lo hi]. simpl in Hr.
    destruct B as (B1 & B2 & B3). destruct o; simpl in *; tauto.
  - intros (t & -> & H & Hn). split; [now apply (get_in BC)|].
    pose proof (bounds_1 k n t) as B. destruct (key_bounds_1 n) as [lo hi]. simpl.
    destruct B as (B1 & B2 & B3). destruct o; simpl in *; tauto.
Qed.

Lemma range_good_len U d o n : faire (k := k) ce U d -> Forall good_len (brange (key_bounds_1 n) (idx o d)).
Proof.
  intros F. apply Forall_forall. intros [key r] H. apply (in_range_entry U) in H; auto.
  destruct H as (t & -> & _). unfold good_len. simpl fst. apply enc_length.
Qed.

Lemma in_ent U d o n t : faire (k := k) ce U d ->
  In t (map (ent o) (brange (key_bounds_1 n) (idx o d))) <->
  rid o d t <> None /\ fst (fst (comps o t)) = n.
Proof.
  intros F. rewrite in_map_iff. split.
  - intros ([key r] & <- & H). apply (in_range_entry U) in H; auto. destruct H as (u & -> & Hr & Hn).
    unfold ent. simpl. rewrite dec_enc. split; congruence.
  - intros [Hr Hn]. destruct (rid o d t) as [r|] eqn:E; [|congruence].
    exists (enc o t, r). split; [apply dec_enc|]. apply (in_range_entry U); eauto.
Qed.

Lemma rm_node_closed U d n : faire (k := k) ce U d ->
  let fs := brange (key_bounds_1 n) (t_spo d) in
  let bs := brange (key_bounds_1 n) (t_osp d) in
  forall o t r, In r (map snd fs ++ map snd bs) -> rid o d t = Some r ->
    In t (map (ent SPO) fs ++ map (ent OSP) bs).
Proof.
  intros F fs bs o t r Hin Hr. rewrite in_app_iff in *. rewrite !in_map_iff in Hin.
  destruct Hin as [([key r'] & <- & H)|([key r'] & <- & H)]; [left|right].
  - pose proof H as H0. apply (in_range_entry U d SPO n) in H; auto. destruct H as (u & -> & Hu & _).
    assert (t = u) as -> by (eapply (fe_inj ce _ _ F); eauto).
    apply in_map_iff. exists (enc SPO u, r'). split; auto. apply dec_enc.
  - pose proof H as H0. apply (in_range_entry U d OSP n) in H; auto. destruct H as (u & -> & Hu & _).
    assert (t = u) as -> by (eapply (fe_inj ce _ _ F); eauto).
    apply in_map_iff. exists (enc OSP u, r'). split; auto. apply dec_enc.
Qed.

Lemma rm_node_near U d n : fair U d ->
  near U d (g_del_node n) (d_rm_node n d) /\ (agree d -> g_equiv (sabs (d_rm_node n d)) (g_del_node n (sabs d))).
Proof.
  intros [F1 F2]. pose proof (rm_node_closed U d n F2) as Hc. simpl in Hc.
  assert (agree d -> g_equiv (sabs (d_rm_node n d)) (g_del_node n (sabs d))) as Hg.
  { intros A. split.
    - intros i. unfold d_rm_node. simpl. rewrite nod_del. reflexivity.
    - intros u. unfold d_rm_node. cbn [g_edge SledDb.sabs g_del_node].
      unfold d_del_node. rewrite view_node, rm_many_view by exact Hc.
      destruct (in_dec triple_eq_dec u _) as [H|H].
      + rewrite in_app_iff in H.
        destruct (id_eq_dec (sub u) n) as [|Ns]; auto. destruct (id_eq_dec (obj u) n) as [|No]; auto.
        exfalso. destruct H as [H|H].
        * apply (in_ent U d SPO n) in H; auto. simpl in H. tauto.
        * apply (in_ent U d OSP n) in H; auto. simpl in H. tauto.
      + rewrite in_app_iff in H. destruct (id_eq_dec (sub u) n) as [Es|Ns].
        * unfold SledDb.view. destruct (rid SPO d u) eqn:E; auto. exfalso. apply H. left.
          apply (in_ent U d SPO n); auto. split; [congruence | exact Es].
        * destruct (id_eq_dec (obj u) n) as [Eo|No]; auto.
          unfold SledDb.view. destruct (rid SPO d u) eqn:E; auto. exfalso. apply H. right.
          apply (in_ent U d OSP n); auto. rewrite A. split; [congruence | exact Eo]. }
  split; auto. split.
  - split.
    + unfold d_rm_node. apply fairn_del. destruct F1. split; auto.
    + unfold d_rm_node, d_del_node. apply faire_node. now apply rm_many_faire.
  - intros A. split; auto. unfold d_rm_node, d_del_node. apply agree_node.
    intros o u. rewrite !rid_rm_many. destruct (in_dec triple_eq_dec u _); auto.
Qed.

Lemma wp_remove_node F U n d : fair U d ->
  wp F (near U d (g_del_node n)) (finished F d (g_del_node n)) (s_remove_node n : PR unit) d.
Proof.
  intros H. pose proof (near_refl cn ce U d (g_del_node n) H) as Hd. destruct (rm_node_near U d n H) as [H1 H2].
  pose proof (range_good_len U d SPO n (proj2 H)) as L1. pose proof (range_good_len U d OSP n (proj2 H)) as L2.
  change (idx SPO d) with (t_spo d) in L1. change (idx OSP d) with (t_osp d) in L2.
  assert (forall es, Forall good_len es -> ~ Exists (fun kv => ~ good_len kv) es) as Hno.
  { intros es He Hx. rewrite Forall_forall in He. apply Exists_exists in Hx. destruct Hx as (x & Hx & Nx). auto. }
  unfold s_remove_node. apply wp_bind_ok. cbn [wp].
  eapply wp_mono; [| |apply (wp_forward F _ d Hd)]; auto.
  intros r x _ [-> Hr]. destruct r as [b|e].
  2: { split; [exact Hd|]. destruct Hr as [(y & Hy & ->)|[-> Hx]]; [exact Hy | exfalso; revert Hx; apply Hno; assumption]. }
  destruct Hr as [_ ->]. apply wp_bind_ok. cbn [wp].
  eapply wp_mono; [| |apply (wp_backward F _ d Hd)]; auto.
  intros r x _ [-> Hr]. destruct r as [b|e].
  2: { split; [exact Hd|]. destruct Hr as [(y & Hy & ->)|[-> Hx]]; [exact Hy | exfalso; revert Hx; apply Hno; assumption]. }
  destruct Hr as [_ ->]. apply wp_bind_ok. apply wp_transaction; auto.
  fold no_batches. rewrite remove_node_txn_eq by auto. split; auto. simpl. auto.
Qed.

(** ** One edge of extend *)

(** Each order shows the graph before or the graph after. *)
Definition nearx U (d : db) (f : G -> G) (x : db) : Prop :=
  fair U x /\
  (agree d -> (forall i, nod x i = nod d i) /\
    forall o, (forall u, view o x u = g_edge (sabs d) u) \/ (forall u, view o x u = g_edge (f (sabs d)) u)).

Lemma wp_extend_edge F U t e h d : fair U d -> ~ U (next_ulid h) ->
  wp F (nearx (fun x => U x \/ x = next_ulid h) d (g_put_edge t e))
       (with_h (step_ulid h) (fun r x => (agree d -> match r with Ok _ => agree x | Err _ => True end) /\ finished F d (g_put_edge t e) r x))
       (s_extend_edge ce t e h : P (result err unit * handle k)) d.
Proof.
  intros [F1 F2] N. set (r := next_ulid h) in *. set (U' := fun x => U x \/ x = r).
  assert (forall x o, agree x -> forall u, view o x u = view SPO x u) as Hv
    by (intros x o A u; unfold SledDb.view; now rewrite A).
  assert (nearx U' d (g_put_edge t e) d) as Hd.
  { split.
    - split; auto. eapply faire_mono; [|exact F2]. unfold U'; auto.
    - intros A. split; auto. intros o. left. intros u. now apply Hv. }
  unfold s_extend_edge, draw_ulid, fresh. apply wp_and_handle. fold (next_ulid h). fold r.
  apply wp_bind_ok. apply wp_bincode; auto.
  destruct (ser ce e) as [b|be] eqn:Hs; [|split; auto; simpl; split; eauto].
  pose proof (Hce _ _ Hs) as Hb.
  pose proof (faire_put_rec ce U d r b e F2 N Hb) as E1.
  assert (record (d_put_rec r b d) r = Some e) as Hr.
  { rewrite (record_put ce r b e) by auto. destruct (bytes_dec r r); congruence. }
  assert (record (d_put_rec r b d) r <> None) as Hr' by congruence.
  assert (forall o u, rid o (d_put_rec r b d) u = Some r -> u = t) as H1.
  { intros o u. unfold d_put_rec. rewrite rid_edge. intros H. exfalso. revert H. eapply fresh_unused; eauto. }
  assert (faire (k := k) ce U' (d_put_idx SPO t r (d_put_rec r b d))) as E2 by (now apply faire_put_idx).
  assert (faire (k := k) ce U' (d_put_idx POS t r (d_put_idx SPO t r (d_put_rec r b d)))) as E3.
  { apply faire_put_idx; auto. intros o u. rewrite rid_put.
    destruct (triple_eq_dec u t); auto. destruct (order_dec o SPO); apply H1. }
  pose proof (put_edge_faire ce U d t r b e F2 N Hb) as E4.
  pose proof (set_edge_faire ce U d t r b e F2 N Hb) as E5.
  assert (forall x, t_node x = t_node d -> fairn (k := k) cn x) as Hfn
    by (intros x E; destruct F1 as [S1 S2]; split; rewrite E; auto).
  assert (forall x o, (forall u, view o x u = view o d u) \/ (forall u, view o x u = if triple_eq_dec u t then Some e else view o d u) ->
     agree d -> (forall u, view o x u = g_edge (sabs d) u) \/ (forall u, view o x u = g_edge (g_put_edge t e (sabs d)) u)) as Hstep.
  { intros x o [H|H] A; [left|right]; intros u; rewrite H; simpl; rewrite (Hv d o A); auto. }
  assert (nearx U' d (g_put_edge t e) (d_put_rec r b d)) as N1.
  { split; [split; auto|]. intros A. split; auto. intros o. apply Hstep; auto. left. intros u.
    eapply view_put_rec; eauto. }
  assert (nearx U' d (g_put_edge t e) (d_put_idx SPO t r (d_put_rec r b d))) as N2.
  { split; [split; auto|]. intros A. split; auto. intros o. apply Hstep; auto.
    destruct o; [right|left|left]; intros u; rewrite view_put_idx; simpl;
      rewrite ?(view_put_rec ce U), ?Hr; auto. }
  assert (nearx U' d (g_put_edge t e) (d_put_idx POS t r (d_put_idx SPO t r (d_put_rec r b d)))) as N3.
  { split; [split; auto|]. intros A. split; auto. intros o. apply Hstep; auto.
    destruct o; [right|right|left]; intros u; rewrite !view_put_idx; simpl;
      unfold d_put_idx; rewrite ?(view_put_rec ce U), ?record_set, ?Hr; auto. }
  assert (nearx U' d (g_put_edge t e) (d_put_edge t r b d)) as N4.
  { split; [split; auto|]. intros A. split; auto. intros o. apply Hstep; auto. right. intros u.
    eapply put_edge_view; eauto. }
  assert (nearx U' d (g_put_edge t e) (d_set_edge t r b d)) as N5.
  { split; [split; auto; apply Hfn; unfold d_set_edge; destruct (rid SPO d t); auto|].
    intros A. split.
    - intros i. unfold d_set_edge. destruct (rid SPO d t); reflexivity.
    - intros o. apply Hstep; auto. right. intros u. eapply set_edge_view; eauto. }
  pose proof (set_edge_agree t r b d) as A5.
  destruct (put_edge_equiv_abs cn ce U d t r b e F2 N Hb) as [_ G5].
  assert (forall d', nearx U' d (g_put_edge t e) d' -> forall x, F x ->
    nearx U' d (g_put_edge t e) d' /\ (agree d -> True) /\ finished F d (g_put_edge t e) (Err (SledError x)) d') as Herr by (intros; auto).
  assert (rid SPO (d_put_rec r b d) t = rid SPO d t) as Eold by (apply rid_edge).
  apply wp_bind_ok. apply wp_tree_insert; [exact Hd | exact N1 | | intros; now apply Herr].
  apply wp_bind_ok. apply wp_tree_insert; [exact N1 | exact N2 | | intros; now apply Herr].
  apply wp_bind_ok. apply wp_tree_insert; [exact N2 | exact N3 | | intros; now apply Herr].
  apply wp_bind_ok. apply wp_tree_insert; [exact N3 | exact N4 | | intros; now apply Herr].
  change (bget (encode_spo t) _) with (rid SPO (d_put_rec r b d) t). rewrite Eold.
  change (set_tbl TOsp _ _) with (d_put_edge t r b d).
  unfold d_set_edge in *. destruct (rid SPO d t) as [old|]; simpl d_drop in *.
  - apply wp_bind_ok. apply wp_tree_remove; [exact N4 | exact N5 | | intros; now apply Herr].
    simpl. auto.
  - simpl. auto.
Qed.

End Bulk.
