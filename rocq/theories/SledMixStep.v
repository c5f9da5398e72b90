(** What one storage step of a caller means to the others. *)
From Coq Require Import Arith NArith List Bool Sorted Lia.
From Verif Require Import Bytes BytesFacts OMap OMapFacts Core IdType IdTypeFacts Store Mem Spec
  CodecFacts ListFacts MemSim History Prog ProgFacts Sled SledHistory SledSched SledDb SledOps SledBulk
  SledRun SledRead SledTop SledMain SledCrash SledLeak SledConc SledLeaf SledConcRm SledTorn.
Import ListNotations.

Section Step.
Context {k : idkind} {NP EP SE BE E : Type} (cn : codec BE NP) (ce : codec BE EP).
Context (Hcn : codec_ok cn) (Hce : codec_ok ce).
Context (mn : NP -> NP -> NP) (me : EP -> EP -> EP).
Notation I := (Id k).
Notation T := (triple (Id k)).
Notation G := (graph k NP EP).
Notation err := (sled_error SE BE).
Notation P A := (prog db SE A).
Notation op := (op k NP EP E).
Notation outcome := (outcome (SE := SE) (BE := BE) (E := E)).
Notation apply := (sled_apply (SE := SE) (E := E) cn ce mn me).
Notation fair := (fair (k := k) cn ce).
Notation sabs := (sabs (k := k) cn ce).
Notation bytes_dec := (list_eq_dec Byte.byte_eq_dec).
Let BC := bytes_cmp_ok.
Implicit Types d x : db.
Implicit Types h : handle k.
Implicit Types t : T.
Implicit Types U D N : bytes -> Prop.
Implicit Types W X : T -> Prop.
Implicit Types o : edge_order.
Implicit Types n : I.

Definition loose (r : bytes) d : Prop := forall o t, rid o d t <> Some r.
Definition agreed t d : Prop := forall o, rid o d t = rid SPO d t.

(** The step writes the edges [W], takes away the edges [X], uses the new records [N] and the
    records [D] about to be removed. *)
Record frame W X N U D d x : Prop := {
  fr_calm : calm (fun t => ~ W t) U d x;
  fr_same : forall t, ~ W t -> ~ X t -> forall o, rid o x t = rid o d t;
  fr_ref : forall o t r, rid o x t = Some r -> (exists o', rid o' d t = Some r) \/ (N r /\ ~ D r);
  fr_rec : forall r, loose r d -> ~ D r -> ~ N r -> bget r (t_edge x) = bget r (t_edge d)
}.

Lemma frame_weak W X N W' X' N' U D d x : (forall t, W t -> W' t) -> (forall t, X t -> X' t) -> (forall r, N r -> N' r) ->
  frame W X N U D d x -> frame W' X' N' U D d x.
Proof.
  intros HW HX HN [F1 F2 F3 F4]. split.
  - eapply calm_weak; [|exact F1]. intros t Ht Hw. apply Ht. auto.
  - intros t H1 H2. apply F2; intros H; [apply H1|apply H2]; auto.
  - intros o t r H. destruct (F3 o t r H) as [H'|[H1 H2]]; auto.
  - intros r H1 H2 H3. apply F4; auto.
Qed.

Lemma frame_refl W X N U D d : frame W X N U D d d.
Proof. split; eauto using calm_refl. Qed.

Lemma frame_node W X N U D d v : frame W X N U D d (set_tbl TNode v d).
Proof.
  assert (forall o t, rid o (set_tbl TNode v d) t = rid o d t) as Hr by (intros []; reflexivity).
  split; auto using calm_node. intros o t r. rewrite Hr. eauto.
Qed.

Lemma frame_put_edge X U D d t r b : ~ U r -> (forall r, D r -> U r) ->
  frame (fun u => u = t) X (fun y => y = r) U D d (d_put_edge t r b d).
Proof.
  intros Hr HD. split.
  - now apply calm_put_edge.
  - intros u Hu _ o. rewrite rid_put_edge. now destruct (triple_eq_dec u t).
  - intros o u r'. rewrite rid_put_edge. destruct (triple_eq_dec u t); [|eauto]. intros [= <-]. right. auto.
  - intros r' _ _ Hn. change (t_edge (d_put_edge t r b d)) with (binsert r b (t_edge d)). now rewrite (get_insert_neq BC).
Qed.

Lemma frame_set_edge X U D d t r b : ~ U r -> (forall r, D r -> U r) ->
  frame (fun u => u = t) X (fun y => y = r) U D d (d_set_edge t r b d).
Proof.
  intros Hr HD. split.
  - now apply calm_set_edge.
  - intros u Hu _ o. rewrite rid_set_edge. now destruct (triple_eq_dec u t).
  - intros o u r'. rewrite rid_set_edge. destruct (triple_eq_dec u t); [|eauto]. intros [= <-]. right. auto.
  - intros r' Hl _ Hn. unfold d_set_edge. specialize (Hl SPO t). destruct (rid SPO d t) as [old|]; simpl;
      [rewrite (get_remove_neq BC) by congruence|]; now rewrite (get_insert_neq BC).
Qed.

Lemma frame_rm_edge W U D N d t : agreed t d -> frame W (fun u => u = t) N U D d (d_rm_edge t d).
Proof.
  intros A. split.
  - now apply calm_rm_edge.
  - intros u _ Hu o. rewrite rid_rm_edge. now destruct (triple_eq_dec u t).
  - intros o u r'. rewrite rid_rm_edge. destruct (triple_eq_dec u t); [discriminate|eauto].
  - intros r' Hl _ Hn. unfold d_rm_edge. specialize (Hl SPO t). destruct (rid SPO d t) as [old|]; simpl; auto.
    now rewrite (get_remove_neq BC) by congruence.
Qed.

Lemma rid_rm_node o d n u : exists l : list T, (forall U, fair U d -> forall t, In t l -> sub t = n \/ obj t = n) /\
  forall o', rid o' (d_rm_node n d) u = if in_dec triple_eq_dec u l then None else rid o' d u.
Proof.
  exists (map (ent SPO) (brange (key_bounds_1 n) (t_spo d)) ++ map (ent OSP) (brange (key_bounds_1 n) (t_osp d))). split.
  - intros U [_ F] t Hin. apply in_app_iff in Hin.
    destruct Hin as [Hin|Hin]; [apply (in_ent ce U d SPO n) in Hin|apply (in_ent ce U d OSP n) in Hin]; auto; simpl in Hin; tauto.
  - intros o'. unfold d_rm_node, d_del_node. rewrite <- rid_rm_many with (rs := map snd (brange (key_bounds_1 n) (t_spo d)) ++ map snd (brange (key_bounds_1 n) (t_osp d))).
    destruct o'; reflexivity.
Qed.

Lemma frame_rm_node W N U D d n : fair U d -> agree_at n d -> frame W (fun u => sub u = n \/ obj u = n) N U D d (d_rm_node n d).
Proof.
  intros Hf A. split.
  - now apply (calm_rm_node cn ce).
  - intros u _ Hu o. destruct (rid_rm_node o d n u) as (l & Hl & ->). destruct (in_dec triple_eq_dec u l) as [Hin|]; auto.
    exfalso. apply Hu. eapply Hl; eauto.
  - intros o u r'. destruct (rid_rm_node o d n u) as (l & Hl & ->). destruct (in_dec triple_eq_dec u l) as [Hin|]; [discriminate|eauto].
  - intros r Hl _ _. unfold d_rm_node, d_del_node. simpl. apply removes_get_notin. rewrite in_app_iff, !in_map_iff.
    intros [([key r'] & E1 & Hin)|([key r'] & E1 & Hin)]; simpl in E1; subst r'.
    + apply (in_range_entry ce U d SPO) in Hin; [|apply Hf]. destruct Hin as (u & _ & Hu & _). now apply Hl in Hu.
    + apply (in_range_entry ce U d OSP) in Hin; [|apply Hf]. destruct Hin as (u & _ & Hu & _). now apply Hl in Hu.
Qed.

Lemma frame_put_rec W X U D d r b : ~ U r -> frame W X (fun y => y = r) U D d (d_put_rec r b d).
Proof.
  intros Hr. unfold d_put_rec. split.
  - split; [intros u _; left; intros o; apply rid_edge|]. intros r' Hr' Hn. simpl. rewrite (get_insert_neq BC); congruence.
  - intros u _ _ o. apply rid_edge.
  - intros o u r'. rewrite rid_edge. eauto.
  - intros r' _ _ Hn. simpl. now rewrite (get_insert_neq BC).
Qed.

Lemma frame_put_idx X N U D d oo t r : (exists o', rid o' d t = Some r) \/ (N r /\ ~ D r) ->
  frame (fun u => u = t) X N U D d (d_put_idx oo t r d).
Proof.
  intros Hr. split.
  - split; [|intros r' _; unfold d_put_idx; now rewrite t_edge_set].
    intros u Hu. left. intros o. rewrite rid_put. destruct (order_dec o oo); auto. now destruct (triple_eq_dec u t).
  - intros u Hu _ o. rewrite rid_put. destruct (order_dec o oo); auto. now destruct (triple_eq_dec u t).
  - intros o u r'. rewrite rid_put. destruct (order_dec o oo); [|eauto]. destruct (triple_eq_dec u t) as [->|]; [|eauto].
    intros [= <-]. exact Hr.
  - intros r' _ _ _. unfold d_put_idx. now rewrite t_edge_set.
Qed.

Lemma frame_del_rec W X N U D d r : D r -> frame W X N U D d (d_del_rec r d).
Proof.
  intros HD. unfold d_del_rec. split.
  - split; [intros u _; left; intros o; apply rid_edge|]. intros r' Hr' Hn. simpl.
    destruct (bytes_dec r' r) as [->|Ne]; [apply get_remove_eq|now rewrite (get_remove_neq BC)].
  - intros u _ _ o. apply rid_edge.
  - intros o u r'. rewrite rid_edge. eauto.
  - intros r' _ Hn _. simpl. rewrite (get_remove_neq BC); congruence.
Qed.

(** ** Calls of one storage step *)
Notation plus U r := (fun y => U y \/ y = r).

Lemma put_node_abs d n b p : de cn b = Ok p -> g_equiv (sabs (d_put_node n b d)) (g_put_node n p (sabs d)).
Proof.
  intros Hb. split; simpl.
  - intros i. rewrite (nod_put cn n b p) by auto. reflexivity.
  - intros u. unfold d_put_node. apply view_node.
Qed.

Lemma fair_put_node U d n b p : de cn b = Ok p -> fair U d -> fair U (d_put_node n b d).
Proof. intros Hb [F1 F2]. split; [eapply fairn_put; eauto|now apply faire_node]. Qed.

Definition drawn (o : op) h : list bytes := match o with OInsertEdge _ _ | OMergeEdge _ _ => [next_key h] | _ => [] end.

Lemma drawn_keys (o : op) h : one_call o -> drawn o h = history_keys h [o].
Proof. destruct o; simpl; intros Ho; try contradiction; reflexivity. Qed.

(** What a call of one storage step did, if it succeeded. *)
Definition effect (oo : op) h U D d x : Prop :=
  fair (plus_keys U (drawn oo h)) x /\ g_equiv (sabs x) (spec_apply mn me oo (sabs d)) /\
  frame (writes oo) (fun _ => False) (fun r => In r (drawn oo h)) U D d x /\
  (forall t, agreed t d -> agreed t x).

Lemma one_step (oo : op) h : transactional oo ->
  (exists b, apply oo h = Ret (Err (LeftE (SerializationError b)), advance h (draws oo))) \/
  (exists (u : db -> db) c e, apply oo h = Act u c e /\
    (forall y, e y = Ret (Err (LeftE (SledError y)), advance h (draws oo))) /\
    (forall U D d, fair U d -> (forall r, D r -> U r) -> (forall r, In r (drawn oo h) -> ~ U r) ->
       (exists z : err, c d = Ret (Err (LeftE z), advance h (draws oo)) /\ u d = d) \/
       (c d = Ret (Ok tt, advance h (draws oo)) /\ effect oo h U D d (u d)))).
Proof.
  assert (advance h 1 = step_gen h) as E1 by (unfold advance, step_gen; now rewrite Nat.add_1_r).
  assert (forall U D d (n : I) b p, fair U d -> de cn b = Ok p -> forall oo, spec_apply mn me oo (sabs d) = g_put_node n p (sabs d) ->
    drawn oo h = [] -> effect oo h U D d (d_put_node n b d)) as Hnode.
  { intros U D d n b p Hf Hb o1 Hs Hd. split; [|split; [|split]].
    - eapply fair_mono; [|eapply fair_put_node; eauto]. intros r Hr. left. exact Hr.
    - rewrite Hs. now apply put_node_abs.
    - apply frame_node.
    - intros t A o. generalize (A o). destruct o; auto. }
  destruct oo as [v p|t e|v|t|v p|t e|s|s]; try contradiction; intros _; cbn [draws]; rewrite ?advance_0, ?E1.
  - cbn [sled_apply]. unfold lift, and_handle, s_insert_node, bind_ok, bincode. destruct (ser cn p) as [b|b] eqn:Es; [right|left; eexists; reflexivity].
    eexists _, _, _. split; [reflexivity|]. split; [reflexivity|]. intros U D d Hf HD _. right. split; [reflexivity|].
    apply (Hnode U D d v b p Hf (Hcn _ _ Es)); reflexivity.
  - cbn [sled_apply]. unfold lift, s_insert_edge, draw, fresh, and_handle, bind_ok, bincode. destruct (ser ce e) as [b|b] eqn:Es; [right|left; eexists; reflexivity].
    eexists _, _, _. split; [reflexivity|]. split; [reflexivity|]. intros U D d Hf HD Hk. right. split; [reflexivity|].
    change (effect (OInsertEdge t e) h U D d (d_put_edge t (next_key h) b d)).
    assert (~ U (next_key h)) as Hn by (apply Hk; simpl; auto). split; [|split; [|split]].
    + destruct Hf as [F1 F2]. split; [now apply fairn_put_edge|]. eapply faire_mono; [|eapply put_edge_faire; eauto].
      intros r [Hr| ->]; [left; exact Hr|right; simpl; auto].
    + eapply put_edge_equiv_abs; eauto. apply Hf.
    + eapply frame_weak; [| | |apply (frame_put_edge (fun _ => False))]; simpl; auto.
    + intros u A o. rewrite !rid_put_edge. destruct (triple_eq_dec u t); auto.
  - right. cbn [sled_apply]. unfold lift, and_handle, s_merge_node, transaction, bind_ok.
    eexists _, _, _. split; [reflexivity|]. split; [reflexivity|]. intros U D d Hf HD _. cbn [bind].
    unfold merge_node_txn, t_bind, t_get, t_bincode, t_insert, t_ret, t_abort.
    change (tbl TNode d) with (t_node d).
    destruct (bget (to_be_bytes v) (t_node d)) as [old|] eqn:Ho.
    + destruct (nod_some cn d v old (proj1 Hf) Ho) as (q & Hq & Hn). rewrite Hq.
      destruct (ser cn (mn q p)) as [b|be] eqn:Hs; [right|left; eexists; split; reflexivity].
      split; [reflexivity|]. apply (Hnode U D d v b (mn q p) Hf (Hcn _ _ Hs)); [|reflexivity].
      simpl. unfold g_merge_node. simpl. now rewrite Hn.
    + destruct (ser cn p) as [b|be] eqn:Hs; [right|left; eexists; split; reflexivity].
      split; [reflexivity|]. apply (Hnode U D d v b p Hf (Hcn _ _ Hs)); [|reflexivity].
      simpl. unfold g_merge_node. simpl. unfold SledDb.nod. now rewrite Ho.
  - right. cbn [sled_apply]. unfold lift, s_merge_edge, draw, fresh, and_handle, transaction, bind_ok.
    eexists _, _, _. split; [reflexivity|]. split; [reflexivity|]. intros U D d Hf HD Hk. cbn [bind].
    assert (~ U (next_key h)) as Hn by (apply Hk; simpl; auto).
    pose proof (merge_edge_txn_ok (SE := SE) cn ce Hce me U d t (next_key h) e Hf Hn) as Ht. unfold next_key in Ht at 1. 
    destruct (merge_edge_txn ce me t _ e d) as [[[] x]|x] eqn:Et; [right|left; eexists; split; reflexivity].
    destruct Ht as (b & e' & Hb & He & ->). split; [reflexivity|].
    split; [|split; [|split]].
    + destruct Hf as [F1 F2]. split; [now apply fairn_drop, fairn_put_edge|]. eapply faire_mono; [|eapply set_edge_faire; eauto].
      intros r [Hr| ->]; [left; exact Hr|right; simpl; auto].
    + cbn [spec_apply]. subst e'. apply (put_edge_equiv_abs cn ce U d t (next_key h) b); auto. apply Hf.
    + eapply frame_weak; [| | |apply (frame_set_edge (fun _ => False))]; simpl; auto.
    + intros u A o. rewrite !rid_set_edge. destruct (triple_eq_dec u t); auto.
Qed.

(** remove_edge and remove_node *)
Lemma rm_edge_abs U d t : fair U d -> fair U (d_rm_edge t d) /\ g_equiv (sabs (d_rm_edge t d)) (g_del_edge t (sabs d)).
Proof.
  intros Hf. destruct (rm_edge_near cn ce U d t Hf) as [[H1 _] _]. split; auto. split; simpl.
  - intros i. unfold d_rm_edge. destruct (rid SPO d t); reflexivity.
  - intros u. eapply rm_edge_view. apply Hf.
Qed.

Lemma rm_node_abs U d n : fair U d -> agree_at n d -> fair U (d_rm_node n d) /\ g_equiv (sabs (d_rm_node n d)) (g_del_node n (sabs d)).
Proof.
  intros Hf A. destruct (rm_node_near cn ce U d n Hf) as [[H1 _] _]. split; auto. destruct Hf as [F1 F2].
  pose proof (rm_node_closed ce U d n F2) as Hc. simpl in Hc. split.
  - intros i. unfold d_rm_node. simpl. rewrite nod_del. reflexivity.
  - intros u. unfold d_rm_node. cbn [g_edge SledDb.sabs g_del_node].
    unfold d_del_node. rewrite view_node, rm_many_view by exact Hc.
    destruct (in_dec triple_eq_dec u _) as [H|H].
    + rewrite in_app_iff in H.
      destruct (id_eq_dec (sub u) n) as [|Ns]; auto. destruct (id_eq_dec (obj u) n) as [|No]; auto.
      exfalso. destruct H as [H|H].
      * apply (in_ent ce U d SPO n) in H; auto. simpl in H. tauto.
      * apply (in_ent ce U d OSP n) in H; auto. simpl in H. tauto.
    + rewrite in_app_iff in H. destruct (id_eq_dec (sub u) n) as [Es|Ns].
      * unfold SledDb.view. destruct (rid SPO d u) eqn:Er; auto. exfalso. apply H. left.
        apply (in_ent ce U d SPO n); auto. split; [congruence | exact Es].
      * destruct (id_eq_dec (obj u) n) as [Eo|No]; auto.
        unfold SledDb.view. destruct (rid SPO d u) eqn:Er; auto. exfalso. apply H. right.
        apply (in_ent ce U d OSP n); auto. rewrite A by auto. split; [congruence | exact Eo].
Qed.

Lemma rm_edge_agreed t u d : agreed u d -> agreed u (d_rm_edge t d).
Proof. intros A o. rewrite !rid_rm_edge. destruct (triple_eq_dec u t); auto. Qed.

Lemma rm_node_agreed n u d : agreed u d -> agreed u (d_rm_node n d).
Proof.
  intros A o. destruct (rid_rm_node o d n u) as (l & _ & Hl). rewrite !Hl. destruct (in_dec triple_eq_dec u l); auto.
Qed.

(** ** Sequences of calls *)
Lemma moved_equiv (oo : op) (r : outcome) (g1 g2 g : G) : g_equiv g1 g2 -> moved mn me oo r g1 g -> moved mn me oo r g2 g.
Proof.
  intros Hg. unfold moved. destruct (succeeded r).
  - intros [H1 H2]. split; auto. eapply g_equiv_trans; [exact H2|]. now apply SledTorn.spec_apply_equiv.
  - intros [H|[H1 H2]]; [left; eapply g_equiv_trans; eauto|]. right. split; auto. eapply g_equiv_trans; [exact H2|]. now apply SledTorn.spec_apply_equiv.
Qed.

Lemma moves_equiv (s : list (op * outcome)) : forall (g1 g2 g : G), g_equiv g1 g2 -> moves mn me s g1 g -> moves mn me s g2 g.
Proof.
  destruct s as [|[o1 r] s]; intros g1 g2 g Hg; simpl.
  - intros H. eapply g_equiv_trans; eauto.
  - intros (g' & H1 & H2). exists g'. split; auto. eapply moved_equiv; eauto.
Qed.

Lemma moves_app (s s' : list (op * outcome)) : forall (g1 g2 g3 : G), moves mn me s g1 g2 -> moves mn me s' g2 g3 -> moves mn me (s ++ s') g1 g3.
Proof.
  induction s as [|[o1 r] s IH]; intros g1 g2 g3; simpl.
  - intros H. apply moves_equiv. exact H.
  - intros (g' & H1 & H2) H3. exists g'. split; eauto.
Qed.

Lemma moved_not (oo : op) e (g : G) : moved (SE := SE) (BE := BE) mn me oo (Err (LeftE e)) g g.
Proof. left. apply g_equiv_refl. Qed.

End Step.
