(** Facts about Mem.v: effects of the operations on lookups, invariants. *)
From Coq Require Import Arith NArith List Sorted Lia Bool.
From Verif Require Import Bytes BytesFacts OMap OMapFacts Core IdType IdTypeFacts Store Mem Spec History.
Import ListNotations.

Section Facts.
Context {k : idkind} {NP EP : Type}.
Notation I := (Id k).
Notation T := (triple (Id k)).
Notation M := (mem k NP EP).
Notation iget := (om_get id_cmp).
Notation bget := (om_get bytes_cmp).
Let IC := id_cmp_ok k.
Let BC := bytes_cmp_ok.

(** ** Lookups *)
Definition index (o : edge_order) (m : M) : omap bytes I :=
  match o with SPO => spo_data m | POS => pos_data m | OSP => osp_data m end.

Definition eid (m : M) (t : T) : option I := bget (encode_spo t) (spo_data m).
Definition prop (m : M) (i : I) : option EP := iget i (edge_props m).
Definition nprop (m : M) (i : I) : option NP := iget i (node_props m).

Definition abs_edge (m : M) (t : T) : option EP :=
  match eid m t with Some i => prop m i | None => None end.

Definition abs (m : M) : graph k NP EP := Graph (nprop m) (abs_edge m).

(** ** The invariant that needs nothing from the generator *)
Record agree (m : M) : Prop := {
  ag_nodes : om_sorted id_cmp (node_props m);
  ag_props : om_sorted id_cmp (edge_props m);
  ag_index : forall o, om_sorted bytes_cmp (index o m);
  ag_keys : forall o d i, In (d, i) (index o m) -> exists t : T, d = enc o t;
  ag_get : forall o t, bget (enc o t) (index o m) = eid m t
}.

(** ** The invariant under distinct identifiers *)
Record good (m : M) : Prop := {
  go_inj : forall t u i, eid m t = Some i -> eid m u = Some i -> t = u;
  go_present : forall t i, eid m t = Some i -> prop m i <> None;
  go_noleak : forall i, prop m i <> None -> exists t, eid m t = Some i;
  go_drawn : forall t i, eid m t = Some i ->
    exists n, n < g_pos (id_generator m) /\ g_seq (id_generator m) n = i
}.

(** Index in one order: lookup and membership of encoded keys. *)
Lemma index_in {m} o (A : agree m) t i :
  In (enc o t, i) (index o m) <-> eid m t = Some i.
Proof.
  rewrite <- (ag_get _ A o t). symmetry. apply (get_iff_in BC). apply (ag_index _ A).
Qed.

Lemma agree_new g : agree (mem_new g : M).
Proof.
  split; simpl; try constructor; intros o; destruct o; simpl; try constructor;
    try (intros ? ? []); reflexivity.
Qed.

Lemma good_new g : good (mem_new g : M).
Proof.
  split; unfold eid, prop; simpl; try discriminate. congruence.
Qed.

Lemma abs_new g : g_equiv (abs (mem_new g : M)) g_empty.
Proof. split; reflexivity. Qed.

(** ** set_*: trivial projections *)
Lemma agree_ext m m' :
  (forall o, index o m' = index o m) -> om_sorted id_cmp (node_props m') ->
  om_sorted id_cmp (edge_props m') -> agree m -> agree m'.
Proof.
  intros HI Hn He A.
  pose proof (HI SPO) as HS. simpl in HS.
  split; auto.
  - intros o. rewrite HI. apply (ag_index _ A).
  - intros o. rewrite HI. apply (ag_keys _ A).
  - intros o t. rewrite HI. unfold eid. rewrite HS. apply (ag_get _ A).
Qed.

(** ** insert_edge_data_internal *)
Definition iedi := @insert_edge_data_internal k NP EP.

Lemma index_iedi o t i m :
  index o (iedi t i m) = om_insert bytes_cmp (enc o t) i (index o m).
Proof. destruct o; reflexivity. Qed.

Lemma enc_dec_cases o (t u : T) : (t = u /\ enc o t = enc o u) \/ (t <> u /\ enc o t <> enc o u).
Proof.
  destruct (triple_eq_dec t u) as [->|N]; [left; auto | right].
  split; auto. intros H. apply N. now apply enc_inj in H.
Qed.

Lemma eid_iedi t i m u :
  eid (iedi t i m) u = if triple_eq_dec u t then Some i else eid m u.
Proof.
  unfold eid. change (spo_data (iedi t i m)) with (index SPO (iedi t i m)).
  rewrite index_iedi. change (encode_spo u) with (enc SPO u).
  destruct (triple_eq_dec u t) as [->|N].
  - apply (get_insert_eq BC).
  - apply (get_insert_neq BC). intros H. apply N. now apply enc_inj in H.
Qed.

Lemma agree_iedi t i m : agree m -> agree (iedi t i m).
Proof.
  intros A. split.
  - apply (ag_nodes _ A).
  - apply (ag_props _ A).
  - intros o. rewrite index_iedi. apply (om_sorted_insert BC), (ag_index _ A).
  - intros o d j. rewrite index_iedi. intros H.
    apply in_insert_weak in H. destruct H as [[-> _]|H]; [eauto|].
    now apply (ag_keys _ A) in H.
  - intros o u. rewrite eid_iedi, index_iedi.
    destruct (triple_eq_dec u t) as [->|N].
    + apply (get_insert_eq BC).
    + rewrite (get_insert_neq BC); [apply (ag_get _ A)|].
      intros H. apply N. now apply enc_inj in H.
Qed.

(** ** insert_edge *)
Definition next_id (m : M) : I := g_seq (id_generator m) (g_pos (id_generator m)).

Lemma insert_edge_unfold t e (m : M) :
  insert_edge t e m =
  iedi t (next_id m)
    (set_edge_props (om_insert id_cmp (next_id m) e
        match eid m t with Some old => om_remove id_cmp old (edge_props m)
                         | None => edge_props m end)
      (set_id_generator (Gen (g_seq (id_generator m)) (S (g_pos (id_generator m)))) m)).
Proof.
  unfold insert_edge, insert_edge_create_data, eid, iedi, next_id.
  destruct (bget (encode_spo t) (spo_data m)); reflexivity.
Qed.

Lemma eid_insert_edge t e (m : M) u :
  eid (insert_edge t e m) u = if triple_eq_dec u t then Some (next_id m) else eid m u.
Proof. rewrite insert_edge_unfold, eid_iedi. reflexivity. Qed.

Lemma prop_insert_edge t e (m : M) i :
  prop (insert_edge t e m) i =
  if id_eq_dec i (next_id m) then Some e
  else match eid m t with
       | Some old => if id_eq_dec i old then None else prop m i
       | None => prop m i
       end.
Proof.
  rewrite insert_edge_unfold. unfold prop. simpl.
  destruct (id_eq_dec i (next_id m)) as [->|N].
  - apply (get_insert_eq IC).
  - rewrite (get_insert_neq IC) by auto.
    destruct (eid m t) as [old|]; auto.
    destruct (id_eq_dec i old) as [->|N'].
    + apply (get_remove_eq).
    + now apply (get_remove_neq IC).
Qed.

Lemma nprop_insert_edge t e (m : M) i : nprop (insert_edge t e m) i = nprop m i.
Proof. rewrite insert_edge_unfold. reflexivity. Qed.

Lemma gen_insert_edge t e (m : M) :
  id_generator (insert_edge t e m) =
  Gen (g_seq (id_generator m)) (S (g_pos (id_generator m))).
Proof. rewrite insert_edge_unfold. reflexivity. Qed.

Lemma agree_insert_edge t e (m : M) : agree m -> agree (insert_edge t e m).
Proof.
  intros A. rewrite insert_edge_unfold. apply agree_iedi.
  apply (agree_ext m); [ | | | exact A].
  - intros []; reflexivity.
  - apply (ag_nodes _ A).
  - simpl. apply (om_sorted_insert IC).
    destruct (eid m t); [apply om_sorted_remove|]; apply (ag_props _ A).
Qed.

(** Generators only move forward along the same sequence. *)
Definition gen_le (g g' : gen k) : Prop := g_seq g' = g_seq g /\ g_pos g <= g_pos g'.

Lemma gen_le_refl g : gen_le g g.
Proof. split; auto. Qed.

Lemma gen_le_trans g1 g2 g3 : gen_le g1 g2 -> gen_le g2 g3 -> gen_le g1 g3.
Proof. intros [E1 L1] [E2 L2]. split; [congruence | lia]. Qed.

Lemma gen_le_distinct g g' : gen_le g g' -> drawn_distinct g' -> drawn_distinct g.
Proof. intros [E L] D i j Hi Hj H. apply D; try lia. now rewrite E. Qed.

Lemma next_id_fresh m t i :
  good m -> drawn_distinct (Gen (g_seq (id_generator m)) (S (g_pos (id_generator m)))) ->
  eid m t = Some i -> i <> next_id m.
Proof.
  intros Go D H E. destruct (go_drawn _ Go _ _ H) as (n & L & S). rewrite <- S in E.
  unfold next_id in E. apply D in E; simpl in *; lia.
Qed.

Lemma next_id_noprop m :
  good m -> drawn_distinct (Gen (g_seq (id_generator m)) (S (g_pos (id_generator m)))) ->
  prop m (next_id m) = None.
Proof.
  intros Go D. destruct (prop m (next_id m)) eqn:E; auto.
  destruct (go_noleak _ Go (next_id m)) as [t H]; [congruence|].
  exfalso. eapply next_id_fresh; eauto.
Qed.

Ltac decs :=
  repeat match goal with
  | H : context [if triple_eq_dec ?a ?b then _ else _] |- _ => destruct (triple_eq_dec a b); subst
  | H : context [if id_eq_dec ?a ?b then _ else _] |- _ => destruct (id_eq_dec a b); subst
  | |- context [if triple_eq_dec ?a ?b then _ else _] => destruct (triple_eq_dec a b); subst
  | |- context [if id_eq_dec ?a ?b then _ else _] => destruct (id_eq_dec a b); subst
  end.

Lemma good_insert_edge t e (m : M) :
  good m -> drawn_distinct (id_generator (insert_edge t e m)) -> good (insert_edge t e m).
Proof.
  intros Go D. rewrite gen_insert_edge in D.
  assert (F : forall u i, eid m u = Some i -> i <> next_id m)
    by (intros; eapply next_id_fresh; eauto).
  split.
  - intros a b i. rewrite !eid_insert_edge. intros H1 H2.
    destruct (triple_eq_dec a t), (triple_eq_dec b t); try congruence.
    + exfalso. apply (F _ _ H2). congruence.
    + exfalso. apply (F _ _ H1). congruence.
    + eapply go_inj; eauto.
  - intros a i. rewrite eid_insert_edge, prop_insert_edge. intros H. decs; try congruence.
    destruct (eid m t) as [old|] eqn:E.
    + decs.
      * exfalso. apply n. eapply go_inj; eauto.
      * eapply go_present; eauto.
    + eapply go_present; eauto.
  - intros i. rewrite prop_insert_edge. intros H. decs.
    + exists t. rewrite eid_insert_edge. decs; congruence.
    + destruct (eid m t) as [old|] eqn:E.
      * decs; try congruence. destruct (go_noleak _ Go i H) as [u Hu].
        exists u. rewrite eid_insert_edge. decs; congruence.
      * destruct (go_noleak _ Go i H) as [u Hu].
        exists u. rewrite eid_insert_edge. decs; congruence.
  - intros a i. rewrite eid_insert_edge, gen_insert_edge. simpl. intros H. decs.
    + inversion H; subst. exists (g_pos (id_generator m)). split; auto.
    + destruct (go_drawn _ Go _ _ H) as (x & L & S). exists x. split; auto.
Qed.

Lemma abs_insert_edge t e (m : M) :
  good m -> drawn_distinct (id_generator (insert_edge t e m)) ->
  g_equiv (abs (insert_edge t e m)) (g_put_edge t e (abs m)).
Proof.
  intros Go D. rewrite gen_insert_edge in D. split.
  - intros i. apply nprop_insert_edge.
  - intros u. simpl. unfold abs_edge. rewrite eid_insert_edge.
    destruct (triple_eq_dec u t) as [->|N].
    + rewrite prop_insert_edge. decs; congruence.
    + destruct (eid m u) as [i|] eqn:E; auto.
      rewrite prop_insert_edge. pose proof (next_id_fresh _ _ _ Go D E). decs; try congruence.
      destruct (eid m t) as [old|] eqn:F; auto. decs; auto.
      exfalso. apply N. eapply go_inj; eauto.
Qed.

(** ** Nodes *)
Lemma agree_insert_node n p (m : M) : agree m -> agree (insert_node n p m).
Proof.
  intros A. apply (agree_ext m); [ | | | exact A].
  - intros []; reflexivity.
  - apply (om_sorted_insert IC), (ag_nodes _ A).
  - apply (ag_props _ A).
Qed.

Lemma good_same_edges m m' :
  (forall t, eid m' t = eid m t) -> (forall i, prop m' i = prop m i) ->
  gen_le (id_generator m) (id_generator m') -> good m -> good m'.
Proof.
  intros He Hp [Hs Hl] Go. split.
  - intros t u i. rewrite !He. apply (go_inj _ Go).
  - intros t i. rewrite He, Hp. apply (go_present _ Go).
  - intros i. rewrite Hp. intros H. destruct (go_noleak _ Go i H) as [t E].
    exists t. now rewrite He.
  - intros t i. rewrite He. intros H. destruct (go_drawn _ Go _ _ H) as (x & L & S).
    exists x. rewrite Hs. split; auto. lia.
Qed.

Lemma nprop_insert_node n p (m : M) i :
  nprop (insert_node n p m) i = if id_eq_dec i n then Some p else nprop m i.
Proof.
  unfold nprop, insert_node. simpl. destruct (id_eq_dec i n) as [->|N].
  - apply (get_insert_eq IC).
  - now apply (get_insert_neq IC).
Qed.

Lemma abs_insert_node n p (m : M) :
  g_equiv (abs (insert_node n p m)) (g_put_node n p (abs m)).
Proof. split; intros i; simpl; [apply nprop_insert_node | reflexivity]. Qed.

(** ** Merge *)
Lemma merge_node_unfold mn n p (m : M) :
  merge_node mn n p m = insert_node n (merged mn (nprop m n) p) m.
Proof.
  unfold merge_node, insert_node, nprop, merged.
  now destruct (iget n (node_props m)).
Qed.

Lemma abs_merge_node mn n p (m : M) :
  g_equiv (abs (merge_node mn n p m)) (g_merge_node mn n p (abs m)).
Proof. rewrite merge_node_unfold. apply abs_insert_node. Qed.

Lemma merge_edge_unfold me t e (m : M) :
  merge_edge me t e m =
  match eid m t with
  | Some old =>
      iedi t old (set_edge_props (om_insert id_cmp old (merged me (prop m old) e) (edge_props m)) m)
  | None => insert_edge t e m
  end.
Proof.
  unfold merge_edge, merge_edge_create_data, insert_edge, insert_edge_create_data, eid, prop, merged.
  destruct (bget (encode_spo t) (spo_data m)) as [old|]; auto.
  destruct (iget old (edge_props m)); reflexivity.
Qed.

Lemma agree_merge_edge me t e (m : M) : agree m -> agree (merge_edge me t e m).
Proof.
  intros A. rewrite merge_edge_unfold. destruct (eid m t) as [old|] eqn:E.
  - apply agree_iedi. apply (agree_ext m); [ | | | exact A].
    + intros []; reflexivity.
    + apply (ag_nodes _ A).
    + apply (om_sorted_insert IC), (ag_props _ A).
  - now apply agree_insert_edge.
Qed.

Lemma gen_merge_edge me t e (m : M) : gen_le (id_generator m) (id_generator (merge_edge me t e m)).
Proof.
  rewrite merge_edge_unfold. destruct (eid m t) as [old|].
  - apply gen_le_refl.
  - rewrite gen_insert_edge. split; simpl; auto.
Qed.

(** Replacing the properties of an existing edge in place. *)
Lemma good_replace t old x m m' :
  eid m t = Some old ->
  (forall u, eid m' u = eid m u) ->
  (forall i, prop m' i = if id_eq_dec i old then Some x else prop m i) ->
  id_generator m' = id_generator m ->
  good m -> good m'.
Proof.
  intros E He Hp Hg Go. split.
  - intros a b i. rewrite !He. apply (go_inj _ Go).
  - intros a i. rewrite He, Hp. intros H. decs; try congruence. eapply go_present; eauto.
  - intros i. rewrite Hp. intros H. decs.
    + exists t. now rewrite He.
    + destruct (go_noleak _ Go i H) as [u Hu]. exists u. now rewrite He.
  - intros a i. rewrite He, Hg. apply (go_drawn _ Go).
Qed.

Lemma abs_replace t old x m m' :
  eid m t = Some old ->
  (forall u, eid m' u = eid m u) ->
  (forall i, prop m' i = if id_eq_dec i old then Some x else prop m i) ->
  good m ->
  forall u, abs_edge m' u = if triple_eq_dec u t then Some x else abs_edge m u.
Proof.
  intros E He Hp Go u. unfold abs_edge. rewrite He.
  destruct (triple_eq_dec u t) as [->|N].
  - rewrite E, Hp. decs; congruence.
  - destruct (eid m u) as [i|] eqn:F; auto. rewrite Hp. decs; auto.
    exfalso. apply N. eapply go_inj; eauto.
Qed.

Lemma eid_merge_some me t e m old u :
  eid m t = Some old -> eid (merge_edge me t e m) u = eid m u.
Proof.
  intros E. rewrite merge_edge_unfold, E, eid_iedi. decs; auto.
Qed.

Lemma prop_merge_some me t e m old i :
  eid m t = Some old ->
  prop (merge_edge me t e m) i =
  if id_eq_dec i old then Some (merged me (prop m old) e) else prop m i.
Proof.
  intros E. rewrite merge_edge_unfold, E. unfold prop. simpl. decs.
  - apply (get_insert_eq IC).
  - now apply (get_insert_neq IC).
Qed.

Lemma good_merge_edge me t e (m : M) :
  good m -> drawn_distinct (id_generator (merge_edge me t e m)) -> good (merge_edge me t e m).
Proof.
  intros Go D. destruct (eid m t) as [old|] eqn:E.
  - apply (good_replace t old (merged me (prop m old) e) m); auto.
    + intros u. eapply eid_merge_some; eauto.
    + intros i. now apply prop_merge_some.
    + now rewrite merge_edge_unfold, E.
  - rewrite merge_edge_unfold, E in *. now apply good_insert_edge.
Qed.

Lemma abs_merge_edge me t e (m : M) :
  good m -> drawn_distinct (id_generator (merge_edge me t e m)) ->
  g_equiv (abs (merge_edge me t e m)) (g_merge_edge me t e (abs m)).
Proof.
  intros Go D. destruct (eid m t) as [old|] eqn:E.
  - split.
    + intros i. rewrite merge_edge_unfold, E. reflexivity.
    + intros u. simpl.
      rewrite (abs_replace t old (merged me (prop m old) e) m); auto.
      * unfold g_merge_edge. simpl. unfold abs_edge at 2. now rewrite E.
      * intros v. eapply eid_merge_some; eauto.
      * intros i. now apply prop_merge_some.
  - rewrite merge_edge_unfold, E in *.
    destruct (abs_insert_edge t e m Go D) as [Hn He].
    split; auto. intros u. rewrite He. unfold g_merge_edge. simpl.
    unfold abs_edge at 2. now rewrite E.
Qed.

(** ** Extend *)
Lemma extend_edge_unfold t e (m : M) :
  extend_edge t e m =
  match eid m t with
  | Some old => set_edge_props (om_insert id_cmp old e (edge_props m)) m
  | None =>
      iedi t (next_id m)
        (set_edge_props (om_insert id_cmp (next_id m) e (edge_props m))
          (set_id_generator (Gen (g_seq (id_generator m)) (S (g_pos (id_generator m)))) m))
  end.
Proof.
  unfold extend_edge, eid. destruct (bget (encode_spo t) (spo_data m)); reflexivity.
Qed.

(** On a vacant edge extend does what insert_edge does. *)
Lemma extend_edge_vacant t e (m : M) : eid m t = None -> extend_edge t e m = insert_edge t e m.
Proof. intros E. now rewrite extend_edge_unfold, insert_edge_unfold, E. Qed.

Lemma agree_extend_edge t e (m : M) : agree m -> agree (extend_edge t e m).
Proof.
  intros A. destruct (eid m t) as [old|] eqn:E.
  - rewrite extend_edge_unfold, E. apply (agree_ext m); [ | | | exact A].
    + intros []; reflexivity.
    + apply (ag_nodes _ A).
    + apply (om_sorted_insert IC), (ag_props _ A).
  - rewrite extend_edge_vacant by auto. now apply agree_insert_edge.
Qed.

Lemma gen_extend_edge t e (m : M) : gen_le (id_generator m) (id_generator (extend_edge t e m)).
Proof.
  rewrite extend_edge_unfold. destruct (eid m t).
  - apply gen_le_refl.
  - split; simpl; auto.
Qed.

Lemma prop_extend_some t e m old i :
  eid m t = Some old ->
  prop (extend_edge t e m) i = if id_eq_dec i old then Some e else prop m i.
Proof.
  intros E. rewrite extend_edge_unfold, E. unfold prop. simpl. decs.
  - apply (get_insert_eq IC).
  - now apply (get_insert_neq IC).
Qed.

Lemma good_extend_edge t e (m : M) :
  good m -> drawn_distinct (id_generator (extend_edge t e m)) -> good (extend_edge t e m).
Proof.
  intros Go D. destruct (eid m t) as [old|] eqn:E.
  - apply (good_replace t old e m); auto.
    + intros u. now rewrite extend_edge_unfold, E.
    + intros i. now apply prop_extend_some.
    + now rewrite extend_edge_unfold, E.
  - rewrite extend_edge_vacant in * by auto. now apply good_insert_edge.
Qed.

Lemma abs_extend_edge t e (m : M) :
  good m -> drawn_distinct (id_generator (extend_edge t e m)) ->
  g_equiv (abs (extend_edge t e m)) (g_put_edge t e (abs m)).
Proof.
  intros Go D. destruct (eid m t) as [old|] eqn:E.
  - split.
    + intros i. now rewrite extend_edge_unfold, E.
    + intros u. simpl. apply (abs_replace t old); auto.
      * intros v. now rewrite extend_edge_unfold, E.
      * intros i. now apply prop_extend_some.
  - rewrite extend_edge_vacant in * by auto. now apply abs_insert_edge.
Qed.

(** ** Remove *)
Lemma remove_edge_none t (m : M) : eid m t = None -> remove_edge t m = m.
Proof. unfold remove_edge, eid. intros ->. reflexivity. Qed.

Lemma index_remove_edge o t m i :
  eid m t = Some i -> index o (remove_edge t m) = om_remove bytes_cmp (enc o t) (index o m).
Proof. unfold remove_edge, eid. intros ->. destruct o; reflexivity. Qed.

Lemma get_remove_enc o (t u : T) (x : omap bytes I) :
  bget (enc o u) (om_remove bytes_cmp (enc o t) x) =
  if triple_eq_dec u t then None else bget (enc o u) x.
Proof.
  destruct (triple_eq_dec u t) as [->|N].
  - apply get_remove_eq.
  - apply (get_remove_neq BC). intros H. apply N. now apply enc_inj in H.
Qed.

Lemma eid_remove_edge t m u :
  eid (remove_edge t m) u = if triple_eq_dec u t then None else eid m u.
Proof.
  destruct (eid m t) as [i|] eqn:E.
  - unfold eid at 1. change (spo_data (remove_edge t m)) with (index SPO (remove_edge t m)).
    rewrite (index_remove_edge SPO t m i E). change (encode_spo u) with (enc SPO u).
    apply get_remove_enc.
  - rewrite remove_edge_none by auto. decs; auto.
Qed.

Lemma prop_remove_edge t m i :
  prop (remove_edge t m) i =
  match eid m t with
  | Some old => if id_eq_dec i old then None else prop m i
  | None => prop m i
  end.
Proof.
  unfold remove_edge, eid, prop. destruct (bget (encode_spo t) (spo_data m)); auto.
  simpl. decs; [apply get_remove_eq | now apply (get_remove_neq IC)].
Qed.

Lemma gen_remove_edge t (m : M) : id_generator (remove_edge t m) = id_generator m.
Proof. unfold remove_edge. now destruct (bget (encode_spo t) (spo_data m)). Qed.

Lemma node_props_remove_edge t (m : M) : node_props (remove_edge t m) = node_props m.
Proof. unfold remove_edge. now destruct (bget (encode_spo t) (spo_data m)). Qed.

Lemma agree_remove_edge t (m : M) : agree m -> agree (remove_edge t m).
Proof.
  intros A. destruct (eid m t) as [i|] eqn:E.
  2:{ now rewrite remove_edge_none. }
  split.
  - rewrite node_props_remove_edge. apply (ag_nodes _ A).
  - unfold eid in E. unfold remove_edge. rewrite E. simpl.
    apply om_sorted_remove, (ag_props _ A).
  - intros o. rewrite (index_remove_edge o t m i E). apply om_sorted_remove, (ag_index _ A).
  - intros o d j. rewrite (index_remove_edge o t m i E). intros H.
    apply (in_remove BC) in H. destruct H as [H _]. now apply (ag_keys _ A) in H.
  - intros o u. rewrite (index_remove_edge o t m i E), get_remove_enc, eid_remove_edge.
    decs; auto. apply (ag_get _ A).
Qed.

Lemma good_remove_edge t (m : M) : good m -> good (remove_edge t m).
Proof.
  intros Go. split.
  - intros a b i. rewrite !eid_remove_edge. decs; try discriminate. apply (go_inj _ Go).
  - intros a i. rewrite eid_remove_edge, prop_remove_edge. decs; try discriminate.
    intros H. destruct (eid m t) as [old|] eqn:E; [|eapply go_present; eauto].
    decs; [|eapply go_present; eauto].
    exfalso. apply n. eapply go_inj; eauto.
  - intros i. rewrite prop_remove_edge. intros H.
    destruct (eid m t) as [old|] eqn:E.
    + decs; try congruence. destruct (go_noleak _ Go i H) as [u Hu].
      exists u. rewrite eid_remove_edge. decs; congruence.
    + destruct (go_noleak _ Go i H) as [u Hu].
      exists u. rewrite eid_remove_edge. decs; congruence.
  - intros a i. rewrite eid_remove_edge, gen_remove_edge. decs; try discriminate.
    apply (go_drawn _ Go).
Qed.

Lemma abs_remove_edge t (m : M) :
  good m -> g_equiv (abs (remove_edge t m)) (g_del_edge t (abs m)).
Proof.
  intros Go. split.
  - intros i. simpl. unfold nprop. now rewrite node_props_remove_edge.
  - intros u. simpl. unfold abs_edge. rewrite eid_remove_edge.
    destruct (triple_eq_dec u t) as [->|N]; auto.
    destruct (eid m u) as [i|] eqn:E; auto. rewrite prop_remove_edge.
    destruct (eid m t) as [old|] eqn:F; auto. decs; auto.
    exfalso. apply N. eapply go_inj; eauto.
Qed.

(** ** remove_node *)
Definition fold_rem_edges (l : list T) (m : M) : M := fold_left (fun m t => remove_edge t m) l m.
Definition fold_rem_props (l : list I) (m : M) : M :=
  fold_left (fun m id => set_edge_props (om_remove id_cmp id (edge_props m)) m) l m.

Lemma agree_fold_rem_edges l : forall m, agree m -> agree (fold_rem_edges l m).
Proof.
  induction l; intros m A; simpl; auto. apply IHl. now apply agree_remove_edge.
Qed.

Lemma gen_fold_rem_edges l : forall m, id_generator (fold_rem_edges l m) = id_generator m.
Proof. induction l; intros m; simpl; auto. rewrite IHl. apply gen_remove_edge. Qed.

Lemma node_props_fold_rem_edges l : forall m, node_props (fold_rem_edges l m) = node_props m.
Proof. induction l; intros m; simpl; auto. rewrite IHl. apply node_props_remove_edge. Qed.

Lemma eid_fold_rem_edges l : forall m u,
  eid (fold_rem_edges l m) u = if in_dec triple_eq_dec u l then None else eid m u.
Proof.
  induction l as [|a l IH]; intros m u; simpl; auto.
  rewrite IH, eid_remove_edge.
  destruct (in_dec triple_eq_dec u l), (triple_eq_dec a u), (triple_eq_dec u a); auto; congruence.
Qed.

Lemma prop_fold_rem_edges l : forall m i,
  prop (fold_rem_edges l m) i = None \/ prop (fold_rem_edges l m) i = prop m i.
Proof.
  induction l as [|a l IH]; intros m i; simpl; auto.
  destruct (IH (remove_edge a m) i) as [H|H]; auto. rewrite H, prop_remove_edge.
  destruct (eid m a); auto. decs; auto.
Qed.

(** A property record disappears only with an edge in the list that owned it. *)
Lemma prop_fold_rem_edges_keep l : forall m i,
  (forall t, In t l -> eid m t <> Some i) -> prop (fold_rem_edges l m) i = prop m i.
Proof.
  induction l as [|a l IH]; intros m i H; simpl; auto.
  rewrite IH.
  - rewrite prop_remove_edge. destruct (eid m a) eqn:E; auto. decs; auto.
    exfalso. apply (H a); simpl; auto.
  - intros t Ht. rewrite eid_remove_edge. decs; try discriminate. apply H. simpl. auto.
Qed.

Lemma prop_fold_rem_props l : forall m i,
  prop (fold_rem_props l m) i = if in_dec id_eq_dec i l then None else prop m i.
Proof.
  induction l as [|a l IH]; intros m i; simpl; auto.
  unfold fold_rem_props in IH. rewrite IH. unfold prop. simpl.
  destruct (in_dec id_eq_dec i l), (id_eq_dec a i); subst; auto.
  - now rewrite get_remove_eq.
  - now rewrite (get_remove_neq IC) by auto.
Qed.

Lemma same_fold_rem_props l : forall m,
  (forall o, index o (fold_rem_props l m) = index o m) /\
  node_props (fold_rem_props l m) = node_props m /\
  id_generator (fold_rem_props l m) = id_generator m.
Proof.
  induction l as [|a l IH]; intros m; simpl; auto.
  destruct (IH (set_edge_props (om_remove id_cmp a (edge_props m)) m)) as (H1 & H2 & H3).
  split; [|split]; auto.
Qed.

Lemma sorted_fold_rem_props l : forall m,
  om_sorted id_cmp (edge_props m) -> om_sorted id_cmp (edge_props (fold_rem_props l m)).
Proof.
  induction l as [|a l IH]; intros m S; simpl; auto. apply IH. simpl. now apply om_sorted_remove.
Qed.

Lemma eid_fold_rem_props l m t : eid (fold_rem_props l m) t = eid m t.
Proof.
  destruct (same_fold_rem_props l m) as (H & _ & _). unfold eid.
  change (spo_data (fold_rem_props l m)) with (index SPO (fold_rem_props l m)).
  now rewrite H.
Qed.

(** The triples and ids found by the two range scans. *)
Definition out_edges (n : I) (m : M) := get_spo_edge_range n m.
Definition in_edges (n : I) (m : M) := get_osp_edge_range n m.

Lemma range_in o (A : I) (m : M) d i :
  agree m ->
  (In (d, i) (om_range bytes_cmp (fst (key_bounds_1 A)) (snd (key_bounds_1 A)) (index o m))
   <-> exists t, d = enc o t /\ eid m t = Some i /\ fst (fst (comps o t)) = A).
Proof.
  intros Ag. unfold om_range. rewrite filter_In. simpl. split.
  - intros [H R]. destruct (ag_keys _ Ag _ _ _ H) as [t ->]. exists t.
    split; auto. split; [now apply (index_in o Ag)|]. now apply in_bounds_1_enc in R.
  - intros (t & -> & H & E). split; [now apply (index_in o Ag)|]. now apply in_bounds_1_enc.
Qed.

Lemma range2_in o (a b : I) (m : M) d i :
  agree m ->
  (In (d, i) (om_range bytes_cmp (fst (key_bounds_2 a b)) (snd (key_bounds_2 a b)) (index o m))
   <-> exists t, d = enc o t /\ eid m t = Some i /\ fst (comps o t) = (a, b)).
Proof.
  intros Ag. unfold om_range. rewrite filter_In. simpl. split.
  - intros [H R]. destruct (ag_keys _ Ag _ _ _ H) as [t ->]. exists t.
    split; auto. split; [now apply (index_in o Ag)|]. now apply in_bounds_2_enc in R.
  - intros (t & -> & H & E). split; [now apply (index_in o Ag)|]. now apply in_bounds_2_enc.
Qed.

Lemma dec_spo_enc (t : T) : decode_spo (encode_spo t) = t.
Proof. apply (dec_enc SPO). Qed.
Lemma dec_pos_enc (t : T) : decode_pos (encode_pos t) = t.
Proof. apply (dec_enc POS). Qed.
Lemma dec_osp_enc (t : T) : decode_osp (encode_osp t) = t.
Proof. apply (dec_enc OSP). Qed.

Lemma out_edges_in n m t :
  agree m -> (In t (fst (get_spo_edge_range n m)) <-> exists i, eid m t = Some i /\ sub t = n).
Proof.
  intros A. unfold get_spo_edge_range. simpl. rewrite in_map_iff. split.
  - intros ([d i] & E & H). change (spo_data m) with (index SPO m) in H.
    apply (range_in SPO n m d i A) in H. destruct H as (u & -> & H & F). simpl in *.
    rewrite dec_spo_enc in E. subst u. eauto.
  - intros (i & H & E). exists (enc SPO t, i). split; [apply (dec_enc SPO)|].
    change (spo_data m) with (index SPO m). apply (range_in SPO n m _ _ A). eauto.
Qed.

Lemma out_ids_in n m i :
  agree m -> (In i (snd (get_spo_edge_range n m)) <-> exists t, eid m t = Some i /\ sub t = n).
Proof.
  intros A. unfold get_spo_edge_range. simpl. rewrite in_map_iff. split.
  - intros ([d j] & E & H). simpl in E. subst j. change (spo_data m) with (index SPO m) in H.
    apply (range_in SPO n m d i A) in H. destruct H as (u & -> & H & F). eauto.
  - intros (t & H & E). exists (enc SPO t, i). split; auto.
    change (spo_data m) with (index SPO m). apply (range_in SPO n m _ _ A). eauto.
Qed.

Lemma in_edges_in n m t :
  agree m -> (In t (fst (get_osp_edge_range n m)) <-> exists i, eid m t = Some i /\ obj t = n).
Proof.
  intros A. unfold get_osp_edge_range. simpl. rewrite in_map_iff. split.
  - intros ([d i] & E & H). change (osp_data m) with (index OSP m) in H.
    apply (range_in OSP n m d i A) in H. destruct H as (u & -> & H & F). simpl in *.
    rewrite dec_osp_enc in E. subst u. eauto.
  - intros (i & H & E). exists (enc OSP t, i). split; [apply (dec_enc OSP)|].
    change (osp_data m) with (index OSP m). apply (range_in OSP n m _ _ A). eauto.
Qed.

Lemma in_ids_in n m i :
  agree m -> (In i (snd (get_osp_edge_range n m)) <-> exists t, eid m t = Some i /\ obj t = n).
Proof.
  intros A. unfold get_osp_edge_range. simpl. rewrite in_map_iff. split.
  - intros ([d j] & E & H). simpl in E. subst j. change (osp_data m) with (index OSP m) in H.
    apply (range_in OSP n m d i A) in H. destruct H as (u & -> & H & F). eauto.
  - intros (t & H & E). exists (enc OSP t, i). split; auto.
    change (osp_data m) with (index OSP m). apply (range_in OSP n m _ _ A). eauto.
Qed.

Definition touched (n : I) (m : M) : list T :=
  fst (get_spo_edge_range n m) ++ fst (get_osp_edge_range n m).
Definition touched_ids (n : I) (m : M) : list I :=
  snd (get_spo_edge_range n m) ++ snd (get_osp_edge_range n m).

Lemma touched_in n m t :
  agree m -> (In t (touched n m) <-> (exists i, eid m t = Some i) /\ (sub t = n \/ obj t = n)).
Proof.
  intros A. unfold touched. rewrite in_app_iff, out_edges_in, in_edges_in by auto. split.
  - intros [(i & H & E)|(i & H & E)]; eauto.
  - intros ((i & H) & [E|E]); eauto.
Qed.

Lemma touched_ids_in n m i :
  agree m -> (In i (touched_ids n m) <-> exists t, eid m t = Some i /\ (sub t = n \/ obj t = n)).
Proof.
  intros A. unfold touched_ids. rewrite in_app_iff, out_ids_in, in_ids_in by auto. split.
  - intros [(t & H & E)|(t & H & E)]; eauto.
  - intros (t & H & [E|E]); eauto.
Qed.

Lemma remove_node_unfold n (m : M) :
  remove_node n m =
  fold_rem_edges (touched n m)
    (fold_rem_props (touched_ids n m)
      (set_node_props (om_remove id_cmp n (node_props m)) m)).
Proof. reflexivity. Qed.

Lemma agree_remove_node n (m : M) : agree m -> agree (remove_node n m).
Proof.
  intros A. rewrite remove_node_unfold. apply agree_fold_rem_edges.
  set (m1 := set_node_props _ m).
  destruct (same_fold_rem_props (touched_ids n m) m1) as (H1 & H2 & H3).
  apply (agree_ext m); [ | | | exact A].
  - intros o. rewrite H1. now destruct o.
  - rewrite H2. simpl. apply om_sorted_remove, (ag_nodes _ A).
  - apply sorted_fold_rem_props. apply (ag_props _ A).
Qed.

Lemma gen_remove_node n (m : M) : id_generator (remove_node n m) = id_generator m.
Proof.
  rewrite remove_node_unfold, gen_fold_rem_edges.
  now destruct (same_fold_rem_props (touched_ids n m)
    (set_node_props (om_remove id_cmp n (node_props m)) m)) as (_ & _ & ->).
Qed.

Lemma eid_remove_node n m u :
  agree m ->
  eid (remove_node n m) u =
  if id_eq_dec (sub u) n then None else if id_eq_dec (obj u) n then None else eid m u.
Proof.
  intros A. rewrite remove_node_unfold, eid_fold_rem_edges, eid_fold_rem_props.
  unfold eid at 1. simpl. fold (eid m u).
  destruct (in_dec triple_eq_dec u (touched n m)) as [Hin|Hout].
  - apply (touched_in n m u A) in Hin. destruct Hin as (_ & [E|E]); decs; congruence.
  - destruct (eid m u) as [i|] eqn:E; decs; auto; exfalso; apply Hout;
      apply (touched_in _ m u A); eauto.
Qed.

Lemma nprop_remove_node n m i :
  nprop (remove_node n m) i = if id_eq_dec i n then None else nprop m i.
Proof.
  rewrite remove_node_unfold. unfold nprop. rewrite node_props_fold_rem_edges.
  destruct (same_fold_rem_props (touched_ids n m)
    (set_node_props (om_remove id_cmp n (node_props m)) m)) as (_ & -> & _).
  simpl. decs; [apply get_remove_eq | now apply (get_remove_neq IC)].
Qed.

Lemma prop_remove_node n m i :
  agree m ->
  prop (remove_node n m) i = if in_dec id_eq_dec i (touched_ids n m) then None else prop m i.
Proof.
  intros A. rewrite remove_node_unfold.
  destruct (in_dec id_eq_dec i (touched_ids n m)) as [Hin|Hout].
  - destruct (prop_fold_rem_edges (touched n m)
      (fold_rem_props (touched_ids n m)
        (set_node_props (om_remove id_cmp n (node_props m)) m)) i) as [H|H]; auto.
    rewrite H, prop_fold_rem_props. destruct (in_dec id_eq_dec i (touched_ids n m)); tauto.
  - rewrite prop_fold_rem_edges_keep.
    + rewrite prop_fold_rem_props. destruct (in_dec id_eq_dec i (touched_ids n m)); tauto.
    + intros t Ht E. rewrite eid_fold_rem_props in E. apply Hout.
      apply (touched_ids_in n m i A). apply (touched_in n m t A) in Ht.
      exists t. split; [exact E | tauto].
Qed.

Lemma good_remove_node n (m : M) : agree m -> good m -> good (remove_node n m).
Proof.
  intros A Go. split.
  - intros a b i. rewrite !eid_remove_node by auto.
    intros H1 H2. destruct (id_eq_dec (sub a) n), (id_eq_dec (obj a) n); try discriminate.
    destruct (id_eq_dec (sub b) n), (id_eq_dec (obj b) n); try discriminate.
    eapply go_inj; eauto.
  - intros a i. rewrite eid_remove_node, prop_remove_node by auto. intros H.
    destruct (id_eq_dec (sub a) n), (id_eq_dec (obj a) n); try discriminate.
    destruct (in_dec id_eq_dec i (touched_ids n m)) as [Hin|_]; [|eapply go_present; eauto].
    apply (touched_ids_in n m i A) in Hin. destruct Hin as (t & Ht & E).
    pose proof (go_inj _ Go _ _ _ H Ht). subst. tauto.
  - intros i. rewrite prop_remove_node by auto. intros H.
    destruct (in_dec id_eq_dec i (touched_ids n m)) as [|Hout]; [congruence|].
    destruct (go_noleak _ Go i H) as [t Ht]. exists t. rewrite eid_remove_node by auto.
    destruct (id_eq_dec (sub t) n) as [E|]; [exfalso; apply Hout; apply (touched_ids_in n m i A); eauto|].
    destruct (id_eq_dec (obj t) n) as [E|]; [exfalso; apply Hout; apply (touched_ids_in n m i A); eauto|].
    auto.
  - intros a i. rewrite eid_remove_node, gen_remove_node by auto. intros H.
    destruct (id_eq_dec (sub a) n), (id_eq_dec (obj a) n); try discriminate.
    eapply go_drawn; eauto.
Qed.

Lemma abs_remove_node n (m : M) :
  agree m -> good m -> g_equiv (abs (remove_node n m)) (g_del_node n (abs m)).
Proof.
  intros A Go. split.
  - intros i. apply nprop_remove_node.
  - intros u. simpl. unfold abs_edge. rewrite eid_remove_node by auto.
    destruct (id_eq_dec (sub u) n); auto. destruct (id_eq_dec (obj u) n); auto.
    destruct (eid m u) as [i|] eqn:E; auto. rewrite prop_remove_node by auto.
    destruct (in_dec id_eq_dec i (touched_ids n m)) as [Hin|]; auto.
    apply (touched_ids_in n m i A) in Hin. destruct Hin as (t & Ht & F).
    pose proof (go_inj _ Go _ _ _ E Ht). subst. tauto.
Qed.

End Facts.
