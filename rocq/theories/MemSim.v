(** Refinement of MemTripleStore to Spec.graph, for every operation. *)
From Coq Require Import Arith NArith List Sorted Lia Bool.
From Verif Require Import Bytes BytesFacts OMap OMapFacts Core IdType IdTypeFacts CodecFacts
  Store Mem Spec History ListFacts MemFacts.
Import ListNotations.

Section Orders.
Context {k : idkind}.
Lemma id_lt_irr (a : Id k) : ~ id_lt a a.
Proof. unfold id_lt. lia. Qed.
Lemma id_lt_tr (a b c : Id k) : id_lt a b -> id_lt b c -> id_lt a c.
Proof. unfold id_lt. lia. Qed.
Lemma edge_lt_irr o (a : triple (Id k)) : ~ edge_lt o a a.
Proof. rewrite <- comps_cmp_lt. apply (cmp_lt_irrefl (comps_cmp_ok k o)). Qed.
Lemma edge_lt_tr o (a b c : triple (Id k)) : edge_lt o a b -> edge_lt o b c -> edge_lt o a c.
Proof. rewrite <- !comps_cmp_lt. apply (cmp_trans _ (comps_cmp_ok k o)). Qed.
End Orders.

Section GraphFacts.
Context {k : idkind} {NP EP : Type}.
Notation G := (graph k NP EP).

Lemma g_equiv_refl (a : G) : g_equiv a a.
Proof. split; reflexivity. Qed.
Lemma g_equiv_sym (a b : G) : g_equiv a b -> g_equiv b a.
Proof. intros [H1 H2]. split; auto. Qed.
Lemma g_equiv_trans (a b c : G) : g_equiv a b -> g_equiv b c -> g_equiv a c.
Proof. intros [H1 H2] [H3 H4]. split; intros; congruence. Qed.

Lemma put_node_equiv n p (a b : G) : g_equiv a b -> g_equiv (g_put_node n p a) (g_put_node n p b).
Proof. intros [H1 H2]. split; simpl; auto. intros i. now rewrite H1. Qed.
Lemma put_edge_equiv t e (a b : G) : g_equiv a b -> g_equiv (g_put_edge t e a) (g_put_edge t e b).
Proof. intros [H1 H2]. split; simpl; auto. intros i. now rewrite H2. Qed.
Lemma del_edge_equiv t (a b : G) : g_equiv a b -> g_equiv (g_del_edge t a) (g_del_edge t b).
Proof. intros [H1 H2]. split; simpl; auto. intros i. now rewrite H2. Qed.
Lemma del_node_equiv n (a b : G) : g_equiv a b -> g_equiv (g_del_node n a) (g_del_node n b).
Proof. intros [H1 H2]. split; simpl; intros i; [now rewrite H1 | now rewrite H2]. Qed.
Lemma merge_node_equiv f n p (a b : G) :
  g_equiv a b -> g_equiv (g_merge_node f n p a) (g_merge_node f n p b).
Proof. intros H. unfold g_merge_node. rewrite (proj1 H). now apply put_node_equiv. Qed.
Lemma merge_edge_equiv f n p (a b : G) :
  g_equiv a b -> g_equiv (g_merge_edge f n p a) (g_merge_edge f n p b).
Proof. intros H. unfold g_merge_edge. rewrite (proj2 H). now apply put_edge_equiv. Qed.
End GraphFacts.

Section Sim.
Context {k : idkind} {NP EP : Type}.
Notation I := (Id k).
Notation T := (triple (Id k)).
Notation M := (mem k NP EP).
Notation G := (graph k NP EP).

Implicit Types m r : M.
Implicit Types g : G.

Definition sim (m : M) (g : G) : Prop :=
  agree m /\ (drawn_distinct (id_generator m) -> good m /\ g_equiv (abs m) g).

Lemma sim_new gn : sim (mem_new gn) g_empty.
Proof. split; [apply agree_new | intros _]. split; [apply good_new | apply abs_new]. Qed.

Lemma sim_self m : sim m (abs m) <-> agree m /\ (drawn_distinct (id_generator m) -> good m).
Proof.
  split; intros [A H]; split; auto; intros D.
  - now apply H.
  - split; auto. apply g_equiv_refl.
Qed.

Lemma sim_abs m g : sim m g -> sim m (abs m).
Proof. intros [A H]. apply sim_self. split; auto. intros D. now apply H. Qed.

Lemma sim_equiv m g g' : g_equiv g g' -> sim m g -> sim m g'.
Proof.
  intros E [A H]. split; auto. intros D. destruct (H D) as [Go Eq]. split; auto.
  eapply g_equiv_trans; eauto.
Qed.

Lemma sim_insert_node n p m g : sim m g -> sim (insert_node n p m) (g_put_node n p g).
Proof.
  intros [A H]. split; [now apply agree_insert_node|]. intros D. destruct (H D) as [Go Eq]. split.
  - apply (good_same_edges m); auto; try reflexivity. apply gen_le_refl.
  - eapply g_equiv_trans; [apply abs_insert_node | now apply put_node_equiv].
Qed.

Lemma sim_insert_edge t e m g : sim m g -> sim (insert_edge t e m) (g_put_edge t e g).
Proof.
  intros [A H]. split; [now apply agree_insert_edge|]. intros D.
  assert (drawn_distinct (id_generator m)) as D'.
  { eapply gen_le_distinct; [|exact D]. rewrite gen_insert_edge. split; simpl; auto. }
  destruct (H D') as [Go Eq]. split.
  - now apply good_insert_edge.
  - eapply g_equiv_trans; [now apply abs_insert_edge | now apply put_edge_equiv].
Qed.

Lemma sim_remove_edge t m g : sim m g -> sim (remove_edge t m) (g_del_edge t g).
Proof.
  intros [A H]. split; [now apply agree_remove_edge|]. rewrite gen_remove_edge. intros D.
  destruct (H D) as [Go Eq]. split.
  - now apply good_remove_edge.
  - eapply g_equiv_trans; [now apply abs_remove_edge | now apply del_edge_equiv].
Qed.

Lemma sim_remove_node n m g : sim m g -> sim (remove_node n m) (g_del_node n g).
Proof.
  intros [A H]. split; [now apply agree_remove_node|]. rewrite gen_remove_node. intros D.
  destruct (H D) as [Go Eq]. split.
  - now apply good_remove_node.
  - eapply g_equiv_trans; [now apply abs_remove_node | now apply del_node_equiv].
Qed.

Lemma sim_merge_node mn n p m g : sim m g -> sim (merge_node mn n p m) (g_merge_node mn n p g).
Proof.
  intros S. rewrite merge_node_unfold. unfold g_merge_node.
  destruct S as [A H]. split; [now apply agree_insert_node|]. intros D.
  destruct (H D) as [Go Eq]. rewrite <- (proj1 Eq n).
  apply sim_insert_node; [split; auto | exact D].
Qed.

Lemma sim_merge_edge me t e m g : sim m g -> sim (merge_edge me t e m) (g_merge_edge me t e g).
Proof.
  intros [A H]. split; [now apply agree_merge_edge|]. intros D.
  assert (drawn_distinct (id_generator m)) as D'.
  { eapply gen_le_distinct; [|exact D]. apply gen_merge_edge. }
  destruct (H D') as [Go Eq]. split.
  - now apply good_merge_edge.
  - eapply g_equiv_trans; [now apply abs_merge_edge | now apply merge_edge_equiv].
Qed.

Lemma sim_extend_node n p m g : sim m g -> sim (extend_node n p m) (g_put_node n p g).
Proof. apply sim_insert_node. Qed.

Lemma sim_extend_edge t e m g : sim m g -> sim (extend_edge t e m) (g_put_edge t e g).
Proof.
  intros [A H]. split; [now apply agree_extend_edge|]. intros D.
  assert (drawn_distinct (id_generator m)) as D'.
  { eapply gen_le_distinct; [|exact D]. apply gen_extend_edge. }
  destruct (H D') as [Go Eq]. split.
  - now apply good_extend_edge.
  - eapply g_equiv_trans; [now apply abs_extend_edge | now apply put_edge_equiv].
Qed.

(** ** Loops *)
Lemma sim_fold {A} (step : A -> M -> M) (gstep : A -> G -> G) :
  (forall a m g, sim m g -> sim (step a m) (gstep a g)) ->
  forall l m g, sim m g ->
  sim (fold_left (fun m a => step a m) l m) (fold_left (fun g a => gstep a g) l g).
Proof. intros H. induction l as [|a l IH]; intros m g S; simpl; auto. Qed.

Lemma for_each_eq {A L E} (step : A -> M -> M) (l : list (result E A)) : forall m,
  for_each (L := L) step l m =
  (match first_error l with Some e => Err (RightE e) | None => Ok tt end,
   fold_left (fun m a => step a m) (before_error l) m).
Proof. induction l as [|[a|e] l IH]; intros m; simpl; auto. Qed.

Lemma insert_all_eq {A E F} (tag : E -> F) (ins : A -> M -> M) (l : list (result E A)) : forall m,
  insert_all tag ins l m =
  match first_error l with
  | Some e => Err (tag e)
  | None => Ok (fold_left (fun m a => ins a m) (before_error l) m)
  end.
Proof. induction l as [|[a|e] l IH]; intros m; simpl; auto. Qed.

Lemma drain_eq {A P F} (tag : unit -> F) (ins : A -> P -> M -> M) (l : list (result unit (A * P))) :
  forall m, drain tag ins l m =
  match first_error l with
  | Some e => Err (tag e)
  | None => Ok (fold_left (fun m a => ins (fst a) (snd a) m) (before_error l) m)
  end.
Proof. induction l as [|[[a p]|e] l IH]; intros m; simpl; auto. Qed.

Lemma extend_eq {E} (s : source k NP EP E) m :
  fst (extend s m) = match bulk_error s with Some e => Err (RightE e) | None => Ok tt end.
Proof.
  unfold extend, bulk_error. rewrite for_each_eq. destruct (first_error (src_nodes s)); auto.
  now rewrite for_each_eq.
Qed.

Lemma merge_eq {E} mn me (s : source k NP EP E) m :
  fst (merge mn me s m) = match bulk_error s with Some e => Err (RightE e) | None => Ok tt end.
Proof.
  unfold merge, bulk_error. rewrite for_each_eq. destruct (first_error (src_nodes s)); auto.
  now rewrite for_each_eq.
Qed.

Lemma sim_extend {E} (s : source k NP EP E) m g :
  sim m g -> sim (snd (extend s m)) (g_bulk g_put_node g_put_edge s g).
Proof.
  intros S. unfold extend, g_bulk. rewrite for_each_eq.
  assert (sim (fold_left (fun m a => extend_node (fst a) (snd a) m) (before_error (src_nodes s)) m)
    (fold_left (fun g ip => g_put_node (fst ip) (snd ip) g) (before_error (src_nodes s)) g)) as S1.
  { apply (sim_fold (fun a => extend_node (fst a) (snd a)) (fun a => g_put_node (fst a) (snd a))); auto.
    intros. now apply sim_extend_node. }
  destruct (first_error (src_nodes s)); auto. rewrite for_each_eq. simpl.
  apply (sim_fold (fun a => extend_edge (fst a) (snd a)) (fun a => g_put_edge (fst a) (snd a))); auto.
  intros. now apply sim_extend_edge.
Qed.

Lemma sim_merge {E} mn me (s : source k NP EP E) m g :
  sim m g -> sim (snd (merge mn me s m)) (g_bulk (g_merge_node mn) (g_merge_edge me) s g).
Proof.
  intros S. unfold merge, g_bulk. rewrite for_each_eq.
  assert (sim (fold_left (fun m a => merge_node mn (fst a) (snd a) m) (before_error (src_nodes s)) m)
    (fold_left (fun g ip => g_merge_node mn (fst ip) (snd ip) g) (before_error (src_nodes s)) g)) as S1.
  { apply (sim_fold (fun a => merge_node mn (fst a) (snd a)) (fun a => g_merge_node mn (fst a) (snd a))); auto.
    intros. now apply sim_merge_node. }
  destruct (first_error (src_nodes s)); auto. rewrite for_each_eq. simpl.
  apply (sim_fold (fun a => merge_edge me (fst a) (snd a)) (fun a => g_merge_edge me (fst a) (snd a))); auto.
  intros. now apply sim_merge_edge.
Qed.

Lemma sim_apply {E} mn me (o : op k NP EP E) m g :
  sim m g -> sim (mem_apply mn me o m) (spec_apply mn me o g).
Proof.
  intros S. destruct o; simpl.
  - now apply sim_insert_node.
  - now apply sim_insert_edge.
  - now apply sim_remove_node.
  - now apply sim_remove_edge.
  - now apply sim_merge_node.
  - now apply sim_merge_edge.
  - now apply sim_extend.
  - now apply sim_merge.
Qed.

Lemma sim_history {E} mn me (l : list (op k NP EP E)) m g :
  sim m g -> sim (mem_history mn me l m) (spec_history mn me l g).
Proof. apply (sim_fold (mem_apply mn me) (spec_apply mn me)). intros. now apply sim_apply. Qed.

(** ** Query results, as a sequence of insertions *)
Definition ins_all (l : list (T * EP)) (m : M) : M :=
  fold_left (fun m te => insert_edge (fst te) (snd te) m) l m.
Definition insn_all (l : list (I * NP)) (m : M) : M :=
  fold_left (fun m ip => insert_node (fst ip) (snd ip) m) l m.
Definition gput_all (l : list (T * EP)) (g : G) : G :=
  fold_left (fun g te => g_put_edge (fst te) (snd te) g) l g.
Definition gputn_all (l : list (I * NP)) (g : G) : G :=
  fold_left (fun g ip => g_put_node (fst ip) (snd ip) g) l g.

Lemma sim_ins_all l m g : sim m g -> sim (ins_all l m) (gput_all l g).
Proof.
  apply (sim_fold (fun a => insert_edge (fst a) (snd a)) (fun a => g_put_edge (fst a) (snd a))).
  intros. now apply sim_insert_edge.
Qed.
Lemma sim_insn_all l m g : sim m g -> sim (insn_all l m) (gputn_all l g).
Proof.
  apply (sim_fold (fun a => insert_node (fst a) (snd a)) (fun a => g_put_node (fst a) (snd a))).
  intros. now apply sim_insert_node.
Qed.

Lemma fold_flat_map {A B C} (f : A -> list B) (step : C -> B -> C) l : forall c,
  fold_left (fun c a => fold_left step (f a) c) l c = fold_left step (flat_map f l) c.
Proof. induction l as [|a l IH]; intros c; simpl; auto. now rewrite fold_left_app, IH. Qed.

Lemma fold_ext {A C} (f g : C -> A -> C) l : (forall c a, f c a = g c a) ->
  forall c, fold_left f l c = fold_left g l c.
Proof. intros H. induction l as [|a l IH]; intros c; simpl; auto. now rewrite H, IH. Qed.

Lemma fold_filter_map {A B C} (f : A -> option B) (step : C -> B -> C) l : forall c,
  fold_left (fun c a => match f a with Some b => step c b | None => c end) l c
  = fold_left step (filter_map f l) c.
Proof.
  induction l as [|a l IH]; intros c; simpl; auto. rewrite IH. now destruct (f a).
Qed.

Definition range_hits (m : M) (dc : bytes -> T) (entries : list (bytes * I)) : list (T * EP) :=
  filter_map (fun kv => match om_get id_cmp (snd kv) (edge_props m) with
                        | Some e => Some (dc (fst kv), e) | None => None end) entries.

Lemma insert_range_eq m dc entries r :
  insert_range dc (edge_props m) entries r = ins_all (range_hits m dc entries) r.
Proof.
  unfold insert_range, range_hits, ins_all. rewrite <- fold_filter_map. apply fold_ext.
  intros c a. now destruct (om_get id_cmp (snd a) (edge_props m)).
Qed.

Definition brange (b : bytes * bytes) (x : omap bytes I) := om_range bytes_cmp (fst b) (snd b) x.

Definition hits (m : M) (q : query I) : list (T * EP) :=
  match q with
  | QNodeProps _ => []
  | QSPO l =>
      filter_map (fun spo => let '(s, p, o) := spo in
        match eid m (Triple s p o) with
        | Some i => match prop m i with Some e => Some (Triple s p o, e) | None => None end
        | None => None
        end) l
  | QS l => flat_map (fun s => range_hits m decode_spo (brange (key_bounds_1 s) (spo_data m))) l
  | QP l => flat_map (fun s => range_hits m decode_pos (brange (key_bounds_1 s) (pos_data m))) l
  | QO l => flat_map (fun s => range_hits m decode_osp (brange (key_bounds_1 s) (osp_data m))) l
  | QSP l => flat_map (fun x => range_hits m decode_spo (brange (key_bounds_2 (fst x) (snd x)) (spo_data m))) l
  | QPO l => flat_map (fun x => range_hits m decode_pos (brange (key_bounds_2 (fst x) (snd x)) (pos_data m))) l
  | QSO l => flat_map (fun x => range_hits m decode_osp (brange (key_bounds_2 (snd x) (fst x)) (osp_data m))) l
  end.

Definition node_hits (m : M) (q : query I) : list (I * NP) :=
  match q with
  | QNodeProps l =>
      filter_map (fun n => match nprop m n with Some p => Some (n, p) | None => None end) l
  | _ => []
  end.

Lemma run_eq gn q m : run gn q m = ins_all (hits m q) (insn_all (node_hits m q) (mem_new gn)).
Proof.
  destruct q as [l|l|l|l|l|l|l|l]; simpl.
  - unfold ins_all, insn_all. simpl. rewrite <- fold_filter_map. apply fold_ext.
    intros c a. unfold nprop. now destruct (om_get id_cmp a (node_props m)).
  - unfold ins_all, insn_all. simpl. rewrite <- fold_filter_map. apply fold_ext.
    intros c [[s p] o]. unfold eid, prop.
    destruct (om_get bytes_cmp (encode_spo (Triple s p o)) (spo_data m)) as [i|]; auto.
    now destruct (om_get id_cmp i (edge_props m)).
  - unfold ins_all at 1. rewrite <- fold_flat_map. apply fold_ext. intros. apply insert_range_eq.
  - unfold ins_all at 1. rewrite <- fold_flat_map. apply fold_ext. intros. apply insert_range_eq.
  - unfold ins_all at 1. rewrite <- fold_flat_map. apply fold_ext. intros. apply insert_range_eq.
  - unfold ins_all at 1. rewrite <- fold_flat_map. apply fold_ext. intros. apply insert_range_eq.
  - unfold ins_all at 1. rewrite <- fold_flat_map. apply fold_ext. intros. apply insert_range_eq.
  - unfold ins_all at 1. rewrite <- fold_flat_map. apply fold_ext. intros. apply insert_range_eq.
Qed.

Lemma range_hits_1 o m a t e :
  agree m ->
  (In (t, e) (range_hits m (dec o) (brange (key_bounds_1 a) (index o m)))
   <-> fst (fst (comps o t)) = a /\ abs_edge m t = Some e).
Proof.
  intros A. unfold range_hits, brange. rewrite filter_map_in. unfold abs_edge. split.
  - intros ([d i] & H & E). apply (range_in o a m d i A) in H.
    destruct H as (u & -> & Hu & F). simpl in E. rewrite dec_enc in E.
    destruct (om_get id_cmp i (edge_props m)) eqn:P; inversion E; subst.
    split; auto. rewrite Hu. exact P.
  - intros [F E]. destruct (eid m t) as [i|] eqn:Hi; [|discriminate].
    exists (enc o t, i). split.
    + apply (range_in o a m _ _ A). eauto.
    + simpl. rewrite dec_enc. unfold prop in E. now rewrite E.
Qed.

Lemma range_hits_2 o m a b t e :
  agree m ->
  (In (t, e) (range_hits m (dec o) (brange (key_bounds_2 a b) (index o m)))
   <-> fst (comps o t) = (a, b) /\ abs_edge m t = Some e).
Proof.
  intros A. unfold range_hits, brange. rewrite filter_map_in. unfold abs_edge. split.
  - intros ([d i] & H & E). apply (range2_in o a b m d i A) in H.
    destruct H as (u & -> & Hu & F). simpl in E. rewrite dec_enc in E.
    destruct (om_get id_cmp i (edge_props m)) eqn:P; inversion E; subst.
    split; auto. rewrite Hu. exact P.
  - intros [F E]. destruct (eid m t) as [i|] eqn:Hi; [|discriminate].
    exists (enc o t, i). split.
    + apply (range2_in o a b m _ _ A). eauto.
    + simpl. rewrite dec_enc. unfold prop in E. now rewrite E.
Qed.

Lemma hits_in m q t e :
  agree m -> (In (t, e) (hits m q) <-> selects q t /\ abs_edge m t = Some e).
Proof.
  intros A. destruct q as [l|l|l|l|l|l|l|l]; simpl.
  - tauto.
  - rewrite filter_map_in. unfold abs_edge. split.
    + intros ([[s p] o] & H & E). destruct (eid m (Triple s p o)) as [i|] eqn:F; [|discriminate].
      destruct (prop m i) eqn:P; inversion E; subst. simpl. split; auto. now rewrite F.
    + intros [H E]. exists (sub t, pred t, obj t). split; auto.
      destruct t as [s p o]. simpl in *. destruct (eid m (Triple s p o)); [|discriminate].
      now rewrite E.
  - rewrite in_flat_map. split.
    + intros (x & Hx & H). apply (range_hits_1 OSP m x t e A) in H. simpl in H.
      destruct H as [<- H]. auto.
    + intros [H E]. exists (obj t). split; auto. now apply (range_hits_1 OSP m _ t e A).
  - rewrite in_flat_map. split.
    + intros (x & Hx & H). apply (range_hits_1 SPO m x t e A) in H. simpl in H.
      destruct H as [<- H]. auto.
    + intros [H E]. exists (sub t). split; auto. now apply (range_hits_1 SPO m _ t e A).
  - rewrite in_flat_map. split.
    + intros (x & Hx & H). apply (range_hits_1 POS m x t e A) in H. simpl in H.
      destruct H as [<- H]. auto.
    + intros [H E]. exists (pred t). split; auto. now apply (range_hits_1 POS m _ t e A).
  - rewrite in_flat_map. split.
    + intros ([x y] & Hx & H). apply (range_hits_2 POS m x y t e A) in H. simpl in H.
      destruct H as [[= <- <-] H]. auto.
    + intros [H E]. exists (pred t, obj t). split; auto. now apply (range_hits_2 POS m _ _ t e A).
  - rewrite in_flat_map. split.
    + intros ([x y] & Hx & H). apply (range_hits_2 OSP m y x t e A) in H. simpl in H.
      destruct H as [[= <- <-] H]. auto.
    + intros [H E]. exists (sub t, obj t). split; auto. now apply (range_hits_2 OSP m _ _ t e A).
  - rewrite in_flat_map. split.
    + intros ([x y] & Hx & H). apply (range_hits_2 SPO m x y t e A) in H. simpl in H.
      destruct H as [[= <- <-] H]. auto.
    + intros [H E]. exists (sub t, pred t). split; auto. now apply (range_hits_2 SPO m _ _ t e A).
Qed.

Lemma node_hits_in m q n p :
  In (n, p) (node_hits m q) <-> selects_node q n /\ nprop m n = Some p.
Proof.
  destruct q as [l|l|l|l|l|l|l|l]; simpl; try tauto.
  rewrite filter_map_in. split.
  - intros (x & H & E). destruct (nprop m x) eqn:F; inversion E; subst. auto.
  - intros [H E]. exists n. split; auto. now rewrite E.
Qed.

(** Putting a functional list of items. *)
Lemma gput_all_spec l : forall g t e,
  (forall t e e', In (t, e) l -> In (t, e') l -> e = e') ->
  (g_edge (gput_all l g) t = Some e <->
   In (t, e) l \/ ((forall e', ~ In (t, e') l) /\ g_edge g t = Some e)).
Proof.
  induction l as [|[u x] l IH]; intros g t e F; simpl.
  - split; auto. intros [[]|[_ H]]; auto.
  - unfold gput_all in IH. rewrite IH by (intros; eapply F; simpl; eauto). simpl.
    destruct (triple_eq_dec t u) as [->|N].
    + split.
      * intros [H|[H [= ->]]]; auto.
      * intros [[[= ->]|H]|[H _]].
        -- destruct (in_dec triple_eq_dec u (map fst l)) as [Hi|Hn].
           ++ apply in_map_iff in Hi. destruct Hi as ([u' y] & E & Hi). simpl in E. subst u'.
              left. assert (e = y) as -> by (eapply F; simpl; eauto). auto.
           ++ right. split; auto. intros e' He'. apply Hn. apply in_map_iff. now exists (u, e').
        -- auto.
        -- exfalso. apply (H x). auto.
    + split.
      * intros [H|[H E]]; auto. right. split; auto. intros e' [[= -> ->]|He']; [congruence|].
        now apply (H e').
      * intros [[[= -> ->]|H]|[H E]]; [congruence | auto |]. right. split; auto.
        intros e' He'. apply (H e'). auto.
Qed.

Lemma gput_all_node l : forall g i, g_node (gput_all l g) i = g_node g i.
Proof. unfold gput_all. induction l; intros g i; simpl; auto. rewrite IHl. reflexivity. Qed.

Lemma gputn_all_edge l : forall g i, g_edge (gputn_all l g) i = g_edge g i.
Proof. unfold gputn_all. induction l; intros g i; simpl; auto. rewrite IHl. reflexivity. Qed.

Lemma gputn_all_spec l : forall g n p,
  (forall t e e', In (t, e) l -> In (t, e') l -> e = e') ->
  (g_node (gputn_all l g) n = Some p <->
   In (n, p) l \/ ((forall e', ~ In (n, e') l) /\ g_node g n = Some p)).
Proof.
  induction l as [|[u x] l IH]; intros g t e F; simpl.
  - split; auto. intros [[]|[_ H]]; auto.
  - unfold gputn_all in IH. rewrite IH by (intros; eapply F; simpl; eauto). simpl.
    destruct (id_eq_dec t u) as [->|N].
    + split.
      * intros [H|[H [= ->]]]; auto.
      * intros [[[= ->]|H]|[H _]].
        -- destruct (in_dec id_eq_dec u (map fst l)) as [Hi|Hn].
           ++ apply in_map_iff in Hi. destruct Hi as ([u' y] & E & Hi). simpl in E. subst u'.
              left. assert (e = y) as -> by (eapply F; simpl; eauto). auto.
           ++ right. split; auto. intros e' He'. apply Hn. apply in_map_iff. now exists (u, e').
        -- auto.
        -- exfalso. apply (H x). auto.
    + split.
      * intros [H|[H E]]; auto. right. split; auto. intros e' [[= -> ->]|He']; [congruence|].
        now apply (H e').
      * intros [[[= -> ->]|H]|[H E]]; [congruence | auto |]. right. split; auto.
        intros e' He'. apply (H e'). auto.
Qed.

Lemma sim_run gn q m :
  exists g', sim (run gn q m) g' /\
    (agree m -> answers q (abs m) g').
Proof.
  exists (gput_all (hits m q) (gputn_all (node_hits m q) g_empty)). split.
  - rewrite run_eq. apply sim_ins_all, sim_insn_all, sim_new.
  - intros A. split.
    + intros n p. rewrite gput_all_node, gputn_all_spec.
      * simpl. rewrite node_hits_in. intuition discriminate.
      * intros t e e'. rewrite !node_hits_in. intuition congruence.
    + intros t e. rewrite gput_all_spec.
      * rewrite gputn_all_edge. rewrite hits_in by auto. simpl. intuition discriminate.
      * intros t' e1 e2. rewrite !hits_in by auto. intuition congruence.
Qed.

(** ** Observation *)
Definition edge_items (o : edge_order) (m : M) : list (T * EP) :=
  filter_map (fun kv => match prop m (snd kv) with
                        | Some v => Some (dec o (fst kv), v) | None => None end) (index o m).

Lemma iter_edges_eq o m : iter_edges o m = map Ok (edge_items o m).
Proof.
  unfold iter_edges, edge_items.
  replace (match o with
    | SPO => map (fun kv => (decode_spo (fst kv), snd kv)) (om_iter (spo_data m))
    | POS => map (fun kv => (decode_pos (fst kv), snd kv)) (om_iter (pos_data m))
    | OSP => map (fun kv => (decode_osp (fst kv), snd kv)) (om_iter (osp_data m))
    end) with (map (fun kv => (@dec k o (fst kv), snd kv)) (index o m)) by now destruct o.
  rewrite filter_map_map. apply filter_map_map_ok. intros [d i]. simpl. unfold prop.
  now destruct (om_get id_cmp i (edge_props m)).
Qed.

Lemma edge_items_in o m t e : agree m -> (In (t, e) (edge_items o m) <-> abs_edge m t = Some e).
Proof.
  intros A. unfold edge_items. rewrite filter_map_in. unfold abs_edge. split.
  - intros ([d i] & H & E). destruct (ag_keys _ A _ _ _ H) as [u ->]. simpl in E.
    apply (index_in o A) in H. rewrite dec_enc in E. destruct (prop m i) eqn:P; inversion E; subst.
    now rewrite H.
  - intros E. destruct (eid m t) as [i|] eqn:Hi; [|discriminate].
    exists (enc o t, i). split; [now apply (index_in o A)|]. simpl. now rewrite E, dec_enc.
Qed.

Lemma edge_items_sorted o m : agree m ->
  StronglySorted (fun x y => edge_lt o (fst x) (fst y)) (edge_items o m).
Proof.
  intros A. eapply filter_map_sorted; [apply (ag_index _ A o)|].
  intros [d i] [d' i'] [t e] [t' e'] Hx Hy L. simpl in *.
  destruct (ag_keys _ A _ _ _ Hx) as [u ->]. destruct (ag_keys _ A _ _ _ Hy) as [u' ->].
  rewrite !dec_enc. apply enc_lt in L.
  destruct (prop m i); [|discriminate]. destruct (prop m i'); [|discriminate].
  intros [= <- <-] [= <- <-]. exact L.
Qed.

Lemma lists_iter_edges o m : agree m -> lists_edges o (iter_edges o m) (abs_edge m).
Proof.
  intros A. exists (edge_items o m). split; [apply iter_edges_eq|]. split.
  - now apply edge_items_sorted.
  - intros t e. now apply edge_items_in.
Qed.

Lemma iter_vertices_eq m : iter_vertices m = map Ok (node_props m).
Proof. unfold iter_vertices, om_iter. apply map_ext. now intros []. Qed.

Lemma lists_iter_vertices m : agree m -> lists_nodes (iter_vertices m) (nprop m).
Proof.
  intros A. exists (node_props m). split; [apply iter_vertices_eq|]. split.
  - pose proof (ag_nodes _ A) as S. unfold om_sorted in S.
    induction S as [|x l S IH F]; constructor; auto.
  - intros i p. unfold nprop. symmetry. apply (get_iff_in (id_cmp_ok k)). apply (ag_nodes _ A).
Qed.

Lemma shows_abs m : agree m -> shows m (abs m).
Proof. intros A. split; [now apply lists_iter_vertices | intros o; now apply lists_iter_edges]. Qed.

Lemma shows_iff m g : agree m -> (shows m g <-> g_equiv (abs m) g).
Proof.
  intros A. destruct (shows_abs m A) as [Hn He]. split.
  - intros [Sn Se]. split.
    + apply (lists_fun _ _ _ _ Hn Sn).
    + apply (lists_fun _ _ _ _ (He SPO) (Se SPO)).
  - intros [En Ee]. split.
    + eapply lists_ext; [exact En | exact Hn].
    + intros o. eapply lists_ext; [exact Ee | apply He].
Qed.

Lemma shows_fun m g g' : shows m g -> shows m g' -> g_equiv g g'.
Proof.
  intros [Sn Se] [Sn' Se']. split.
  - apply (lists_fun _ _ _ _ Sn Sn').
  - apply (lists_fun _ _ _ _ (Se SPO) (Se' SPO)).
Qed.

Lemma shows_equiv m g g' : g_equiv g g' -> shows m g -> shows m g'.
Proof.
  intros [En Ee] [Sn Se]. split.
  - eapply lists_ext; [exact En | exact Sn].
  - intros o. eapply lists_ext; [exact Ee | apply Se].
Qed.

Lemma sim_shows m g : sim m g -> drawn_distinct (id_generator m) -> shows m g.
Proof. intros [A H] D. apply shows_iff; auto. now apply H. Qed.

End Sim.
