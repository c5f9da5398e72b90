(** The statements about MemTripleStore used by the property files. *)
From Coq Require Import Arith NArith List Sorted Lia Bool Permutation.
From Verif Require Import Bytes BytesFacts OMap OMapFacts Core IdType IdTypeFacts CodecFacts
  Store Mem Spec History ListFacts MemFacts MemSim MemSetFacts.
Import ListNotations.

Section Top.
Context {k : idkind} {NP EP E : Type}.
Context (mn : NP -> NP -> NP) (me : EP -> EP -> EP).
Notation I := (Id k).
Notation T := (triple (Id k)).
Notation M := (mem k NP EP).
Notation G := (graph k NP EP).
Notation reach := (reachable (k := k) E mn me).
Implicit Types m r : M.
Implicit Types g : G.
Implicit Types s : source k NP EP E.

Lemma sim_of_shows m g : reach m -> shows m g -> sim m g.
Proof.
  intros R S. pose proof (reachable_self _ _ _ R) as Sm. destruct Sm as [A H].
  apply (sim_equiv m (abs m)); [apply shows_iff; auto | split; auto].
Qed.

Lemma top_shows m : reach m -> exists g, shows m g.
Proof. intros R. exists (abs m). apply shows_abs. eapply reachable_agree; eauto. Qed.

Lemma top_history (gn : gen k) (l : list (op k NP EP E)) :
  drawn_distinct (id_generator (mem_history mn me l (mem_new gn))) ->
  shows (mem_history mn me l (mem_new gn)) (spec_history mn me l g_empty).
Proof. intros D. apply sim_shows; auto. apply sim_history, sim_new. Qed.

(** ** Orders *)
Lemma top_orders m : reach m ->
  exists f, forall o, lists_edges o (iter_edges o m) f.
Proof.
  intros R. exists (abs_edge m). intros o. apply lists_iter_edges. eapply reachable_agree; eauto.
Qed.

Lemma lists_perm {E'} (lt lt' : T -> T -> Prop) (l l' : list (result E' (T * EP))) f :
  (forall a, ~ lt a a) -> (forall a, ~ lt' a a) ->
  lists lt l f -> lists lt' l' f -> Permutation l l'.
Proof.
  intros I1 I2 (x & -> & S & H) (y & -> & S' & H'). apply Permutation_map.
  apply NoDup_Permutation.
  - eapply sorted_NoDup; [|exact S]. intros a. apply I1.
  - eapply sorted_NoDup; [|exact S']. intros a. apply I2.
  - intros [t e]. now rewrite H, H'.
Qed.

Lemma top_orders_perm m o o' : reach m -> Permutation (iter_edges o m) (iter_edges o' m).
Proof.
  intros R. destruct (top_orders m R) as [f H].
  eapply lists_perm; [apply (edge_lt_irr o) | apply (edge_lt_irr o') | apply H | apply H].
Qed.

(** ** Insertion *)
Lemma shows_insert_node m g n p :
  reach m -> shows m g -> shows (insert_node n p m) (g_put_node n p g).
Proof.
  intros R S. pose proof (reachable_agree _ _ _ R) as A.
  apply shows_iff; [now apply agree_insert_node|].
  eapply g_equiv_trans; [apply abs_insert_node|]. apply put_node_equiv, shows_iff; auto.
Qed.

Lemma shows_insert_edge m g t e :
  reach m -> shows m g -> drawn_distinct (id_generator (insert_edge t e m)) ->
  shows (insert_edge t e m) (g_put_edge t e g).
Proof. intros R S D. apply sim_shows; auto. apply sim_insert_edge. now apply sim_of_shows. Qed.

Lemma insert_node_twice m n p : reach m -> insert_node n p (insert_node n p m) = insert_node n p m.
Proof.
  intros R. unfold insert_node. simpl. unfold set_node_props. simpl. f_equal.
  apply (om_get_ext (id_cmp_ok k)).
  - apply (om_sorted_insert (id_cmp_ok k)), (om_sorted_insert (id_cmp_ok k)).
    apply (ag_nodes _ (reachable_agree _ _ _ R)).
  - apply (om_sorted_insert (id_cmp_ok k)). apply (ag_nodes _ (reachable_agree _ _ _ R)).
  - intros i. destruct (id_eq_dec i n) as [->|N].
    + now rewrite !(get_insert_eq (id_cmp_ok k)).
    + now rewrite (get_insert_neq (id_cmp_ok k)) by auto.
Qed.

Lemma g_put_edge_twice t e g : g_equiv (g_put_edge t e (g_put_edge t e g)) (g_put_edge t e g).
Proof. split; intros i; simpl; auto. now destruct (triple_eq_dec i t). Qed.

Lemma insert_edge_twice m g t e :
  reach m -> shows m g -> drawn_distinct (id_generator (insert_edge t e (insert_edge t e m))) ->
  shows (insert_edge t e (insert_edge t e m)) (g_put_edge t e g).
Proof.
  intros R S D. eapply shows_equiv; [apply g_put_edge_twice|]. apply sim_shows; auto.
  apply sim_insert_edge, sim_insert_edge. now apply sim_of_shows.
Qed.

(** ** Removal *)
Lemma shows_remove_node m g n :
  reach m -> drawn_distinct (id_generator m) -> shows m g -> shows (remove_node n m) (g_del_node n g).
Proof.
  intros R D S. apply sim_shows; [|now rewrite gen_remove_node].
  apply sim_remove_node. now apply sim_of_shows.
Qed.

Lemma good_of m : reach m -> drawn_distinct (id_generator m) -> good m.
Proof. intros R D. destruct (reachable_self _ _ _ R) as [_ H]. now apply H. Qed.

Lemma eid_none_iff m t : reach m -> drawn_distinct (id_generator m) ->
  (abs_edge m t = None <-> eid m t = None).
Proof.
  intros R D. unfold abs_edge. destruct (eid m t) as [i|] eqn:H; [|tauto].
  split; [|discriminate]. intros P. exfalso. apply (go_present _ (good_of m R D) _ _ H P).
Qed.

Lemma om_remove_absent {K V} (cmp : K -> K -> comparison) (C : cmp_ok cmp) x (l : omap K V) :
  om_sorted cmp l -> om_get cmp x l = None -> om_remove cmp x l = l.
Proof.
  intros S H. apply (om_get_ext C); auto.
  - now apply om_sorted_remove.
  - intros y. destruct (cmp x y) eqn:Cxy.
    + apply (cmp_eq _ C) in Cxy. subst y. rewrite get_remove_eq; auto.
    + rewrite (get_remove_neq C); auto. intros ->. rewrite (cmp_refl C) in Cxy. discriminate.
    + rewrite (get_remove_neq C); auto. intros ->. rewrite (cmp_refl C) in Cxy. discriminate.
Qed.

Lemma remove_node_noop m g n :
  reach m -> drawn_distinct (id_generator m) -> shows m g ->
  g_node g n = None -> (forall t, sub t = n \/ obj t = n -> g_edge g t = None) ->
  remove_node n m = m.
Proof.
  intros R D S Hn He. pose proof (reachable_agree _ _ _ R) as A.
  apply shows_iff in S; auto. destruct S as [Sn Se].
  assert (T0 : touched n m = []).
  { destruct (touched n m) as [|t l] eqn:F; auto. exfalso.
    assert (In t (touched n m)) as H by (rewrite F; simpl; auto).
    apply touched_in in H; auto. destruct H as ((i & H) & Ht).
    assert (abs_edge m t = None) as N by (rewrite (Se t : abs_edge m t = _); auto).
    apply eid_none_iff in N; auto. congruence. }
  assert (T1 : touched_ids n m = []).
  { destruct (touched_ids n m) as [|i l] eqn:F; auto. exfalso.
    assert (In i (touched_ids n m)) as H by (rewrite F; simpl; auto).
    apply touched_ids_in in H; auto. destruct H as (t & H & Ht).
    assert (abs_edge m t = None) as N by (rewrite (Se t : abs_edge m t = _); auto).
    apply eid_none_iff in N; auto. congruence. }
  rewrite remove_node_unfold, T0, T1. simpl.
  rewrite (om_remove_absent id_cmp (id_cmp_ok k)); [now destruct m | apply (ag_nodes _ A) |].
  rewrite <- Hn. apply Sn.
Qed.

Lemma shows_remove_edge m g t :
  reach m -> drawn_distinct (id_generator m) -> shows m g -> shows (remove_edge t m) (g_del_edge t g).
Proof.
  intros R D S. apply sim_shows; [|now rewrite gen_remove_edge].
  apply sim_remove_edge. now apply sim_of_shows.
Qed.

Lemma remove_edge_noop m g t :
  reach m -> drawn_distinct (id_generator m) -> shows m g -> g_edge g t = None -> remove_edge t m = m.
Proof.
  intros R D S H. apply remove_edge_none. apply eid_none_iff; auto.
  apply shows_iff in S; [|eapply reachable_agree; eauto]. now rewrite (proj2 S t : abs_edge m t = _).
Qed.

(** Needs nothing of the generator. *)
Lemma remove_edge_twice m t : remove_edge t (remove_edge t m) = remove_edge t m.
Proof.
  apply remove_edge_none. rewrite eid_remove_edge. now destruct (triple_eq_dec t t).
Qed.

Lemma remove_edge_unlisted m t e o : reach m -> ~ In (Ok (t, e)) (iter_edges o (remove_edge t m)).
Proof.
  intros R H. rewrite iter_edges_eq in H. apply in_map_iff in H. destruct H as (x & [= ->] & H).
  apply edge_items_in in H; [|apply agree_remove_edge; eapply reachable_agree; eauto].
  unfold abs_edge in H. rewrite eid_remove_edge in H. now destruct (triple_eq_dec t t).
Qed.

(** ** Merging *)
Lemma shows_merge_node m g n p :
  reach m -> shows m g -> shows (merge_node mn n p m) (g_merge_node mn n p g).
Proof.
  intros R S. pose proof (reachable_agree _ _ _ R) as A.
  apply shows_iff; [rewrite merge_node_unfold; now apply agree_insert_node|].
  eapply g_equiv_trans; [apply abs_merge_node|]. apply merge_node_equiv, shows_iff; auto.
Qed.

Lemma shows_merge_edge m g t e :
  reach m -> shows m g -> drawn_distinct (id_generator (merge_edge me t e m)) ->
  shows (merge_edge me t e m) (g_merge_edge me t e g).
Proof. intros R S D. apply sim_shows; auto. apply sim_merge_edge. now apply sim_of_shows. Qed.

(** ** extend and merge *)
Definition bulk_result (s : source k NP EP E) : result (lr_error unit E) unit :=
  match bulk_error s with Some e => Err (RightE e) | None => Ok tt end.

Lemma extend_result s m : fst (extend s m) = bulk_result s.
Proof. apply extend_eq. Qed.

Lemma merge_result s m : fst (merge mn me s m) = bulk_result s.
Proof. apply merge_eq. Qed.

Lemma shows_extend s m g :
  reach m -> shows m g -> drawn_distinct (id_generator (snd (extend s m))) ->
  shows (snd (extend s m)) (g_bulk g_put_node g_put_edge s g).
Proof. intros R S D. apply sim_shows; auto. apply sim_extend. now apply sim_of_shows. Qed.

Lemma shows_merge s m g :
  reach m -> shows m g -> drawn_distinct (id_generator (snd (merge mn me s m))) ->
  shows (snd (merge mn me s m)) (g_bulk (g_merge_node mn) (g_merge_edge me) s g).
Proof. intros R S D. apply sim_shows; auto. apply sim_merge. now apply sim_of_shows. Qed.

Lemma delivers_no_error (s : source k NP EP E) b : delivers s b -> bulk_error s = None.
Proof.
  intros D. destruct (delivers_items s b D) as (ns & es & -> & _).
  unfold bulk_error. simpl. now rewrite !first_error_ok.
Qed.

Lemma g_bulk_put (s : source k NP EP E) b g :
  delivers s b -> g_equiv (g_bulk g_put_node g_put_edge s g) (g_union g b).
Proof.
  intros D. destruct (delivers_items s b D) as (ns & es & -> & _ & _ & Hn & He).
  unfold g_bulk. simpl. rewrite first_error_ok, !before_error_ok.
  change (g_equiv (gput_all es (gputn_all ns g)) (g_union g b)).
  split; intros i.
  - now rewrite gput_all_node, (gputn_override ns (g_node b)).
  - now rewrite (gput_override es (g_edge b)), gputn_all_edge.
Qed.

(** Merging a list of items with distinct keys. *)
Lemma fold_merge_node (ns : list (I * NP)) : forall g i,
  NoDup (map fst ns) ->
  g_node (fold_left (fun g ip => g_merge_node mn (fst ip) (snd ip) g) ns g) i =
  match find (fun x => if id_eq_dec (fst x) i then true else false) ns with
  | Some x => Some (merged mn (g_node g i) (snd x))
  | None => g_node g i
  end.
Proof.
  induction ns as [|[j p] ns IH]; intros g i ND; simpl; auto.
  inversion ND as [|? ? Hni ND']; subst. rewrite IH by auto. simpl.
  destruct (id_eq_dec j i) as [->|N].
  - assert (find (fun x => if id_eq_dec (fst x) i then true else false) ns = None) as ->.
    { destruct (find _ ns) as [[j q]|] eqn:F; auto. apply find_some in F. destruct F as [F1 F2]. simpl in F2.
      destruct (id_eq_dec j i); [|discriminate]. subst. exfalso. apply Hni.
      apply in_map_iff. exists (i, q). auto. }
    destruct (id_eq_dec i i) as [e|ne]; [reflexivity | now contradiction ne].
  - destruct (find _ ns) as [[j' q]|].
    + simpl. destruct (id_eq_dec i j) as [e|ne]; [now contradiction N|reflexivity].
    + destruct (id_eq_dec i j) as [e|ne]; [now contradiction N|reflexivity].
Qed.

Lemma fold_merge_edge (es : list (T * EP)) : forall g t,
  NoDup (map fst es) ->
  g_edge (fold_left (fun g ip => g_merge_edge me (fst ip) (snd ip) g) es g) t =
  match find (fun x => if triple_eq_dec (fst x) t then true else false) es with
  | Some x => Some (merged me (g_edge g t) (snd x))
  | None => g_edge g t
  end.
Proof.
  induction es as [|[j p] es IH]; intros g i ND; simpl; auto.
  inversion ND as [|? ? Hni ND']; subst. rewrite IH by auto. simpl.
  destruct (triple_eq_dec j i) as [->|N].
  - assert (find (fun x => if triple_eq_dec (fst x) i then true else false) es = None) as ->.
    { destruct (find _ es) as [[j q]|] eqn:F; auto. apply find_some in F. destruct F as [F1 F2]. simpl in F2.
      destruct (triple_eq_dec j i); [|discriminate]. subst. exfalso. apply Hni.
      apply in_map_iff. exists (i, q). auto. }
    destruct (triple_eq_dec i i) as [e|ne]; [reflexivity | now contradiction ne].
  - destruct (find _ es) as [[j' q]|].
    + simpl. destruct (triple_eq_dec i j) as [e|ne]; [now contradiction N|reflexivity].
    + destruct (triple_eq_dec i j) as [e|ne]; [now contradiction N|reflexivity].
Qed.

Lemma fold_merge_node_edges (ns : list (I * NP)) : forall g t,
  g_edge (fold_left (fun g ip => g_merge_node mn (fst ip) (snd ip) g) ns g) t = g_edge g t.
Proof. induction ns; intros g t; simpl; auto. now rewrite IHns. Qed.

Lemma fold_merge_edge_nodes (es : list (T * EP)) : forall g i,
  g_node (fold_left (fun g ip => g_merge_edge me (fst ip) (snd ip) g) es g) i = g_node g i.
Proof. induction es; intros g t; simpl; auto. now rewrite IHes. Qed.

Lemma find_key {A P} (dec : forall a b : A, {a = b} + {a <> b}) (l : list (A * P)) f a :
  (forall a p, In (a, p) l <-> f a = Some p) ->
  option_map snd (find (fun x => if dec (fst x) a then true else false) l) = f a.
Proof.
  intros H. destruct (find _ l) as [[b p]|] eqn:F; simpl.
  - apply find_some in F. destruct F as [F1 F2]. simpl in F2.
    destruct (dec b a); [|discriminate]. subst. symmetry. now apply H.
  - destruct (f a) as [p|] eqn:Fa; auto. apply H in Fa.
    pose proof (find_none _ _ F _ Fa) as N. simpl in N. now destruct (dec a a).
Qed.

Lemma g_bulk_merge (s : source k NP EP E) b g :
  delivers s b -> g_equiv (g_bulk (g_merge_node mn) (g_merge_edge me) s g) (g_merged mn me g b).
Proof.
  intros D. destruct (delivers_items s b D) as (ns & es & -> & Sn & Se & Hn & He).
  unfold g_bulk. simpl. rewrite first_error_ok, !before_error_ok.
  assert (Nn : NoDup (map fst ns)) by (eapply items_NoDup; [apply id_lt_irr | exact Sn]).
  assert (Ne : NoDup (map fst es)) by (eapply items_NoDup; [apply edge_lt_irr | exact Se]).
  split; intros i; simpl; unfold pointwise.
  - rewrite fold_merge_edge_nodes, fold_merge_node by auto.
    rewrite <- (find_key id_eq_dec ns (g_node b) i Hn). now destruct (find _ ns).
  - rewrite fold_merge_edge, fold_merge_node_edges by auto.
    rewrite <- (find_key triple_eq_dec es (g_edge b) i He). now destruct (find _ es).
Qed.

Lemma shows_extend_store s m g b :
  reach m -> shows m g -> delivers s b -> drawn_distinct (id_generator (snd (extend s m))) ->
  fst (extend s m) = Ok tt /\ shows (snd (extend s m)) (g_union g b).
Proof.
  intros R S B D. split.
  - rewrite extend_result. unfold bulk_result. now rewrite (delivers_no_error s b B).
  - eapply shows_equiv; [apply g_bulk_put, B|]. now apply shows_extend.
Qed.

Lemma shows_merge_store s m g b :
  reach m -> shows m g -> delivers s b -> drawn_distinct (id_generator (snd (merge mn me s m))) ->
  fst (merge mn me s m) = Ok tt /\ shows (snd (merge mn me s m)) (g_merged mn me g b).
Proof.
  intros R S B D. split.
  - rewrite merge_result. unfold bulk_result. now rewrite (delivers_no_error s b B).
  - eapply shows_equiv; [apply g_bulk_merge, B|]. now apply shows_merge.
Qed.

(** A reachable memory store consumed by value delivers what it shows. *)
Lemma delivers_equiv (s : source k NP EP unit) g g' : g_equiv g g' -> delivers s g -> delivers s g'.
Proof.
  intros [H1 H2] [D1 D2]. split; eapply lists_ext; eauto.
Qed.

Lemma mem_source_shows m g : reach m -> shows m g -> delivers (mem_source m) g.
Proof.
  intros R S. pose proof (reachable_agree _ _ _ R) as A.
  eapply delivers_equiv; [apply shows_iff; eauto|]. now apply mem_source_delivers.
Qed.

(** ** Set operations *)
Lemma setop_equiv m g (f : G -> G) r :
  (forall a b, g_equiv a b -> g_equiv (f a) (f b)) ->
  reach m -> shows m g -> sim r (f (abs m)) -> sim r (f g).
Proof.
  intros C R S Sr. eapply sim_equiv; [|exact Sr]. apply C, shows_iff; auto. eapply reachable_agree; eauto.
Qed.

Lemma shows_union gn s m a b :
  reach m -> shows m a -> delivers s b ->
  exists r, union gn s m = Ok r /\ (drawn_distinct (id_generator r) -> shows r (g_union a b)).
Proof.
  intros R S B. destruct (sim_union gn s m b (reachable_agree _ _ _ R) B) as (r & H & Sr).
  exists r. split; auto. intros D. apply sim_shows; auto.
  apply (setop_equiv m a (fun x => g_union x b)); auto.
  intros x y [H1 H2]. split; intros i; simpl; [now rewrite H1 | now rewrite H2].
Qed.

Lemma shows_intersection gn s m a b :
  reach m -> shows m a -> delivers s b ->
  exists r, intersection gn s m = Ok r /\ (drawn_distinct (id_generator r) -> shows r (g_inter a b)).
Proof.
  intros R S B. destruct (sim_intersection gn s m b (reachable_agree _ _ _ R) B) as (r & H & Sr).
  exists r. split; auto. intros D. apply sim_shows; auto.
  apply (setop_equiv m a (fun x => g_inter x b)); auto.
  intros x y [H1 H2]. split; intros i; simpl; [now rewrite H1 | now rewrite H2].
Qed.

Lemma diff_edge_equiv (a a' b : G) t e : g_equiv a a' -> diff_edge a b t e -> diff_edge a' b t e.
Proof.
  intros [H1 H2] (A & B & C). rewrite H2 in A. split; auto. split; auto.
  destruct C as [C|[C1 C2]]; auto. right.
  assert (forall i, hidden a' b i -> hidden a b i) as HH.
  { intros i (N & j & Hj & L). split; auto. exists j. now rewrite H1. }
  split; intros H; [apply C1 | apply C2]; auto.
Qed.

Lemma shows_difference gn s m a b :
  reach m -> shows m a -> delivers s b ->
  exists r, difference gn s m = Ok r /\
    (drawn_distinct (id_generator r) ->
     exists c, shows r c /\
       (forall i, g_node c i = g_minus_nodes a b i) /\
       (forall t e, g_edge c t = Some e <-> diff_edge a b t e)).
Proof.
  intros R S B. pose proof (reachable_agree _ _ _ R) as A.
  destruct (sim_difference gn s m b A B) as (r & c & H & Sr & Hn & He).
  apply shows_iff in S; auto.
  exists r. split; auto. intros D. exists c. split; [now apply sim_shows|]. split.
  - intros i. rewrite Hn. unfold g_minus_nodes. now rewrite <- (proj1 S i).
  - intros t e. rewrite He. split; apply diff_edge_equiv; auto. now apply g_equiv_sym.
Qed.

Lemma difference_untouched gn s m a b :
  reach m -> shows m a -> delivers s b ->
  (forall t, g_edge a t <> None -> g_node b (sub t) = None /\ g_node b (obj t) = None) ->
  exists r, difference gn s m = Ok r /\
    (drawn_distinct (id_generator r) ->
     shows r (Graph (g_minus_nodes a b)
                    (fun t => match g_edge b t with Some _ => None | None => g_edge a t end))).
Proof.
  intros R S B U. destruct (shows_difference gn s m a b R S B) as (r & H & K).
  exists r. split; auto. intros D. destruct (K D) as (c & Sc & Hn & He).
  eapply shows_equiv; [|exact Sc]. split; simpl; auto.
  intros t. apply option_ext. intros e. rewrite He. unfold diff_edge. split.
  - intros (H1 & H2 & _). now rewrite H2.
  - destruct (g_edge b t) eqn:F; [discriminate|]. intros H1. split; auto. split; auto.
    right. destruct (U t) as [U1 U2]; [congruence|]. unfold hidden. rewrite U1, U2.
    split; intros [N _]; now apply N.
Qed.

(** Errors of the other store. *)
Lemma union_errors gn (s : source k NP EP E) m :
  match bulk_error s with
  | Some e => union gn s m = Err (SetRight e)
  | None => exists r, union gn s m = Ok r
  end.
Proof. rewrite union_eq. destruct (bulk_error s); eauto. Qed.

(** ** Queries *)
Lemma answers_equiv q g h g' : g_equiv g h -> answers q g g' -> answers q h g'.
Proof.
  intros [H1 H2] [A1 A2]. split; intros; [rewrite <- H1 | rewrite <- H2]; auto.
Qed.

Lemma answers_fun q g a b : answers q g a -> answers q g b -> g_equiv a b.
Proof.
  intros [A1 A2] [B1 B2]. split; intros i; apply option_ext; intros p.
  - now rewrite A1, B1.
  - now rewrite A2, B2.
Qed.

Lemma shows_run gn q m g :
  reach m -> shows m g -> drawn_distinct (id_generator (run gn q m)) ->
  exists g', shows (run gn q m) g' /\ answers q g g'.
Proof.
  intros R S D. destruct (sim_run gn q m) as (g' & Sg & An).
  pose proof (reachable_agree _ _ _ R) as A.
  exists g'. split; [now apply sim_shows|]. eapply answers_equiv; [apply shows_iff; eauto | auto].
Qed.

Lemma shows_run_iff gn q m g g' :
  reach m -> shows m g -> drawn_distinct (id_generator (run gn q m)) ->
  (shows (run gn q m) g' <-> answers q g g').
Proof.
  intros R S D. destruct (shows_run gn q m g R S D) as (h & Sh & Ah). split.
  - intros S'. pose proof (shows_fun _ _ _ Sh S') as [E1 E2]. destruct Ah as [A1 A2].
    split; intros; [rewrite <- E1 | rewrite <- E2]; auto.
  - intros A'. eapply shows_equiv; [|exact Sh]. eapply answers_fun; eauto.
Qed.

Lemma answers_same q q' g g' :
  (forall t, selects q t <-> selects q' t) -> (forall n, selects_node q n <-> selects_node q' n) ->
  (answers q g g' <-> answers q' g g').
Proof.
  intros H1 H2. unfold answers. split; intros [A1 A2]; split; intros.
  - now rewrite A1, H2.
  - now rewrite A2, H1.
  - now rewrite A1, H2.
  - now rewrite A2, H1.
Qed.

Lemma answers_idem q g g' : answers q g g' -> answers q g' g'.
Proof.
  intros [A1 A2]. split; intros; split.
  - intros H. split; auto. now apply A1 in H.
  - tauto.
  - intros H. split; auto. now apply A2 in H.
  - tauto.
Qed.

Lemma run_same gn gn' q q' m g :
  reach m -> 
  (forall t, selects q t <-> selects q' t) -> (forall n, selects_node q n <-> selects_node q' n) ->
  drawn_distinct (id_generator (run gn q m)) -> drawn_distinct (id_generator (run gn' q' m)) ->
  (shows (run gn q m) g <-> shows (run gn' q' m) g).
Proof.
  intros R H1 H2 D D'. destruct (top_shows m R) as [h S].
  rewrite (shows_run_iff gn q m h), (shows_run_iff gn' q' m h) by auto. now apply answers_same.
Qed.

Lemma node_props_ins_all l : forall m, node_props (ins_all l m) = node_props m.
Proof.
  induction l as [|[t e] l IH]; intros m; auto.
  change (node_props (ins_all l (insert_edge t e m)) = node_props m). rewrite IH, insert_edge_unfold. reflexivity.
Qed.

Lemma run_disjoint gn q m :
  reach m ->
  match q with
  | QNodeProps _ => forall o, iter_edges o (run gn q m) = []
  | _ => iter_vertices (run gn q m) = []
  end.
Proof.
  intros _.
  assert (H : forall l r, node_props r = [] -> iter_vertices (ins_all l r) = []).
  { intros l r H. rewrite iter_vertices_eq, node_props_ins_all, H. reflexivity. }
  destruct q as [l|l|l|l|l|l|l|l]; try (rewrite run_eq; apply H; reflexivity).
  intros o. rewrite run_eq. simpl.
  assert (K : forall l r, (forall o, index o r = []) -> forall o, index o (insn_all l r) = []).
  { clear. induction l as [|[i p] l IH]; intros r H; auto. apply (IH (insert_node i p r)).
    intros o. rewrite <- (H o). now destruct o. }
  rewrite iter_edges_eq. unfold edge_items. rewrite K; auto. now intros [].
Qed.

Lemma run_nodes gn ids m g :
  reach m -> shows m g ->
  lists_nodes (iter_vertices (run gn (QNodeProps ids) m))
    (fun i => if in_dec id_eq_dec i ids then g_node g i else None).
Proof.
  intros R S. pose proof (reachable_agree _ _ _ R) as A. apply shows_iff in S; auto.
  assert (R' : reach (run gn (QNodeProps ids) m)) by now apply R_run.
  destruct (lists_iter_vertices _ (reachable_agree _ _ _ R')) as (items & E1 & Srt & Hin).
  exists items. split; auto. split; auto. intros a p. rewrite Hin. clear Hin Srt E1 items R'.
  rewrite run_eq.
  assert (K : nprop (ins_all (hits m (QNodeProps ids)) (insn_all (node_hits m (QNodeProps ids)) (mem_new gn))) a
    = g_node (gputn_all (node_hits m (QNodeProps ids)) (g_empty : G)) a).
  { unfold nprop at 1. rewrite node_props_ins_all.
    change (om_get id_cmp a (node_props ?x)) with (nprop x a).
    assert (Q : forall l r (h : G), nprop r a = g_node h a -> nprop (insn_all l r) a = g_node (gputn_all l h) a).
    { clear. induction l as [|[i p] l IH]; intros r h H; auto.
      apply (IH (insert_node i p r) (g_put_node i p h)). rewrite nprop_insert_node. simpl.
      now destruct (id_eq_dec a i). }
    now apply Q. }
  rewrite K, gputn_all_spec.
  - rewrite node_hits_in. destruct S as [Sn _]. rewrite <- Sn. simpl.
    destruct (in_dec id_eq_dec a ids); intuition discriminate.
  - intros t e e'. rewrite !node_hits_in. intuition congruence.
Qed.

Lemma run_same_items gn gn' q q' m g :
  reach m -> same_items q q' ->
  drawn_distinct (id_generator (run gn q m)) -> drawn_distinct (id_generator (run gn' q' m)) ->
  (shows (run gn q m) g <-> shows (run gn' q' m) g).
Proof.
  intros R H. apply run_same; auto; destruct q, q'; simpl in *; try contradiction; firstorder.
Qed.

Lemma run_again gn gn' q m g :
  reach m ->
  drawn_distinct (id_generator (run gn q m)) ->
  drawn_distinct (id_generator (run gn' q (run gn q m))) ->
  shows (run gn q m) g -> shows (run gn' q (run gn q m)) g.
Proof.
  intros R D D' S. destruct (top_shows m R) as [h Sh].
  assert (R' : reach (run gn q m)) by now apply R_run.
  apply (shows_run_iff gn' q (run gn q m) g g R' S D').
  apply (shows_run_iff gn q m h g R Sh D) in S. eapply answers_idem; eauto.
Qed.

(** ** Iteration with properties *)
Definition pt_triple (x : props_triple I NP EP) : T :=
  Triple (fst (p_sub x)) (fst (p_pred x)) (fst (p_obj x)).

Definition with_props (m : M) (te : T * EP) : option (props_triple I NP EP) :=
  match nprop m (sub (fst te)), nprop m (obj (fst te)) with
  | Some sp, Some op => Some (PropsTriple (sub (fst te), sp) (pred (fst te), snd te) (obj (fst te), op))
  | _, _ => None
  end.

Lemma iter_with_props_eq o m :
  iter_edges_with_props o m = map Ok (filter_map (with_props m) (edge_items o m)).
Proof.
  unfold iter_edges_with_props, edge_items.
  replace (match o with
    | SPO => map (fun kv => (decode_spo (fst kv), snd kv)) (om_iter (spo_data m))
    | POS => map (fun kv => (decode_pos (fst kv), snd kv)) (om_iter (pos_data m))
    | OSP => map (fun kv => (decode_osp (fst kv), snd kv)) (om_iter (osp_data m))
    end) with (map (fun kv => (dec o (fst kv) : T, snd kv)) (index o m)) by (destruct o; reflexivity).
  rewrite filter_map_map.
  induction (index o m) as [|[d i] l IH]; [reflexivity|].
  cbn [filter_map fst snd]. unfold iter_impl at 1.
  change (om_get id_cmp (sub (dec o d)) (node_props m)) with (nprop m (sub (dec o d))).
  change (om_get id_cmp i (edge_props m)) with (prop m i).
  change (om_get id_cmp (obj (dec o d)) (node_props m)) with (nprop m (obj (dec o d))).
  destruct (prop m i) as [e|].
  - cbn [filter_map]. unfold with_props at 1. cbn [fst snd].
    destruct (nprop m (sub (dec o d))) as [x|]; [|exact IH].
    destruct (nprop m (obj (dec o d))) as [y|]; [|exact IH].
    cbn [map]. f_equal. exact IH.
  - destruct (nprop m (sub (dec o d))) as [x|]; exact IH.
Qed.

Lemma top_with_props o m g :
  reach m -> shows m g ->
  exists items, iter_edges_with_props o m = map Ok items /\
    StronglySorted (fun x y => edge_lt o (pt_triple x) (pt_triple y)) items /\
    forall (s : I) sp p ep b op,
      In (PropsTriple (s, sp) (p, ep) (b, op)) items <->
      g_node g s = Some sp /\ g_edge g (Triple s p b) = Some ep /\ g_node g b = Some op.
Proof.
  intros R S. pose proof (reachable_agree _ _ _ R) as A. apply shows_iff in S; auto.
  exists (filter_map (with_props m) (edge_items o m)). split; [apply iter_with_props_eq|]. split.
  - eapply filter_map_sorted; [apply (edge_items_sorted o m A)|].
    intros [t e] [u f] x y _ _ L. unfold with_props. simpl in *.
    destruct (nprop m (sub t)), (nprop m (obj t)); try discriminate.
    destruct (nprop m (sub u)), (nprop m (obj u)); try discriminate.
    intros [= <-] [= <-]. unfold pt_triple. simpl. destruct t, u; exact L.
  - intros i sp p ep b op. rewrite filter_map_in.
    rewrite <- (proj1 S i), <- (proj1 S b), <- (proj2 S (Triple i p b)). simpl. split.
    + intros ([t e] & H & W). apply edge_items_in in H; auto. unfold with_props in W. simpl in W.
      destruct (nprop m (sub t)) eqn:E1; try discriminate.
      destruct (nprop m (obj t)) eqn:E2; try discriminate.
      inversion W; subst. destruct t; simpl in *. auto.
    + intros (H1 & H2 & H3). exists (Triple i p b, ep). split; [now apply edge_items_in|].
      unfold with_props. simpl. now rewrite H1, H3.
Qed.

(** ** Number of property records *)
Lemma top_no_leak m o :
  reach m -> drawn_distinct (id_generator m) -> length (edge_props m) = length (iter_edges o m).
Proof.
  intros R D. pose proof (reachable_agree _ _ _ R) as A. pose proof (good_of m R D) as Go.
  rewrite iter_edges_eq, map_length.
  assert (Hk : length (edge_props m) = length (map fst (edge_props m))) by now rewrite map_length.
  rewrite Hk. clear Hk.
  set (f := fun te : T * EP => match eid m (fst te) with Some i => i | None => uint_min _ end).
  assert (P : Permutation (map fst (edge_props m)) (map f (edge_items o m))).
  { apply NoDup_Permutation.
    - eapply items_NoDup; [apply id_lt_irr|].
      pose proof (ag_props _ A) as Sp. unfold om_sorted in Sp.
      induction Sp as [|x l Sp IH F]; constructor; auto.
    - assert (ND : NoDup (edge_items o m)).
      { eapply sorted_NoDup; [|apply (edge_items_sorted o m A)]. intros a. apply edge_lt_irr. }
      assert (HI : forall te, In te (edge_items o m) -> abs_edge m (fst te) = Some (snd te)).
      { intros [t e] H. now apply edge_items_in in H. }
      induction ND as [|x l Hx ND IH]; simpl; constructor.
      + intros H. apply in_map_iff in H. destruct H as (y & Hy & Hin). apply Hx.
        assert (y = x); [|now subst].
        pose proof (HI x (or_introl eq_refl)) as Ax. pose proof (HI y (or_intror Hin)) as Ay.
        unfold f in Hy. unfold abs_edge in Ax, Ay.
        destruct (eid m (fst x)) as [i|] eqn:Ex; [|discriminate].
        destruct (eid m (fst y)) as [j|] eqn:Ey; [|discriminate]. subst j.
        pose proof (go_inj _ Go _ _ _ Ex Ey) as Et. destruct x, y; simpl in *. congruence.
      + apply IH; intros; apply HI; simpl; auto.
    - intros i. split.
      + intros H. apply in_map_iff in H. destruct H as ([j e] & Ej & H). simpl in Ej. subst j.
        assert (Pi : prop m i = Some e) by (apply (get_iff_in (id_cmp_ok k)); auto; apply (ag_props _ A)).
        destruct (go_noleak _ Go i) as [t Ht]; [congruence|].
        apply in_map_iff. exists (t, e). split.
        * unfold f. simpl. now rewrite Ht.
        * apply edge_items_in; auto. unfold abs_edge. now rewrite Ht.
      + intros H. apply in_map_iff in H. destruct H as ([t e] & Ei & H).
        apply edge_items_in in H; auto. unfold abs_edge in H. unfold f in Ei. simpl in Ei.
        destruct (eid m t) as [j|]; [|discriminate]. subst j.
        apply in_map_iff. exists (i, e). split; auto.
        apply (get_iff_in (id_cmp_ok k)); auto. apply (ag_props _ A). }
  apply Permutation_length in P. now rewrite P, map_length.
Qed.

(** ** Histories are reachable, consuming iterators, errors of difference *)
Lemma reachable_history (l : list (op k NP EP E)) : forall m, reach m -> reach (mem_history mn me l m).
Proof. induction l as [|o l IH]; intros m R; simpl; auto. apply IH. now apply R_op. Qed.

Lemma into_iter_eq o m :
  into_iter_nodes o m = iter_nodes o m /\ into_iter_vertices m = iter_vertices m /\
  into_iter_edges o m = iter_edges o m /\ into_iter_edges_with_props o m = iter_edges_with_props o m /\
  map Ok (vertices m) = map (res_map (E := unit) fst) (iter_vertices m) /\
  iter_nodes o m = (iter_vertices m, iter_edges o m).
Proof.
  assert (V : into_iter_vertices m = iter_vertices m) by now rewrite iter_vertices_eq.
  split; [|split; [|split; [|split; [|split]]]]; auto.
  - unfold into_iter_nodes, iter_nodes. f_equal. exact V.
  - rewrite iter_vertices_eq. unfold vertices, om_iter. rewrite !map_map. reflexivity.
Qed.

Lemma difference_nodes_err (xs : list (I * NP)) : forall (ys : list (result E (I * NP))) rem r e,
  difference_nodes (EP := EP) (map Ok xs) ys rem r = Err e -> exists e', e = SetRight e' /\ In (Err e') ys.
Proof.
  induction xs as [|[a p] xs IH]; intros ys.
  - intros rem r e H. destruct ys as [|[y|e'] ys]; simpl in H; try discriminate.
    inversion H; subst. exists e'. simpl. auto.
  - induction ys as [|[[b q]|e'] ys IHy]; intros rem r e.
    + change (difference_nodes (EP := EP) (E := E) (map Ok ((a, p) :: xs)) [] rem r) with
        (bind_res (drain (F := set_error unit E unit) SetLeft insert_node (map Ok ((a, p) :: xs)) r)
             (fun r => Ok (rem, r))).
      rewrite drain_eq, first_error_ok. discriminate.
    + change (difference_nodes (EP := EP) (E := E) (map Ok ((a, p) :: xs)) (Ok (b, q) :: ys) rem r) with
        (if id_ltb a b
         then difference_nodes (EP := EP) (E := E) (map Ok xs) (Ok (b, q) :: ys) rem (insert_node a p r)
         else if id_ltb b a
         then difference_nodes (EP := EP) (E := E) (map Ok ((a, p) :: xs)) ys (b :: rem) r
         else difference_nodes (EP := EP) (E := E) (map Ok xs) ys (b :: rem) r).
      destruct (id_ltb a b); [|destruct (id_ltb b a)]; intros H.
      * now apply IH in H.
      * apply IHy in H. destruct H as (e' & -> & H). exists e'. simpl. auto.
      * apply IH in H. destruct H as (e' & -> & H). exists e'. simpl. auto.
    + simpl. intros [= <-]. exists e'. auto.
Qed.

Lemma difference_edges_err rem (xs : list (T * EP)) : forall (ys : list (result E (T * EP))) r e,
  difference_edges (NP := NP) rem (map Ok xs) ys r = Err e -> exists e', e = SetRight e' /\ In (Err e') ys.
Proof.
  induction xs as [|[a p] xs IH]; intros ys.
  - intros r e H. destruct ys as [|[y|e'] ys]; simpl in H; try discriminate.
    inversion H; subst. exists e'. simpl. auto.
  - induction ys as [|[[b q]|e'] ys IHy]; intros r e.
    + change (difference_edges (NP := NP) (E := E) rem (map Ok ((a, p) :: xs)) [] r) with
        (drain (F := set_error unit E unit) SetLeft insert_edge (map Ok ((a, p) :: xs)) r).
      rewrite drain_eq, first_error_ok. discriminate.
    + change (difference_edges (NP := NP) (E := E) rem (map Ok ((a, p) :: xs)) (Ok (b, q) :: ys) r) with
        (if tr_ltb a b
         then difference_edges (NP := NP) (E := E) rem (map Ok xs) (Ok (b, q) :: ys)
                (if negb (contains rem (sub a) || contains rem (obj a)) then insert_edge a p r else r)
         else if tr_ltb b a
         then difference_edges (NP := NP) (E := E) rem (map Ok ((a, p) :: xs)) ys r
         else difference_edges (NP := NP) (E := E) rem (map Ok xs) ys r).
      destruct (tr_ltb a b); [|destruct (tr_ltb b a)]; intros H.
      * now apply IH in H.
      * apply IHy in H. destruct H as (e' & -> & H). exists e'. simpl. auto.
      * apply IH in H. destruct H as (e' & -> & H). exists e'. simpl. auto.
    + simpl. intros [= <-]. exists e'. auto.
Qed.

Lemma difference_err gn (s : source k NP EP E) m e :
  difference gn s m = Err e ->
  exists e', e = SetRight e' /\ (In (Err e') (src_nodes s) \/ In (Err e') (src_edges s)).
Proof.
  unfold difference. rewrite into_iter_nodes_eq.
  destruct (difference_nodes (map Ok (node_props m)) (src_nodes s) [] (mem_new gn)) as [x|x] eqn:N.
  - simpl. intros H. apply difference_edges_err in H. destruct H as (e' & -> & H). eauto.
  - simpl. intros [= <-]. apply difference_nodes_err in N. destruct N as (e' & -> & H). eauto.
Qed.

Lemma extend_spec s m g :
  reach m -> shows m g -> drawn_distinct (id_generator (snd (extend s m))) ->
  fst (extend s m) = (match bulk_error s with Some e => Err (RightE e) | None => Ok tt end) /\
  shows (snd (extend s m)) (g_bulk g_put_node g_put_edge s g).
Proof. intros R S D. split; [apply extend_result | now apply shows_extend]. Qed.

Lemma merge_spec s m g :
  reach m -> shows m g -> drawn_distinct (id_generator (snd (merge mn me s m))) ->
  fst (merge mn me s m) = (match bulk_error s with Some e => Err (RightE e) | None => Ok tt end) /\
  shows (snd (merge mn me s m)) (g_bulk (g_merge_node mn) (g_merge_edge me) s g).
Proof. intros R S D. split; [apply merge_result | now apply shows_merge]. Qed.

(** Whatever the generator of the result does, a query lists only selected edges the
    queried store has. *)
Lemma run_eid gn q m t : agree m -> eid (run gn q m) t <> None -> abs_edge m t <> None.
Proof.
  intros A. rewrite run_eq.
  assert (K : forall l r, eid (ins_all l r) t <> None -> eid r t <> None \/ exists e, In (t, e) l).
  { clear. induction l as [|[u e] l IH]; intros r H; simpl in *; auto.
    apply IH in H. destruct H as [H|[x H]]; [|right; exists x; auto].
    rewrite eid_insert_edge in H. destruct (triple_eq_dec t u) as [->|N]; auto.
    right. exists e. auto. }
  assert (N : forall l r, eid (insn_all l r) t = eid r t).
  { clear. induction l as [|[i p] l IH]; intros r; simpl; auto. now rewrite IH. }
  intros H. apply K in H. rewrite N in H. destruct H as [H|[e H]].
  - now contradiction H.
  - apply hits_in in H; auto. destruct H as [_ H]. congruence.
Qed.

Lemma remove_edge_unqueried m t e gn q o :
  reach m -> ~ In (Ok (t, e)) (iter_edges o (run gn q (remove_edge t m))).
Proof.
  intros R H.
  assert (R1 : reach (remove_edge t m)) by (apply (R_op mn me (ORemoveEdge t)), R).
  pose proof (reachable_agree _ _ _ R1) as A1.
  pose proof (reachable_agree _ _ _ (R_run mn me gn q _ R1)) as A2.
  rewrite iter_edges_eq in H. apply in_map_iff in H. destruct H as (x & [= ->] & H).
  apply edge_items_in in H; auto. unfold abs_edge in H.
  assert (E1 : eid (run gn q (remove_edge t m)) t <> None) by (intros F; rewrite F in H; discriminate).
  apply run_eid in E1; auto. apply E1. unfold abs_edge. rewrite eid_remove_edge.
  now destruct (triple_eq_dec t t).
Qed.

End Top.

(** A decidable form of [drawn_distinct] for the examples. *)
Fixpoint distinctb {k} (l : list (Id k)) : bool :=
  match l with [] => true | a :: l' => (negb (existsb (id_eqb a) l') && distinctb l')%bool end.

Lemma distinctb_NoDup {k} (l : list (Id k)) : distinctb l = true -> NoDup l.
Proof.
  induction l as [|a l IH]; simpl; intros H; constructor.
  - apply andb_true_iff in H. destruct H as [H _]. apply negb_true_iff in H.
    intros Hin. assert (existsb (id_eqb a) l = true); [|congruence].
    apply existsb_exists. exists a. split; auto. now apply id_eqb_eq.
  - apply IH. now apply andb_true_iff in H.
Qed.

Lemma drawn_distinct_check {k} (g : gen k) :
  distinctb (map (g_seq g) (seq 0 (g_pos g))) = true -> drawn_distinct g.
Proof.
  intros H i j Hi Hj E. apply distinctb_NoDup in H.
  rewrite NoDup_nth_error in H. apply H.
  - rewrite map_length, seq_length. auto.
  - rewrite !nth_error_map.
    assert (S : forall a, a < g_pos g -> nth_error (seq 0 (g_pos g)) a = Some a).
    { intros a Ha. rewrite (nth_error_nth' _ 0) by (rewrite seq_length; auto). f_equal. now rewrite seq_nth. }
    rewrite !S by auto. simpl. now rewrite E.
Qed.
