(** The RDF store displays the graph over entities. *)
From Coq Require Import Arith NArith List Sorted Lia Bool Permutation.
From Verif Require Import Bytes BytesFacts OMap Core IdType IdTypeFacts Store Mem MemIndex Spec History
  GenSpec ListFacts IdGenFacts MemFacts MemSim MemTop EqFacts Rdf RdfSpec RdfFacts.
Import ListNotations.

(** ** Listings under a renaming of the keys *)
Lemma lists_rename {F F' A B P} (lt : A -> A -> Prop) (h : A -> B) (l : list (result F (A * P))) l' f f'
    (lt' : B -> B -> Prop) :
  (forall x, l = map Ok x -> l' = map (@Ok F' _) (map (fun ap => (h (fst ap), snd ap)) x)) ->
  lists lt l f ->
  (forall a b, f a <> None -> f b <> None -> lt a b -> lt' (h a) (h b)) ->
  (forall b p, f' b = Some p <-> exists a, b = h a /\ f a = Some p) ->
  lists lt' l' f'.
Proof.
  intros Hl (x & -> & S & H) Hlt Hf. exists (map (fun ap => (h (fst ap), snd ap)) x).
  split; [now apply Hl|]. split.
  - assert (Hx : forall a, In a x -> f (fst a) <> None).
    { intros [a p] Ha. apply H in Ha. simpl. congruence. }
    clear - S Hlt Hx. induction S as [|a x S IH Fa]; simpl; constructor.
    + apply IH. intros; apply Hx; simpl; auto.
    + rewrite Forall_forall in *. intros y Hy. apply in_map_iff in Hy. destruct Hy as (z & <- & Hz). simpl.
      apply Hlt; auto; apply Hx; simpl; auto.
  - intros b p. rewrite Hf, in_map_iff. split.
    + intros ([a q] & [= <- <-] & Hi). exists a. split; auto. now apply H.
    + intros (a & -> & Ha). exists (a, p). split; auto. now apply H.
Qed.

Section Top.
Context {S NP EP E : Type} (seqb : S -> S -> bool).
Context (seqb_eq : forall a b, seqb a b = true <-> a = b).
Context (mn : NP -> NP -> NP) (me : EP -> EP -> EP).
Notation I := (Id KUlid).
Notation ent := (entity S).
Notation R := (rdf S NP EP).
Notation rop := (rop S NP EP E).
Notation op := (op KUlid NP EP E).
Notation G := (graph KUlid NP EP).
Notation EG := (egraph S NP EP).
Notation err := (rdf_error S (index_error S I) unit).
Notation l2r r := (left_to_right seqb (name_index r)).
Notation r2l r := (right_to_left id_eqb (name_index r)).
Notation ext := (ext seqb).
Notation inv := (inv seqb).
Notation behind := (behind seqb).
Notation denotes := (denotes seqb).
Implicit Types r : R.

Lemma entity_eqb_eq (a b : ent) : entity_eqb seqb a b = true <-> a = b.
Proof.
  destruct a as [s|i], b as [t|j]; simpl; try (split; discriminate).
  - rewrite seqb_eq. split; congruence.
  - rewrite id_eqb_eq. split; congruence.
Qed.
Lemma entity3_eqb_eq (t u : triple ent) : triple_eqb (entity_eqb seqb) t u = true <-> t = u.
Proof.
  unfold triple_eqb. rewrite !andb_true_iff, !entity_eqb_eq. destruct t, u; simpl.
  split; [intros [[-> ->] ->]; auto | intros [= -> -> ->]; auto].
Qed.
Lemma entity_eqb_spec (a b : ent) : Bool.reflect (a = b) (entity_eqb seqb a b).
Proof. apply iff_reflect. symmetry. apply entity_eqb_eq. Qed.
Lemma entity3_eqb_spec (a b : triple ent) : Bool.reflect (a = b) (triple_eqb (entity_eqb seqb) a b).
Proof. apply iff_reflect. symmetry. apply entity3_eqb_eq. Qed.

(** ** Two views of one graph *)
Section View.
Context (nu : S -> option I) (rho : I -> option S) (one : one_to_one nu rho).
Notation sh := (shown rho).
Notation sh3 := (triple_map (shown rho)).

Lemma shown_inj i j : sh i = sh j -> i = j.
Proof.
  unfold shown. destruct (rho i) as [s|] eqn:Hi; destruct (rho j) as [t|] eqn:Hj; try discriminate.
  - intros [= <-]. apply one in Hi. apply one in Hj. congruence.
  - congruence.
Qed.
Lemma shown3_inj t u : sh3 t = sh3 u -> t = u.
Proof.
  destruct t, u. unfold triple_map. simpl. intros [= A B C]. apply shown_inj in A, B, C. congruence.
Qed.

Definition view (g : G) (eg : EG) : Prop :=
  (forall e p, e_node eg e = Some p <-> exists i, e = sh i /\ g_node g i = Some p) /\
  (forall t p, e_edge eg t = Some p <-> exists u, t = sh3 u /\ g_edge g u = Some p).

Lemma view_node g eg i : view g eg -> e_node eg (sh i) = g_node g i.
Proof.
  intros [V _]. destruct (g_node g i) as [p|] eqn:H.
  - apply V. eauto.
  - destruct (e_node eg (sh i)) as [p|] eqn:K; auto. apply V in K. destruct K as (j & Q & K).
    apply shown_inj in Q. congruence.
Qed.
Lemma view_edge g eg t : view g eg -> e_edge eg (sh3 t) = g_edge g t.
Proof.
  intros [_ V]. destruct (g_edge g t) as [p|] eqn:H.
  - apply V. eauto.
  - destruct (e_edge eg (sh3 t)) as [p|] eqn:K; auto. apply V in K. destruct K as (j & Q & K).
    apply shown3_inj in Q. congruence.
Qed.

Lemma view_empty : view g_empty e_empty.
Proof.
  split; intros a p; simpl; (split; [discriminate | intros (? & _ & ?); discriminate]).
Qed.

Lemma view_put_node g eg i p : view g eg -> view (g_put_node i p g) (e_put_node seqb (sh i) p eg).
Proof.
  intros V. split; [|apply V]. intros e q. simpl. destruct (entity_eqb_spec e (sh i)) as [->|N].
  - split.
    + intros [= <-]. exists i. split; auto. now destruct (id_eq_dec i i).
    + intros (j & Q & H). apply shown_inj in Q. subst j. now destruct (id_eq_dec i i).
  - rewrite (proj1 V). split; intros (j & -> & H); exists j; (split; [auto|]);
      (destruct (id_eq_dec j i); [congruence | auto]).
Qed.

Lemma view_put_edge g eg t p : view g eg -> view (g_put_edge t p g) (e_put_edge seqb (sh3 t) p eg).
Proof.
  intros V. split; [apply V|]. intros u q. simpl. destruct (entity3_eqb_spec u (sh3 t)) as [->|N].
  - split.
    + intros [= <-]. exists t. split; auto. now destruct (triple_eq_dec t t).
    + intros (j & Q & H). apply shown3_inj in Q. subst j. now destruct (triple_eq_dec t t).
  - rewrite (proj2 V). split; intros (j & -> & H); exists j; (split; [auto|]);
      (destruct (triple_eq_dec j t); [congruence | auto]).
Qed.

Lemma view_del_edge g eg t : view g eg -> view (g_del_edge t g) (e_del_edge seqb (sh3 t) eg).
Proof.
  intros V. split; [apply V|]. intros u q. simpl. destruct (entity3_eqb_spec u (sh3 t)) as [->|N].
  - split; [discriminate|]. intros (j & Q & H). apply shown3_inj in Q. subst j.
    now destruct (triple_eq_dec t t).
  - rewrite (proj2 V). split; intros (j & -> & H); exists j; (split; [auto|]);
      (destruct (triple_eq_dec j t); [congruence | auto]).
Qed.

Lemma view_del_node g eg i : view g eg -> view (g_del_node i g) (e_del_node seqb (sh i) eg).
Proof.
  intros V. split.
  - intros e q. simpl. destruct (entity_eqb_spec e (sh i)) as [->|N].
    + split; [discriminate|]. intros (j & Q & H). apply shown_inj in Q. subst j.
      now destruct (id_eq_dec i i).
    + rewrite (proj1 V). split; intros (j & -> & H); exists j; (split; [auto|]);
        (destruct (id_eq_dec j i); [congruence | auto]).
  - intros t q. simpl. destruct (entity_eqb_spec (sub t) (sh i)) as [Hs|Ns];
      [|destruct (entity_eqb_spec (obj t) (sh i)) as [Ho|No]]; simpl.
    + split; [discriminate|]. intros (u & -> & H). simpl in Hs. apply shown_inj in Hs.
      destruct (id_eq_dec (sub u) i); [discriminate|contradiction].
    + split; [discriminate|]. intros (u & -> & H). simpl in Ho. apply shown_inj in Ho.
      destruct (id_eq_dec (sub u) i); [discriminate|]. destruct (id_eq_dec (obj u) i); [discriminate|contradiction].
    + rewrite (proj2 V). split; intros (j & -> & H); exists j; (split; [auto|]); simpl in *;
        (destruct (id_eq_dec (sub j) i); [congruence|]); (destruct (id_eq_dec (obj j) i); [congruence|]); auto.
Qed.

Lemma view_merge_node g eg i p :
  view g eg -> view (g_merge_node mn i p g) (e_merge_node seqb mn (sh i) p eg).
Proof.
  intros V. unfold g_merge_node, e_merge_node. rewrite (view_node g eg i V). now apply view_put_node.
Qed.
Lemma view_merge_edge g eg t p :
  view g eg -> view (g_merge_edge me t p g) (e_merge_edge seqb me (sh3 t) p eg).
Proof.
  intros V. unfold g_merge_edge, e_merge_edge. rewrite (view_edge g eg t V). now apply view_put_edge.
Qed.

(** Every graph over identifiers has a view. *)
Definition canon (e : ent) : option I :=
  match e with
  | EString s => nu s
  | EUlid i => match rho i with Some _ => None | None => Some i end
  end.
Lemma canon_shown e i : canon e = Some i <-> e = sh i.
Proof.
  unfold shown. destruct e as [s|j]; simpl.
  - rewrite (one s i). split; [now intros ->|]. destruct (rho i); congruence.
  - split.
    + destruct (rho j) eqn:H; [discriminate|]. intros [= <-]. now rewrite H.
    + destruct (rho i) eqn:H; [discriminate|]. intros [= ->]. now rewrite H.
Qed.
Definition canon3 (t : triple ent) : option (triple I) :=
  match canon (sub t), canon (pred t), canon (obj t) with
  | Some a, Some b, Some c => Some (Triple a b c)
  | _, _, _ => None
  end.
Lemma canon3_shown t u : canon3 t = Some u <-> t = sh3 u.
Proof.
  destruct t as [a b c], u as [i j k]. unfold canon3, triple_map. simpl.
  split.
  - destruct (canon a) eqn:A; [|discriminate]. destruct (canon b) eqn:B; [|discriminate].
    destruct (canon c) eqn:C; [|discriminate]. apply canon_shown in A, B, C. intros [= -> -> ->]. congruence.
  - intros [= -> -> ->]. rewrite (proj2 (canon_shown _ i) eq_refl), (proj2 (canon_shown _ j) eq_refl),
      (proj2 (canon_shown _ k) eq_refl). reflexivity.
Qed.
Definition lift (g : G) : EG :=
  EGraph (fun e => match canon e with Some i => g_node g i | None => None end)
         (fun t => match canon3 t with Some u => g_edge g u | None => None end).
Lemma view_lift g : view g (lift g).
Proof.
  split; intros e p; simpl.
  - split.
    + destruct (canon e) as [i|] eqn:C; [|discriminate]. apply canon_shown in C. eauto.
    + intros (i & H & Hi). apply canon_shown in H. now rewrite H.
  - split.
    + destruct (canon3 e) as [i|] eqn:C; [|discriminate]. apply canon3_shown in C. eauto.
    + intros (i & H & Hi). apply canon3_shown in H. now rewrite H.
Qed.
Lemma view_equiv g g' eg : g_equiv g g' -> view g eg -> view g' eg.
Proof.
  intros [A B] [V1 V2]. split.
  - intros e p. rewrite V1. split; intros (i & -> & H); exists i; split; auto; rewrite ?A in *; congruence.
  - intros e p. rewrite V2. split; intros (i & -> & H); exists i; split; auto; rewrite ?B in *; congruence.
Qed.
End View.

Lemma behind_lt_irr nu rho : one_to_one nu rho -> forall a : ent, ~ behind_lt rho a a.
Proof. intros O a (i & j & <- & H & L). apply (shown_inj nu rho O) in H. subst. now apply id_lt_irr in L. Qed.
Lemma behind_lt_tr nu rho : one_to_one nu rho ->
  forall a b c : ent, behind_lt rho a b -> behind_lt rho b c -> behind_lt rho a c.
Proof.
  intros O a b c (i & j & <- & <- & L) (j' & l & H & <- & L'). apply (shown_inj nu rho O) in H. subst.
  exists i, l. split; auto. split; auto. eapply id_lt_tr; eauto.
Qed.
Lemma behind_edge_lt_irr nu rho o : one_to_one nu rho -> forall a : triple ent, ~ behind_edge_lt rho o a a.
Proof. intros O a (i & j & <- & H & L). apply (shown3_inj nu rho O) in H. subst. now apply edge_lt_irr in L. Qed.
Lemma behind_edge_lt_tr nu rho o : one_to_one nu rho ->
  forall a b c : triple ent, behind_edge_lt rho o a b -> behind_edge_lt rho o b c -> behind_edge_lt rho o a c.
Proof.
  intros O a b c (i & j & <- & <- & L) (j' & l & H & <- & L'). apply (shown3_inj nu rho O) in H. subst.
  exists i, l. split; auto. split; auto. eapply edge_lt_tr; eauto.
Qed.

(** ** What iteration shows *)
Lemma show_nodes_ok (ix : mem_index S I) (x : list (I * NP)) :
  map (show_node ix) (map Ok x) =
  map (@Ok err _) (map (fun ap => (shown (right_to_left id_eqb ix) (fst ap), snd ap)) x).
Proof. rewrite !map_map. apply map_ext. intros [i p]. reflexivity. Qed.
Lemma show_edges_ok (ix : mem_index S I) (x : list (triple I * EP)) :
  map (show_edge ix) (map Ok x) =
  map (@Ok err _) (map (fun ap => (triple_map (shown (right_to_left id_eqb ix)) (fst ap), snd ap)) x).
Proof. rewrite !map_map. apply map_ext. intros [i p]. reflexivity. Qed.

Lemma rdf_shows_view r g eg :
  one_to_one (l2r r) (r2l r) -> shows (r_graph r) g -> view (r2l r) g eg -> rdf_shows r eg.
Proof.
  intros O [Sn Se] [Vn Ve]. split.
  - eapply lists_rename with (h := shown (r2l r)); [|exact Sn| |].
    + intros x Hx. unfold rdf_iter_vertices. rewrite Hx. apply show_nodes_ok.
    + intros a b _ _ L. exists a, b. auto.
    + exact Vn.
  - intros o. eapply lists_rename with (h := triple_map (shown (r2l r))); [|exact (Se o)| |].
    + intros x Hx. unfold rdf_iter_edges. rewrite Hx. apply show_edges_ok.
    + intros a b _ _ L. exists a, b. auto.
    + exact Ve.
Qed.

(** The displayed graph is unique. *)
Lemma rdf_shows_fun r eg eg' : rdf_shows r eg -> rdf_shows r eg' ->
  (forall e, e_node eg e = e_node eg' e) /\ (forall t, e_edge eg t = e_edge eg' t).
Proof.
  intros [A B] [A' B']. split.
  - eapply lists_fun; eauto.
  - eapply lists_fun; [apply (B SPO) | apply (B' SPO)].
Qed.

(** ** Histories, by name *)
Section ByName.
Context (rf : R) (one : one_to_one (l2r rf) (r2l rf)).
Notation known_in names := (forall s, In s names -> l2r rf s <> None).
Notation view := (view (r2l rf)).

Lemma by_name_behind e : known_in (name_of e) -> by_name (r2l rf) e = shown (r2l rf) (behind rf e).
Proof.
  destruct e as [s|i]; simpl; auto. intros H. destruct (l2r rf s) as [i|] eqn:L; [|exfalso; apply (H s); auto].
  unfold shown. apply one in L. now rewrite L.
Qed.
Lemma by_name3_behind t : known_in (names_of t) ->
  triple_map (by_name (r2l rf)) t = triple_map (shown (r2l rf)) (triple_map (behind rf) t).
Proof.
  intros H. unfold triple_map. simpl. f_equal; apply by_name_behind; intros s Hs; apply H;
    unfold names_of; rewrite !in_app_iff; auto.
Qed.

Lemma view_fold {A} (names : A -> list S) (o : A -> op) (fe : A -> EG -> EG) (l : list A) :
  (forall a g eg, In a l -> known_in (names a) -> view g eg -> view (spec_apply mn me (o a) g) (fe a eg)) ->
  known_in (flat_map names l) ->
  forall g eg, view g eg ->
    view (spec_history mn me (map o l) g) (fold_left (fun eg a => fe a eg) l eg).
Proof.
  intros H. induction l as [|a l IH]; intros K g eg V; simpl; auto.
  apply IH.
  - intros b g' eg' Hb. apply H. simpl. auto.
  - intros s Hs. apply K. simpl. apply in_app_iff. auto.
  - apply H; simpl; auto. intros s Hs. apply K. simpl. apply in_app_iff. auto.
Qed.

Lemma spec_history_app (l l' : list op) (g : G) :
  spec_history mn me (l ++ l') g = spec_history mn me l' (spec_history mn me l g).
Proof. apply fold_left_app. Qed.

Lemma view_apply known o g eg :
  known_in known -> known_in (given o) -> view g eg ->
  view (spec_history mn me (id_ops seqb (behind rf) known o : list op) g)
       (e_apply seqb mn me (by_name (r2l rf)) known o eg).
Proof.
  assert (U : forall names, known_in known -> first_unknown seqb known names = None -> known_in names).
  { intros names K F s Hs. apply K. unfold first_unknown in F. pose proof (find_none _ _ F s Hs) as Q.
    simpl in Q. apply negb_false_iff in Q. apply existsb_exists in Q. destruct Q as (s' & Hs' & Q).
    apply seqb_eq in Q. now subst. }
  intros K Kg V. destruct o as [e p|t p|e|t|e p|t p|s|s]; simpl in *.
  - rewrite by_name_behind by auto. now apply (view_put_node _ _ one).
  - rewrite by_name3_behind by auto. now apply (view_put_edge _ _ one).
  - destruct (first_unknown seqb known (name_of e)) eqn:F; auto. simpl.
    rewrite by_name_behind by eauto. now apply (view_del_node _ _ one).
  - destruct (first_unknown seqb known (names_of t)) eqn:F; auto. simpl.
    rewrite by_name3_behind by eauto. now apply (view_del_edge _ _ one).
  - rewrite by_name_behind by auto. now apply (view_merge_node _ _ one).
  - rewrite by_name3_behind by auto. now apply (view_merge_edge _ _ one).
  - rewrite spec_history_app. unfold e_bulk.
    apply (view_fold (fun te => names_of (fst te))
             (fun te => OInsertEdge (triple_map (behind rf) (fst te)) (snd te))
             (fun te => e_put_edge seqb (triple_map (by_name (r2l rf)) (fst te)) (snd te))).
    + intros [t p] g' eg' _ Kt V'. simpl in *. rewrite by_name3_behind by auto. now apply (view_put_edge _ _ one).
    + intros n Hn. apply Kg, in_app_iff. auto.
    + apply (view_fold (fun te => name_of (fst te))
               (fun te => OInsertNode (behind rf (fst te)) (snd te))
               (fun te => e_put_node seqb (by_name (r2l rf) (fst te)) (snd te))); auto.
      * intros [t p] g' eg' _ Kt V'. simpl in *. rewrite by_name_behind by auto. now apply (view_put_node _ _ one).
      * intros n Hn. apply Kg, in_app_iff. auto.
  - rewrite spec_history_app. unfold e_bulk.
    apply (view_fold (fun te => names_of (fst te))
             (fun te => OMergeEdge (triple_map (behind rf) (fst te)) (snd te))
             (fun te => e_merge_edge seqb me (triple_map (by_name (r2l rf)) (fst te)) (snd te))).
    + intros [t p] g' eg' _ Kt V'. simpl in *. rewrite by_name3_behind by auto. now apply (view_merge_edge _ _ one).
    + intros n Hn. apply Kg, in_app_iff. auto.
    + apply (view_fold (fun te => name_of (fst te))
               (fun te => OMergeNode (behind rf (fst te)) (snd te))
               (fun te => e_merge_node seqb mn (by_name (r2l rf) (fst te)) (snd te))); auto.
      * intros [t p] g' eg' _ Kt V'. simpl in *. rewrite by_name_behind by auto. now apply (view_merge_node _ _ one).
      * intros n Hn. apply Kg, in_app_iff. auto.
Qed.

Lemma view_history l : forall known g eg,
  known_in known -> known_in (all_given (E := E) l) -> view g eg ->
  view (spec_history mn me (history_ops seqb (behind rf) known l : list op) g)
       (snd (e_history seqb mn me (by_name (r2l rf)) known l eg)).
Proof.
  induction l as [|o l IH]; intros known g eg K Kl V; simpl; auto.
  rewrite spec_history_app.
  specialize (IH (known ++ given o) (spec_history mn me (id_ops seqb (behind rf) known o) g)
                 (e_apply seqb mn me (by_name (r2l rf)) known o eg)).
  destruct (e_history seqb mn me _ (known ++ given o) l _) as [xs eg']. simpl in *. apply IH.
  - intros s Hs. apply in_app_iff in Hs. destruct Hs; auto. apply Kl, in_app_iff. auto.
  - intros s Hs. apply Kl, in_app_iff. auto.
  - apply view_apply; auto. intros s Hs. apply Kl, in_app_iff. auto.
Qed.
End ByName.

Lemma e_history_answers c l : forall known g,
  fst (e_history (E := E) seqb mn me c known l g) = answers_of seqb known l.
Proof.
  induction l as [|o l IH]; intros known g; simpl; auto.
  specialize (IH (known ++ given o) (e_apply seqb mn me c known o g)).
  destruct (e_history seqb mn me c (known ++ given o) l _) as [xs eg]. simpl in *. congruence.
Qed.

(** ** The theorems about histories *)
Notation history l g u := (rdf_history (E := E) seqb mn me l (rdf_new g u)).
Lemma index_error_in_iff (xs : list (result (lr_error err E) unit)) : index_error_in xs <-> Exists name_error_lr xs.
Proof.
  unfold index_error_in, name_error_lr. rewrite Exists_exists. split.
  - intros [y H]. eauto.
  - intros (x & H & y & ->). eauto.
Qed.

Lemma drawn_new g u : drawn (rdf_new (S := S) (NP := NP) (EP := EP) g u).
Proof. intros i s H. discriminate. Qed.

(** Pairwise distinct Ulids: no error of the index. *)
Lemma top_no_index_error l g u :
  drawn_distinct (r_ulids (snd (history l g u))) -> ~ index_error_in (fst (history l g u)).
Proof.
  intros D. destruct (history l g u) as [xs r] eqn:H. simpl in *.
  destruct (did_history seqb seqb_eq mn me l [] _ _ _ H) as (_ & _ & Dr & _).
  rewrite index_error_in_iff. apply Dr; auto. apply drawn_new.
Qed.

Lemma top_rdf_history l g u xs r :
  history l g u = (xs, r) -> ~ index_error_in xs -> drawn_distinct (id_generator (r_graph r)) ->
  one_to_one (l2r r) (r2l r) /\
  (forall s, (exists i, l2r r s = Some i) <-> In s (flat_map given l)) /\
  xs = fst (e_history seqb mn me (by_name (r2l r)) [] l e_empty) /\
  rdf_shows r (snd (e_history seqb mn me (by_name (r2l r)) [] l e_empty)).
Proof.
  intros H N D. rewrite index_error_in_iff in N.
  destruct (did_history seqb seqb_eq mn me l [] _ _ _ H) as (_ & _ & _ & V).
  destruct (V (inv_new seqb g u) N) as (Ex & [V1 V2] & Gr). simpl in V2. split; auto.
  split; [|split].
  - intros s. rewrite <- V2. destruct (l2r r s); split; try congruence; eauto. intros [i Hi]. discriminate.
  - now rewrite e_history_answers.
  - rewrite (Gr r (ext_refl seqb r)) in D. simpl in D.
    apply rdf_shows_view with (g := spec_history mn me (history_ops seqb (behind r) [] l) g_empty); auto.
    + rewrite (Gr r (ext_refl seqb r)). simpl. now apply top_history.
    + apply view_history; [exact V1 | intros s [] | intros s Hs; now apply V2 | apply view_empty].
Qed.

Lemma rdf_history_app l l' r :
  rdf_history (E := E) seqb mn me (l ++ l') r =
  (fst (rdf_history seqb mn me l r) ++ fst (rdf_history seqb mn me l' (snd (rdf_history seqb mn me l r))),
   snd (rdf_history seqb mn me l' (snd (rdf_history seqb mn me l r)))).
Proof.
  revert r. induction l as [|o l IH]; intros r; simpl.
  - now destruct (rdf_history seqb mn me l' r).
  - destruct (rdf_apply seqb mn me o r) as [x r1]. rewrite IH.
    now destruct (rdf_history seqb mn me l r1).
Qed.

(** A name never changes its identifier: for all histories, whatever the Ulids. *)
Lemma top_rdf_stable (l : list rop) r :
  (forall s i, l2r r s = Some i -> l2r (snd (rdf_history seqb mn me l r)) s = Some i) /\
  (forall i s, r2l r i = Some s -> r2l (snd (rdf_history seqb mn me l r)) i = Some s).
Proof.
  destruct (rdf_history seqb mn me l r) as [xs r'] eqn:H.
  destruct (did_history seqb seqb_eq mn me l [] _ _ _ H) as (_ & X & _). exact X.
Qed.

(** ** Entities given by name only *)
Lemma e_apply_ext c c' known o (g : EG) :
  (forall e, In e (entities_of o) -> c e = c' e) ->
  e_apply (E := E) seqb mn me c known o g = e_apply seqb mn me c' known o g.
Proof.
  assert (T : forall t, (forall e, In e (ends t) -> c e = c' e) -> triple_map c t = triple_map c' t).
  { intros t H. unfold triple_map. f_equal; apply H; simpl; auto. }
  assert (F : forall A (l : list A) (f f' : EG -> A -> EG), (forall a g, In a l -> f g a = f' g a) ->
            forall g, fold_left f l g = fold_left f' l g).
  { intros A. induction l as [|a l IH]; intros f f' H g'; simpl; auto.
    rewrite H by (simpl; auto). apply IH. intros; apply H; simpl; auto. }
  intros H. destruct o as [e p|t p|e|t|e p|t p|s|s]; simpl in *.
  - now rewrite H by auto.
  - now rewrite T by auto.
  - now rewrite H by auto.
  - now rewrite T by auto.
  - now rewrite H by auto.
  - now rewrite T by auto.
  - unfold e_bulk.
    rewrite (F _ (used_nodes s) _ (fun g ip => e_put_node seqb (c' (fst ip)) (snd ip) g)).
    + apply F. intros te g' Ht. rewrite T; auto. intros e He. apply H, in_app_iff. right.
      apply in_flat_map. eauto.
    + intros te g' Ht. rewrite H; auto. apply in_app_iff. left. now apply (in_map fst).
  - unfold e_bulk.
    rewrite (F _ (used_nodes s) _ (fun g ip => e_merge_node seqb mn (c' (fst ip)) (snd ip) g)).
    + apply F. intros te g' Ht. rewrite T; auto. intros e He. apply H, in_app_iff. right.
      apply in_flat_map. eauto.
    + intros te g' Ht. rewrite H; auto. apply in_app_iff. left. now apply (in_map fst).
Qed.

Lemma e_history_ext c c' l : forall known (g : EG),
  (forall e, In e (flat_map entities_of l) -> c e = c' e) ->
  e_history (E := E) seqb mn me c known l g = e_history seqb mn me c' known l g.
Proof.
  induction l as [|o l IH]; intros known g H; simpl; auto.
  rewrite (e_apply_ext c c') by (intros e He; apply H; simpl; apply in_app_iff; auto).
  rewrite IH by (intros e He; apply H; simpl; apply in_app_iff; auto). reflexivity.
Qed.

Lemma top_rdf_plain l g u xs r :
  history l g u = (xs, r) -> drawn_distinct (r_ulids r) -> drawn_distinct (id_generator (r_graph r)) ->
  (forall i n, In (EUlid i) (flat_map entities_of l) -> n < g_pos (r_ulids r) -> g_seq (r_ulids r) n <> i) ->
  xs = fst (e_history seqb mn me (fun e => e) [] l e_empty) /\
  rdf_shows r (snd (e_history seqb mn me (fun e => e) [] l e_empty)).
Proof.
  intros H D Dg Fr.
  assert (N : ~ index_error_in xs).
  { pose proof (top_no_index_error l g u) as N. rewrite H in N. now apply N. }
  destruct (top_rdf_history l g u xs r H N Dg) as (O & K & A & Sh).
  rewrite (e_history_ext _ (fun e => e)) in A, Sh; auto.
  all: intros [s|i] He; simpl; auto.
  all: destruct (did_history seqb seqb_eq mn me l [] _ _ _ H) as (_ & _ & Dr & _).
  all: destruct (Dr (drawn_new g u) D) as [_ Dr'].
  all: unfold shown; destruct (r2l r i) as [s|] eqn:Q; auto.
  all: destruct (Dr' _ _ Q) as (n & Hn & En); exfalso; now apply (Fr i n).
Qed.

End Top.
