(** Queries, removals and comparison of RDF stores. *)
From Coq Require Import Arith NArith List Sorted Lia Bool Permutation.
From Verif Require Import Bytes BytesFacts OMap Core IdType IdTypeFacts Store Mem MemIndex Spec History
  GenSpec ListFacts IdGenFacts MemFacts MemSim MemTop EqFacts Rdf RdfSpec RdfFacts RdfTop.
Import ListNotations.

(** ** Queries under a renaming *)
Section Rename.
Context {A B F : Type}.

Lemma collect_all (f : A -> result F B) h l :
  (forall a, In a l -> f a = Ok (h a)) -> collect_result f l = Ok (map h l).
Proof.
  induction l as [|a l IH]; simpl; intros H; auto. rewrite H by auto. rewrite IH by auto. reflexivity.
Qed.

Lemma collect_fail {C} (f : A -> result F C) l x : collect_result f l = Err x -> exists a, In a l /\ f a = Err x.
Proof.
  induction l as [|a l IH]; simpl; [discriminate|]. destruct (f a) eqn:Q.
  - destruct (collect_result f l); [discriminate|]. intros [= ->]. destruct IH as (b & ? & ?); eauto.
  - intros [= ->]. eauto.
Qed.

Lemma collect_each {C} (f : A -> result F C) l : forall l', collect_result f l = Ok l' ->
  forall a, In a l -> exists b, f a = Ok b.
Proof.
  induction l as [|a l IH]; simpl; intros l' H b Hb; [contradiction|]. destruct (f a) eqn:Q; [|discriminate].
  destruct (collect_result f l); [|discriminate]. destruct Hb as [<-|Hb]; eauto.
Qed.
End Rename.

Lemma query_try_each {A B F} (f : A -> result F B) q q' :
  query_try_map f q = Ok q' -> forall a, In a (mentioned q) -> exists b, f a = Ok b.
Proof.
  assert (P2 : forall (l : list (A * A)) l', collect_result (try_pair f) l = Ok l' ->
            forall a, In a (flat_map (fun ab => [fst ab; snd ab]) l) -> exists b, f a = Ok b).
  { intros l l' H a Ha. apply in_flat_map in Ha. destruct Ha as ([x y] & Hi & Ha).
    destruct (collect_each _ _ _ H _ Hi) as [b Hb]. unfold try_pair in Hb. simpl in *.
    destruct (f x) eqn:Qx; [|discriminate]. destruct (f y) eqn:Qy; [|discriminate].
    destruct Ha as [<-|[<-|[]]]; eauto. }
  assert (R : forall C (c : list C -> query B) (y : result F (list C)), res_map c y = Ok q' -> exists l', y = Ok l').
  { intros C c y. destruct y; simpl; [eauto | discriminate]. }
  destruct q as [l|l|l|l|l|l|l|l]; simpl; intros H; apply R in H; destruct H as [l' H]; eauto using collect_each.
  intros a Ha. apply in_flat_map in Ha. destruct Ha as ([[x y] z] & Hi & Ha).
  destruct (collect_each _ _ _ H _ Hi) as [b Hb]. simpl in *.
  destruct (f x) eqn:Qx; [|discriminate]. destruct (f y) eqn:Qy; [|discriminate].
  destruct (f z) eqn:Qz; [|discriminate]. destruct Ha as [<-|[<-|[<-|[]]]]; eauto.
Qed.

Lemma query_try_all {A B F} (f : A -> result F B) h q :
  (forall a, In a (mentioned q) -> f a = Ok (h a)) -> query_try_map f q = Ok (query_map h q).
Proof.
  destruct q as [l|l|l|l|l|l|l|l]; simpl; intros H; try (now rewrite (collect_all f h)).
  - rewrite (collect_all (try_triple f) (fun t => let '(s, p, o) := t in (h s, h p, h o))); auto.
    intros [[s p] o] Hi. simpl.
    rewrite (H s), (H p), (H o) by (apply in_flat_map; exists (s, p, o); simpl; auto). reflexivity.
  - rewrite (collect_all (try_pair f) (fun ab => let (a, b) := ab in (h a, h b))); auto.
    intros [a b] Hi. unfold try_pair. simpl.
    rewrite (H a), (H b) by (apply in_flat_map; exists (a, b); simpl; auto). reflexivity.
  - rewrite (collect_all (try_pair f) (fun ab => let (a, b) := ab in (h a, h b))); auto.
    intros [a b] Hi. unfold try_pair. simpl.
    rewrite (H a), (H b) by (apply in_flat_map; exists (a, b); simpl; auto). reflexivity.
  - rewrite (collect_all (try_pair f) (fun ab => let (a, b) := ab in (h a, h b))); auto.
    intros [a b] Hi. unfold try_pair. simpl.
    rewrite (H a), (H b) by (apply in_flat_map; exists (a, b); simpl; auto). reflexivity.
Qed.

Lemma query_try_fail {A B F} (f : A -> result F B) q x :
  query_try_map f q = Err x -> exists a, In a (mentioned q) /\ f a = Err x.
Proof.
  assert (P2 : forall l : list (A * A), collect_result (try_pair f) l = Err x ->
            exists a, In a (flat_map (fun ab => [fst ab; snd ab]) l) /\ f a = Err x).
  { intros l H. apply collect_fail in H. destruct H as ([a b] & Hi & H). unfold try_pair in H. simpl in H.
    destruct (f a) eqn:Qa; [destruct (f b) eqn:Qb; [discriminate|]|]; inversion H; subst.
    - exists b. split; auto. apply in_flat_map. exists (a, b). simpl. auto.
    - exists a. split; auto. apply in_flat_map. exists (a, b). simpl. auto. }
  assert (R : forall C (c : list C -> query B) y, res_map c y = Err x -> y = Err x).
  { intros C c y. destruct y; simpl; congruence. }
  destruct q as [l|l|l|l|l|l|l|l]; simpl; intros H; apply R in H; try (now apply collect_fail); auto.
  apply collect_fail in H. destruct H as ([[s p] o] & Hi & H). simpl in H.
  destruct (f s) eqn:Qs; [destruct (f p) eqn:Qp; [destruct (f o) eqn:Qo; [discriminate|]|]|]; inversion H; subst.
  - exists o. split; auto. apply in_flat_map. exists (s, p, o). simpl. auto.
  - exists p. split; auto. apply in_flat_map. exists (s, p, o). simpl. auto.
  - exists s. split; auto. apply in_flat_map. exists (s, p, o). simpl. auto.
Qed.

Lemma query_map_map {A B C} (f : A -> B) (g : B -> C) q : query_map g (query_map f q) = query_map (fun a => g (f a)) q.
Proof.
  destruct q; simpl; rewrite map_map; f_equal; apply map_ext; intros; auto.
  - now destruct a as [[? ?] ?].
  - now destruct a.
  - now destruct a.
  - now destruct a.
Qed.

Lemma query_map_ext {A B} (f g : A -> B) q :
  (forall a, In a (mentioned q) -> f a = g a) -> query_map f q = query_map g q.
Proof.
  destruct q; simpl; intros H; f_equal; apply map_ext_in; auto.
  - intros [[s p] o] Hi. rewrite (H s), (H p), (H o); auto; apply in_flat_map; exists (s, p, o); simpl; auto.
  - intros [a b] Hi. rewrite (H a), (H b); auto; apply in_flat_map; exists (a, b); simpl; auto.
  - intros [a b] Hi. rewrite (H a), (H b); auto; apply in_flat_map; exists (a, b); simpl; auto.
  - intros [a b] Hi. rewrite (H a), (H b); auto; apply in_flat_map; exists (a, b); simpl; auto.
Qed.

Section Inj.
Context {A B : Type} (h : A -> B) (inj : forall a b, h a = h b -> a = b).

Lemma in_map_inj {X Y} (f : X -> Y) (fi : forall a b, f a = f b -> a = b) l a : In (f a) (map f l) <-> In a l.
Proof.
  rewrite in_map_iff. split; [intros (b & Q & H); apply fi in Q; congruence | eauto].
Qed.

Lemma selects_rename q t : selects (query_map h q) (triple_map h t) <-> selects q t.
Proof.
  destruct t as [s p o], q; simpl; try tauto; try (now apply in_map_inj).
  - apply (in_map_inj (fun t : A * A * A => let '(s, p, o) := t in (h s, h p, h o))) with (a := (s, p, o)).
    intros [[a b] c] [[a' b'] c'] [= X Y Z]. apply inj in X, Y, Z. congruence.
  - apply (in_map_inj (fun ab : A * A => let (a, b) := ab in (h a, h b))) with (a := (p, o)).
    intros [a b] [a' b'] [= X Y]. apply inj in X, Y. congruence.
  - apply (in_map_inj (fun ab : A * A => let (a, b) := ab in (h a, h b))) with (a := (s, o)).
    intros [a b] [a' b'] [= X Y]. apply inj in X, Y. congruence.
  - apply (in_map_inj (fun ab : A * A => let (a, b) := ab in (h a, h b))) with (a := (s, p)).
    intros [a b] [a' b'] [= X Y]. apply inj in X, Y. congruence.
Qed.

Lemma selects_node_rename q n : selects_node (query_map h q) (h n) <-> selects_node q n.
Proof. destruct q; simpl; try tauto. now apply in_map_inj. Qed.
End Inj.

Section Query.
Context {S NP EP E : Type} (seqb : S -> S -> bool).
Context (seqb_eq : forall a b, seqb a b = true <-> a = b).
Context (mn : NP -> NP -> NP) (me : EP -> EP -> EP).
Notation I := (Id KUlid).
Notation ent := (entity S).
Notation R := (rdf S NP EP).
Notation M := (mem KUlid NP EP).
Notation G := (graph KUlid NP EP).
Notation EG := (egraph S NP EP).
Notation index := (mem_index S I).
Notation err := (rdf_error S (index_error S I) unit).
Notation l2r ix := (left_to_right seqb ix).
Notation r2l ix := (right_to_left id_eqb ix).
Notation reach := (rdf_reachable E seqb mn me).
Implicit Types r : R.

(** ** The index of a query result *)
Definition ids3 (t : triple I) : list I := [sub t; pred t; obj t].

Section Names.
Context (nu : S -> option I) (rho : I -> option S) (one : one_to_one nu rho).

Fixpoint names_into (ids : list I) (new : index) : result (index_error S I) index :=
  match ids with
  | [] => Ok new
  | id :: ids' =>
      match rho id with
      | None => names_into ids' new
      | Some s =>
          match index_set seqb id_eqb s id new with
          | (Err e, _) => Err e
          | (Ok _, new) => names_into ids' new
          end
      end
  end.

Definition part (new : index) (done : list S) : Prop :=
  (forall s i, l2r new s = Some i <-> In s done /\ nu s = Some i) /\
  (forall i s, r2l new i = Some s <-> In s done /\ rho i = Some s).

Lemma part_new : part index_new [].
Proof. split; intros a b; (split; [discriminate | intros [[] _]]). Qed.

Lemma part_one new done : part new done -> one_to_one (l2r new) (r2l new).
Proof. intros [A B] s i. rewrite A, B. now rewrite (one s i). Qed.

Lemma names_into_spec ids : forall new done, part new done -> NoDup done ->
  match names_into ids new with
  | Ok new' => NoDup (done ++ filter_map rho ids) /\ part new' (done ++ filter_map rho ids)
  | Err x => ~ NoDup (done ++ filter_map rho ids) /\
      exists s i, x = DuplicateRight s i i /\ rho i = Some s
  end.
Proof.
  induction ids as [|id ids IH]; intros new done P N; simpl.
  - rewrite app_nil_r. auto.
  - destruct (rho id) as [s|] eqn:Q; [|now apply IH].
    pose proof (proj2 (one s id) Q) as Qs.
    pose proof (set_spec seqb id_eqb s id new) as Sp. destruct (index_set seqb id_eqb s id new) as [x new1]. simpl in Sp.
    destruct x as [[]|[l1 r1 r2|r1 l1 l2]].
    + destruct Sp as (P1 & P2 & P3 & P4).
      assert (Ns : ~ In s done).
      { intros H. assert (l2r new s = Some id) by (apply P; auto). congruence. }
      assert (P' : part new1 (done ++ [s])).
      { split.
        - intros s' i. rewrite P3, in_app_iff. simpl. destruct (seqb s' s) eqn:Z.
          + apply seqb_eq in Z. subst s'. rewrite Qs. split; [intros [= <-]; auto | tauto].
          + rewrite (proj1 P). split; [tauto|]. intros [[H|[->|[]]] K]; auto.
            rewrite (proj2 (seqb_eq s' s') eq_refl) in Z. discriminate.
        - intros i s'. rewrite P4, in_app_iff. simpl. destruct (id_eqb i id) eqn:Z.
          + apply id_eqb_eq in Z. subst i. rewrite Q. split; [intros [= <-]; auto | tauto].
          + rewrite (proj2 P). split; [tauto|]. intros [[H|[->|[]]] K]; auto.
            apply one in K. rewrite Qs in K. inversion K; subst.
            rewrite (proj2 (id_eqb_eq i i) eq_refl) in Z. discriminate. }
      assert (N' : NoDup (done ++ [s])).
      { apply (Permutation_NoDup (Permutation_cons_append done s)). now constructor. }
      specialize (IH new1 (done ++ [s]) P' N'). rewrite <- !app_assoc in IH. exact IH.
    + destruct Sp as (-> & -> & P1 & _). apply P in P1. destruct P1 as [Hd P1]. split.
      * intros D. apply NoDup_remove_2 in D. apply D, in_app_iff. auto.
      * exists s, id. split; auto. f_equal. congruence.
    + destruct Sp as (-> & -> & P1 & P2 & _). exfalso. apply P in P2. destruct P2 as [Hd P2].
      assert (l2 = s) by congruence. subst. assert (l2r new s = Some id) by (apply P; auto). congruence.
Qed.

Lemma names_into_app a b new :
  names_into (a ++ b) new = match names_into a new with Ok new' => names_into b new' | Err x => Err x end.
Proof.
  revert new. induction a as [|id a IH]; intros new; simpl; auto.
  destruct (rho id); auto. destruct (index_set seqb id_eqb s id new) as [[[]|x] new1]; auto.
Qed.

End Names.

Definition in_result {F A} (x : result (index_error S I) A) : result (lr_error F err) A :=
  match x with Ok a => Ok a | Err e => Err (RightE (NameIndexStorageError e)) end.

Lemma set_names_into ix ids : forall new, set_names seqb ix ids new = in_result (names_into (r2l ix) ids new).
Proof.
  induction ids as [|id ids IH]; intros new; simpl; auto. unfold lookup_id. destruct (r2l ix id) as [s|]; auto.
  destruct (index_set seqb id_eqb s id new) as [[[]|x] new1]; auto.
Qed.

Lemma set_names_spec ix (one : one_to_one (l2r ix) (r2l ix)) ids : forall new done, part (l2r ix) (r2l ix) new done -> NoDup done ->
  match set_names seqb ix ids new with
  | Ok new' => NoDup (done ++ filter_map (r2l ix) ids) /\ part (l2r ix) (r2l ix) new' (done ++ filter_map (r2l ix) ids)
  | Err x => ~ NoDup (done ++ filter_map (r2l ix) ids) /\
      exists s i, x = RightE (NameIndexStorageError (DuplicateRight s i i)) /\ r2l ix i = Some s
  end.
Proof.
  intros new done P N. rewrite set_names_into. pose proof (names_into_spec _ _ one ids new done P N) as H.
  destruct (names_into (r2l ix) ids new) as [new'|x]; simpl; auto. destruct H as (H & s & i & -> & Hi). eauto 6.
Qed.

Lemma set_names_app ix a b new :
  set_names seqb ix (a ++ b) new =
  match set_names seqb ix a new with Ok new' => set_names seqb ix b new' | Err x => Err x end.
Proof. rewrite !set_names_into, names_into_app. destruct (names_into (r2l ix) a new); simpl; auto. now rewrite set_names_into. Qed.

Lemma set_edge_names_ok ix items new :
  set_edge_names seqb ix (map Ok items) new = set_names seqb ix (flat_map (fun te : triple I * EP => ids3 (fst te)) items) new.
Proof.
  revert new. induction items as [|[t p] items IH]; intros new; cbn [map set_edge_names flat_map fst]; auto.
  rewrite set_names_app. unfold ids3 at 1. destruct (set_names seqb ix [sub t; pred t; obj t] new); auto.
Qed.

(** ** Reachable stores *)
Lemma reach_inv r : reach r -> one_to_one (l2r (name_index r)) (r2l (name_index r)) /\
  reachable E mn me (r_graph r).
Proof.
  enough (H : reach r -> (exists known, inv seqb known r) /\ reachable E mn me (r_graph r)).
  { intros K. destruct (H K) as [[known V] Re]. split; auto. apply V. }
  induction 1 as [g u|o r x r' _ IH H N|g u q r r' _ IH H].
  - split; [exists []; apply inv_new | apply R_new].
  - destruct IH as [[known V] Re]. destruct (did_apply seqb seqb_eq mn me known _ _ _ _ H) as (_ & _ & _ & K).
    destruct (K V) as (_ & V' & Gr); [intros [y Hy]; now apply (N y)|].
    split; [eauto|]. rewrite (Gr r' (ext_refl seqb r')). now apply reachable_history.
  - destruct IH as [[known V] Re]. destruct V as [one _]. unfold rdf_run in H.
    destruct (query_try_map _ q) as [q'|] eqn:Q; [|discriminate].
    pose proof (R_run (E := E) mn me g q' _ Re) as Rr.
    destruct (top_orders mn me (run g q' (r_graph r)) Rr) as [f Le].
    destruct (Le SPO) as (items & Hi & _ & _). rewrite Hi in H.
    destruct (set_names seqb (name_index r) (vertices (run g q' (r_graph r))) index_new) as [n1|] eqn:S1; [|discriminate].
    rewrite set_edge_names_ok in H.
    destruct (set_names seqb (name_index r) (flat_map _ items) n1) as [n2|] eqn:S2; [|discriminate].
    inversion H; subst r'. simpl. split; auto.
    pose proof (set_names_spec _ one (vertices (run g q' (r_graph r))) _ _ (part_new _ _) (NoDup_nil S)) as P1.
    rewrite S1 in P1. destruct P1 as [N1 P1].
    pose proof (set_names_spec _ one (flat_map (fun te : triple I * EP => ids3 (fst te)) items) _ _ P1 N1) as P2.
    rewrite S2 in P2. destruct P2 as [N2 P2].
    eexists. split.
    + simpl. eapply part_one; eauto.
    + intros s. simpl. split.
      * intros Hs. destruct (l2r n2 s) as [i|] eqn:L; [|congruence]. apply P2 in L. exact (proj1 L).
      * intros Hs. rewrite app_nil_l, <- ?app_assoc in *.
        assert (K : exists i, r2l (name_index r) i = Some s).
        { apply in_app_iff in Hs. destruct Hs as [Hs|Hs]; apply filter_map_in in Hs; destruct Hs as (i & _ & Hi'); eauto. }
        destruct K as [i K]. apply one in K. assert (l2r n2 s = Some i) by (apply P2; auto). congruence.
Qed.

Lemma reach_view r eg g : reach r -> rdf_shows r eg -> shows (r_graph r) g -> view (r2l (name_index r)) g eg.
Proof.
  intros Re Sh Sg. destruct (reach_inv r Re) as [one _].
  pose proof (view_lift _ _ one g) as V.
  pose proof (rdf_shows_view seqb r g _ one Sg V) as Sh'.
  destruct (rdf_shows_fun r _ _ Sh Sh') as [A B]. split; intros; [rewrite A; apply V | rewrite B; apply V].
Qed.

Lemma reach_shows r : reach r -> exists eg, rdf_shows r eg.
Proof.
  intros Re. destruct (reach_inv r Re) as [one Rg]. destruct (top_shows mn me _ Rg) as [g Sg].
  eexists. eapply rdf_shows_view; [exact one | exact Sg | apply (view_lift _ _ one)].
Qed.

(** ** run *)
Lemma name_of_shown rho i : name_of (shown (S := S) rho i) = match rho i with Some s => [s] | None => [] end.
Proof. unfold shown. now destruct (rho i). Qed.

Lemma names_shown rho t : names_of (triple_map (shown (S := S) rho) t) = filter_map rho (ids3 t).
Proof.
  unfold names_of, ids3. simpl. rewrite !name_of_shown.
  destruct (rho (sub t)), (rho (pred t)), (rho (obj t)); reflexivity.
Qed.

Lemma filter_map_app {A B} (f : A -> option B) l l' : filter_map f (l ++ l') = filter_map f l ++ filter_map f l'.
Proof. induction l as [|a l IH]; simpl; auto. destruct (f a); simpl; now rewrite IH. Qed.

Lemma filter_map_flat {A B C} (f : B -> option C) (g : A -> list B) l :
  filter_map f (flat_map g l) = flat_map (fun a => filter_map f (g a)) l.
Proof. induction l; simpl; auto. now rewrite filter_map_app, IHl. Qed.

Lemma filter_map_nodup {A B} (f : A -> option B) l :
  NoDup l -> (forall a b c, f a = Some c -> f b = Some c -> a = b) -> NoDup (filter_map f l).
Proof.
  intros N H. induction N as [|a l Na N IH]; simpl; [constructor|]. destruct (f a) as [c|] eqn:Q; auto.
  constructor; auto. intros K. apply filter_map_in in K. destruct K as (b & Hb & K).
  now rewrite (H _ _ _ Q K) in Na.
Qed.

(** *** What becomes of the graph that a query has selected *)
Section Result.
Context (nu : S -> option I) (rho : I -> option S) (one : one_to_one nu rho).
Context (eg : EG) (q : query ent) (m' : M) (gq : G) (Sq : shows m' gq).
Notation q' := (query_map (by_name rho) q).
Notation sh := (shown rho).
Context (An : e_answers q' eg (lift nu rho gq)).

Definition ids_in (items : list (triple I * EP)) : list I := vertices m' ++ flat_map (fun te => ids3 (fst te)) items.

Lemma result_items : exists items, iter_edges SPO m' = map Ok items /\ NoDup (map fst items) /\
  (forall t e, In (t, e) items <-> g_edge gq t = Some e) /\
  NoDup (vertices m') /\ (forall i, In i (vertices m') <-> g_node gq i <> None).
Proof.
  destruct (proj2 Sq SPO) as (items & Hi & Si & Ii).
  exists items. split; auto. split; [eapply items_NoDup; [|exact Si]; apply (edge_lt_irr SPO)|]. split; auto.
  destruct (proj1 Sq) as (ns & Hn & Sn & In').
  assert (Hv : vertices m' = map fst ns).
  { unfold vertices. unfold iter_vertices in Hn.
    assert (Q : map (fun kv : I * NP => kv) (om_iter (node_props m')) = ns).
    { apply (map_ok_inj (E := unit)). rewrite <- Hn, !map_map. apply map_ext. now intros []. }
    rewrite map_id in Q. now rewrite Q. }
  split.
  - rewrite Hv. eapply items_NoDup; [|exact Sn]. apply id_lt_irr.
  - intros i. rewrite Hv, in_map_iff. split.
    + intros ([j p] & <- & H). apply In' in H. simpl. congruence.
    + intros H. destruct (g_node gq i) as [p|] eqn:Q; [|congruence]. apply In' in Q. exists (i, p). auto.
Qed.

Context (items : list (triple I * EP)) (Nd : NoDup (map fst items)) (Ii : forall t e, In (t, e) items <-> g_edge gq t = Some e).
Context (Nv : NoDup (vertices m')) (Iv : forall i, In i (vertices m') <-> g_node gq i <> None).

Lemma result_nodup_iff es : matching q' eg es ->
  (NoDup (filter_map rho (ids_in items)) <-> NoDup (flat_map names_of es)).
Proof.
  intros [Ne Ie]. destruct An as [An1 Ae]. unfold ids_in.
  destruct (view_lift _ _ one gq) as [Ln Le].
  assert (P : Permutation es (map (triple_map sh) (map fst items))).
  { apply NoDup_Permutation; auto.
    - apply FinFun.Injective_map_NoDup; auto. intros a b. apply (shown3_inj _ _ one).
    - intros t. rewrite Ie, in_map_iff. split.
      + intros [H1 H2]. destruct (e_edge eg t) as [p|] eqn:Q; [|congruence].
        assert (K : e_edge (lift nu rho gq) t = Some p) by (apply Ae; auto).
        apply Le in K. destruct K as (t0 & -> & K). exists t0. split; auto. apply in_map_iff.
        exists (t0, p). split; auto. now apply Ii.
      + intros (t0 & <- & H). apply in_map_iff in H. destruct H as ([t1 p] & <- & H). simpl. apply Ii in H.
        assert (K : e_edge (lift nu rho gq) (triple_map sh t1) = Some p) by (apply Le; eauto).
        apply Ae in K. destruct K. split; auto. congruence. }
  assert (Q : NoDup (flat_map names_of es) <-> NoDup (filter_map rho (flat_map (fun te : triple I * EP => ids3 (fst te)) items))).
  { assert (Z : flat_map names_of (map (triple_map sh) (map fst items)) =
                filter_map rho (flat_map (fun te : triple I * EP => ids3 (fst te)) items)).
    { rewrite filter_map_flat, map_map, flat_map_concat_map, (flat_map_concat_map _ items), map_map.
      f_equal. apply map_ext. intros a. apply names_shown. }
    rewrite <- Z. split; apply Permutation_NoDup; [|symmetry]; now apply Permutation_flat_map. }
  rewrite Q, filter_map_app.
  (* a query selects vertices or edges, not both *)
  destruct (match q with QNodeProps _ => true | _ => false end) eqn:Kq.
  - assert (items = []) as Hni.
    { destruct items as [|[t p] items'] eqn:Hit; auto. exfalso.
      assert (K : e_edge (lift nu rho gq) (triple_map sh t) = Some p)
        by (apply Le; exists t; split; auto; apply Ii; simpl; auto).
      apply Ae in K. destruct q; try discriminate. exact (proj1 K). }
    rewrite Hni. simpl. rewrite app_nil_r. split; [intros; constructor|]. intros _. apply filter_map_nodup; auto.
    intros a b c Ha Hb. apply one in Ha. apply one in Hb. congruence.
  - assert (V0 : vertices m' = []).
    { destruct (vertices m') as [|i vs] eqn:V; auto. exfalso.
      assert (K : g_node gq i <> None) by (apply Iv; simpl; auto).
      destruct (g_node gq i) as [p|] eqn:Gi; [|congruence].
      assert (K' : e_node (lift nu rho gq) (sh i) = Some p) by (apply Ln; eauto).
      apply An1 in K'. destruct K' as [K' _]. destruct q; simpl in K'; try contradiction. discriminate. }
    rewrite V0. simpl. reflexivity.
Qed.

Lemma result_iff es : matching q' eg es ->
  ((exists new, names_into rho (ids_in items) index_new = Ok new) <-> NoDup (flat_map names_of es)).
Proof.
  intros Me. rewrite <- (result_nodup_iff es) by auto.
  pose proof (names_into_spec _ _ one (ids_in items) _ _ (part_new _ _) (NoDup_nil S)) as Sp.
  destruct (names_into rho (ids_in items) index_new); simpl in Sp.
  - split; [intros _; apply Sp | eauto].
  - split; [intros [? ?]; discriminate | intros H; now apply Sp in H].
Qed.

Lemma result_error x : names_into rho (ids_in items) index_new = Err x ->
  exists s i, x = DuplicateRight s i i /\ nu s = Some i.
Proof.
  pose proof (names_into_spec _ _ one (ids_in items) _ _ (part_new _ _) (NoDup_nil S)) as Sp.
  destruct (names_into rho (ids_in items) index_new); simpl in Sp; [discriminate|].
  intros [= <-]. destruct Sp as [_ (s & i & -> & H)]. exists s, i. split; auto. now apply one.
Qed.

Lemma result_ok new u : names_into rho (ids_in items) index_new = Ok new ->
  rdf_shows (Rdf new m' u) (lift nu rho gq) /\
  forall s i, left_to_right seqb new s = Some i -> nu s = Some i.
Proof.
  pose proof (names_into_spec _ _ one (ids_in items) _ _ (part_new _ _) (NoDup_nil S)) as Sp.
  intros Q. rewrite Q in Sp. clear Q. destruct Sp as [_ P]. simpl in P. unfold ids_in in P.
  set (ids := vertices m' ++ flat_map (fun te : triple I * EP => ids3 (fst te)) items) in *.
  split.
  2: { intros s i H. now apply P in H. }
  assert (Hs : forall i, In i ids -> shown (r2l new) i = sh i).
  { intros i Hid. unfold shown. destruct (rho i) as [s|] eqn:Q.
    - assert (r2l new i = Some s) as ->; auto. apply P. split; auto. apply filter_map_in. eauto.
    - destruct (r2l new i) as [s|] eqn:Q'; auto. apply P in Q'. destruct Q'. congruence. }
  assert (Hn : forall i, g_node gq i <> None -> In i ids).
  { intros i H. apply in_app_iff. left. now apply Iv. }
  assert (He : forall t, g_edge gq t <> None -> In (sub t) ids /\ In (pred t) ids /\ In (obj t) ids).
  { intros t H. destruct (g_edge gq t) as [p|] eqn:Q; [|congruence]. apply Ii in Q.
    repeat split; apply in_app_iff; right; apply in_flat_map; exists (t, p); simpl; auto. }
  assert (Hs3 : forall t, g_edge gq t <> None -> triple_map (shown (r2l new)) t = triple_map sh t).
  { intros t H. destruct (He t H) as (A & B & C). unfold triple_map. now rewrite !Hs by auto. }
  destruct (view_lift _ _ one gq) as [Ln Le]. split.
  - destruct (proj1 Sq) as (ns & Hns & Sns & Ins).
    eapply lists_rename with (h := sh); [|exact (proj1 Sq)| |exact Ln].
    + intros x Hx. unfold rdf_iter_vertices. simpl. rewrite Hx, show_nodes_ok. f_equal.
      rewrite Hns in Hx. apply map_ok_inj in Hx. subst x.
      apply map_ext_in. intros [i p] Hp. simpl. rewrite Hs; auto. apply Hn. apply Ins in Hp. congruence.
    + intros a b Ha Hb L. exists a, b. simpl. rewrite !Hs by auto. auto.
  - intros o. destruct (proj2 Sq o) as (ns & Hns & Sns & Ins).
    eapply lists_rename with (h := triple_map sh); [|exact (proj2 Sq o)| |exact Le].
    + intros x Hx. unfold rdf_iter_edges. simpl. rewrite Hx, show_edges_ok. f_equal.
      rewrite Hns in Hx. apply map_ok_inj in Hx. subst x.
      apply map_ext_in. intros [t p] Hp. simpl. rewrite Hs3; auto. apply Ins in Hp. congruence.
    + intros a b Ha Hb L. exists a, b. simpl. rewrite !Hs3 by auto. auto.
Qed.

End Result.

Section Run.
Context (r : R) (Re : reach r) (eg : EG) (Sh : rdf_shows r eg) (q : query ent) (g u : gen KUlid).
Context (Kn : forall s, In (EString s) (mentioned q) -> exists i, l2r (name_index r) s = Some i).
Context (Nr : forall qi, query_try_map (lookup_entity seqb (name_index r)) q = Ok (E := err) qi ->
  drawn_distinct (id_generator (run g qi (r_graph r)))).
Notation rho := (r2l (name_index r)).
Notation nu := (l2r (name_index r)).
Notation q' := (query_map (by_name rho) q).
Notation qi := (query_map (behind seqb r) q).
Notation m' := (run g qi (r_graph r)).
Notation sh := (shown rho).

Lemma run_query : query_try_map (lookup_entity seqb (name_index r)) q = Ok (E := err) qi.
Proof.
  apply query_try_all. intros [s|i] Hm; simpl; auto. destruct (Kn s Hm) as [i ->]. reflexivity.
Qed.

Lemma run_by_name : q' = query_map sh qi.
Proof.
  destruct (reach_inv r Re) as [one _]. rewrite query_map_map. apply query_map_ext. intros [s|i] Hm; simpl; auto.
  destruct (Kn s Hm) as [i L]. rewrite L. apply one in L. unfold shown. now rewrite L.
Qed.

(** The graph of the result. *)
Lemma run_graph : exists gq : G, shows m' gq /\ e_answers q' eg (lift nu rho gq).
Proof.
  destruct (reach_inv r Re) as [one Rg]. destruct (top_shows mn me _ Rg) as [g0 Sg].
  destruct (shows_run mn me g qi _ g0 Rg Sg (Nr _ run_query)) as (gq & Sq & An).
  exists gq. split; auto. pose proof (reach_view r eg g0 Re Sh Sg) as [Vn Ve].
  destruct (view_lift _ _ one gq) as [Ln Le]. destruct An as [An Ae].
  rewrite run_by_name. split.
  - intros n p. rewrite Ln, Vn. split.
    + intros (i & -> & H). apply An in H. destruct H as [H1 H2]. split; eauto.
      apply selects_node_rename; auto. apply (shown_inj _ _ one).
    + intros (H1 & i & -> & H2). exists i. split; auto. apply An. split; auto.
      apply selects_node_rename in H1; auto. apply (shown_inj _ _ one).
  - intros n p. rewrite Le, Ve. split.
    + intros (i & -> & H). apply Ae in H. destruct H as [H1 H2]. split; eauto.
      apply selects_rename; auto. apply (shown_inj _ _ one).
    + intros (H1 & i & -> & H2). exists i. split; auto. apply Ae. split; auto.
      apply selects_rename in H1; auto. apply (shown_inj _ _ one).
Qed.

Lemma run_names : exists items gq,
  iter_edges SPO m' = map Ok items /\ NoDup (map fst items) /\
  (forall t e, In (t, e) items <-> g_edge gq t = Some e) /\
  NoDup (vertices m') /\ (forall i, In i (vertices m') <-> g_node gq i <> None) /\
  shows m' gq /\ e_answers q' eg (lift nu rho gq) /\
  rdf_run seqb g u q r =
    match in_result (names_into rho (ids_in m' items) index_new) with
    | Ok new => Ok (Rdf new m' u)
    | Err x => Err x
    end.
Proof.
  destruct run_graph as (gq & Sq & An). destruct (result_items m' gq Sq) as (items & Hi & R1 & R2 & R3 & R4).
  exists items, gq. repeat (split; [solve [auto]|]).
  unfold rdf_run. rewrite run_query, <- set_names_into. unfold ids_in. rewrite Hi, set_names_app.
  destruct (set_names seqb (name_index r) (vertices m') index_new) as [n1|]; auto.
  now rewrite set_edge_names_ok.
Qed.

Lemma top_rdf_run_iff es : matching q' eg es ->
  ((exists r', rdf_run seqb g u q r = Ok r') <-> NoDup (flat_map names_of es)).
Proof.
  intros Me. destruct run_names as (items & gq & Hi & Nd & Ii & Nv & Iv & Sq & An & ->).
  destruct (reach_inv r Re) as [one _].
  rewrite <- (result_iff _ _ one eg q m' gq An items Nd Ii Nv Iv es Me).
  destruct (names_into rho (ids_in m' items) index_new); simpl.
  - split; eauto.
  - split; intros [? ?]; discriminate.
Qed.

Lemma top_rdf_run_error x : rdf_run seqb g u q r = Err x ->
  exists s i, x = RightE (NameIndexStorageError (DuplicateRight s i i)) /\ nu s = Some i.
Proof.
  destruct run_names as (items & gq & Hi & Nd & Ii & Nv & Iv & Sq & An & ->).
  destruct (reach_inv r Re) as [one _].
  destruct (names_into rho (ids_in m' items) index_new) as [new|y] eqn:Q; simpl; [discriminate|].
  intros [= <-]. destruct (result_error _ _ one m' items _ Q) as (s & i & -> & H). eauto.
Qed.

Lemma top_rdf_run_ok r' : rdf_run seqb g u q r = Ok r' ->
  exists eg', rdf_shows r' eg' /\ e_answers q' eg eg' /\
    forall s i, left_to_right seqb (name_index r') s = Some i -> nu s = Some i.
Proof.
  destruct run_names as (items & gq & Hi & Nd & Ii & Nv & Iv & Sq & An & ->).
  destruct (reach_inv r Re) as [one _].
  destruct (names_into rho (ids_in m' items) index_new) as [new|y] eqn:Q; simpl; [|discriminate].
  intros [= <-]. destruct (result_ok _ _ one m' gq Sq items Ii Iv new u Q) as [R1 R2].
  exists (lift nu rho gq). auto.
Qed.

End Run.

Lemma top_rdf_run_unknown r q g u s :
  In (EString s) (mentioned q) -> l2r (name_index r) s = None ->
  exists s', In (EString s') (mentioned q) /\ l2r (name_index r) s' = None /\
    rdf_run seqb g u q r = Err (LeftE (NameNotFound s')).
Proof.
  intros Hm Hl. unfold rdf_run.
  destruct (query_try_map (lookup_entity seqb (name_index r)) q) as [q'|x] eqn:Q.
  - destruct (query_try_each _ _ _ Q _ Hm) as [i H]. simpl in H. now rewrite Hl in H.
  - apply query_try_fail in Q. destruct Q as ([s'|i] & Hi & H); simpl in H; [|discriminate].
    destruct (l2r (name_index r) s') eqn:L; [discriminate|]. inversion H; subst. eauto.
Qed.

(** ** Removal *)
Lemma remove_node_known r e i :
  denotes seqb r e i -> rdf_remove_node seqb e r = (Ok tt, set_graph (remove_node i (r_graph r)) r).
Proof.
  destruct e as [s|j]; simpl; unfold rdf_remove_node, then_graph; simpl; [intros -> | intros ->]; reflexivity.
Qed.
Lemma remove_node_unknown r s :
  l2r (name_index r) s = None -> rdf_remove_node seqb (EString s) r = (Err (NameNotFound s), r).
Proof. unfold rdf_remove_node. simpl. now intros ->. Qed.
Lemma remove_edge_known r t a b c :
  denotes seqb r (sub t) a -> denotes seqb r (pred t) b -> denotes seqb r (obj t) c ->
  rdf_remove_edge seqb t r = (Ok tt, set_graph (remove_edge (Triple a b c) (r_graph r)) r).
Proof.
  assert (L : forall e i, denotes seqb r e i -> lookup_entity seqb (name_index r) e = Ok (E := err) i).
  { intros [s|j] i; simpl; now intros ->. }
  intros A B C. unfold rdf_remove_edge, triple_try_map. now rewrite (L _ _ A), (L _ _ B), (L _ _ C).
Qed.
(** The first unknown name is reported. *)
Lemma remove_edge_unknown r t s before after :
  names_of t = before ++ s :: after -> (forall s', In s' before -> l2r (name_index r) s' <> None) ->
  l2r (name_index r) s = None ->
  rdf_remove_edge seqb t r = (Err (NameNotFound s), r).
Proof.
  assert (L : forall e, (exists i, lookup_entity seqb (name_index r) e = Ok (E := err) i /\
                                   forall s', In s' (name_of e) -> l2r (name_index r) s' <> None) \/
                        exists s', e = EString s' /\ l2r (name_index r) s' = None /\
                          lookup_entity seqb (name_index r) e = Err (NameNotFound s') :> result err I).
  { intros [s'|i]; simpl.
    - destruct (l2r (name_index r) s') eqn:Q; [left | right; eauto].
      eexists. split; [reflexivity|]. intros s'' [<-|[]]. congruence.
    - left. eexists. split; [reflexivity|]. intros s'' []. }
  assert (U : forall pre s' post, pre ++ s' :: post = before ++ s :: after ->
            (forall x, In x pre -> l2r (name_index r) x <> None) -> l2r (name_index r) s' = None ->
            (forall s', In s' before -> l2r (name_index r) s' <> None) -> l2r (name_index r) s = None -> s' = s).
  { clear. revert before. intros before pre. revert before. induction pre as [|x pre IH]; intros [|y bf] s' post H P Q P' Q';
      simpl in *; inversion H; subst; auto.
    - exfalso. apply (P' y); auto.
    - exfalso. apply (P s); auto.
    - eapply IH; eauto. }
  intros Ht Hb Hs. unfold rdf_remove_edge, triple_try_map, names_of in *.
  destruct (L (sub t)) as [(a & -> & Ka)|(s' & Es & Ks & ->)].
  2: { rewrite Es in Ht. simpl in *. rewrite (U [] s' _ Ht); auto. }
  destruct (L (pred t)) as [(b & -> & Kb)|(s' & Es & Ks & ->)].
  2: { rewrite Es in Ht. simpl in *. rewrite (U (name_of (sub t)) s' _ Ht); auto. }
  destruct (L (obj t)) as [(c & -> & Kc)|(s' & Es & Ks & ->)].
  2: { rewrite Es in Ht. simpl in *. rewrite app_assoc in Ht. rewrite (U (name_of (sub t) ++ name_of (pred t)) s' _ Ht); auto.
       intros x Hx. apply in_app_iff in Hx. destruct Hx; auto. }
  exfalso. assert (K : In s (name_of (sub t) ++ name_of (pred t) ++ name_of (obj t))).
  { rewrite Ht. apply in_app_iff. simpl. auto. }
  rewrite !in_app_iff in K. destruct K as [K|[K|K]]; [eapply Ka | eapply Kb | eapply Kc]; eauto.
Qed.

(** What is displayed afterwards. *)
Lemma top_rdf_remove_node r eg e i :
  reach r -> drawn_distinct (id_generator (r_graph r)) -> rdf_shows r eg -> denotes seqb r e i ->
  rdf_shows (snd (rdf_remove_node seqb e r)) (e_del_node seqb (by_name (r2l (name_index r)) e) eg).
Proof.
  intros Re D Sh De. rewrite (remove_node_known r e i De). simpl.
  destruct (reach_inv r Re) as [one Rg]. destruct (top_shows mn me _ Rg) as [g Sg].
  pose proof (reach_view r eg g Re Sh Sg) as V.
  apply rdf_shows_view with (seqb := seqb) (g := g_del_node i g); simpl; auto.
  - eapply shows_remove_node; eauto.
  - replace (by_name (r2l (name_index r)) e) with (shown (r2l (name_index r)) i).
    + now apply (view_del_node seqb seqb_eq _ _ one).
    + destruct e as [s|j]; simpl in *; [|now subst]. unfold shown. apply one in De. now rewrite De.
Qed.

Lemma top_rdf_remove_edge r eg t a b c :
  reach r -> drawn_distinct (id_generator (r_graph r)) -> rdf_shows r eg ->
  denotes seqb r (sub t) a -> denotes seqb r (pred t) b -> denotes seqb r (obj t) c ->
  rdf_shows (snd (rdf_remove_edge seqb t r)) (e_del_edge seqb (triple_map (by_name (r2l (name_index r))) t) eg).
Proof.
  intros Re D Sh Da Db Dc. rewrite (remove_edge_known r t a b c Da Db Dc). simpl.
  destruct (reach_inv r Re) as [one Rg]. destruct (top_shows mn me _ Rg) as [g Sg].
  pose proof (reach_view r eg g Re Sh Sg) as V.
  apply rdf_shows_view with (seqb := seqb) (g := g_del_edge (Triple a b c) g); simpl; auto.
  - eapply shows_remove_edge; eauto.
  - assert (K : forall e i, denotes seqb r e i -> by_name (r2l (name_index r)) e = shown (r2l (name_index r)) i).
    { intros [s|j] i De; simpl in *; [|now subst]. unfold shown. apply one in De. now rewrite De. }
    replace (triple_map (by_name (r2l (name_index r))) t) with (triple_map (shown (r2l (name_index r))) (Triple a b c)).
    + now apply (view_del_edge seqb seqb_eq _ _ one).
    + unfold triple_map. simpl. now rewrite (K _ _ Da), (K _ _ Db), (K _ _ Dc).
Qed.

(** ** try_eq *)
Lemma zip_lists2 {A P L L'} (lt lt' : A -> A -> Prop) (ea : A -> A -> bool) (ep : P -> P -> bool)
    (a : list (result L (A * P))) (b : list (result L' (A * P))) f f' :
  (forall a, ~ lt a a) -> (forall a b c, lt a b -> lt b c -> lt a c) ->
  (forall a, ~ lt' a a) -> (forall a b c, lt' a b -> lt' b c -> lt' a c) ->
  (forall a b, ea a b = true <-> a = b) ->
  lists lt a f -> lists lt' b f' ->
  exists x, zip_longest_eq (pair_eqb ea ep) a b = Ok x /\
    (x = true <-> (forall x, opt_rel ep (f x) (f' x)) /\ same_order f lt lt').
Proof.
  intros irr tr irr' tr' He La Lb.
  assert (Conv : (forall x, opt_rel ep (f x) (f' x)) -> same_order f lt lt' -> lists lt b f').
  { intros Ho So. destruct Lb as (ys & -> & Sy & Hy). exists ys. split; auto. split; auto.
    assert (K : forall y, In y ys -> f (fst y) <> None).
    { intros [y p] H. apply Hy in H. specialize (Ho y). simpl. rewrite H in Ho.
      destruct (f y); [discriminate | contradiction]. }
    clear - Sy K So. induction Sy as [|y ys Sy IH Fy]; constructor.
    - apply IH. intros; apply K; simpl; auto.
    - rewrite Forall_forall in *. intros z Hz. apply So; [apply K | apply K | apply Fy]; simpl; auto. }
  assert (Back : stops_at (pair_eqb ea ep) a b [] [] -> lists lt b f' /\ same_order f lt lt').
  { intros (xs & ys & Ha & Hb & F). rewrite app_nil_r in Ha, Hb. subst a b.
    destruct La as (xs' & Q & Sx & Hx). apply map_ok_inj in Q. subst xs'.
    destruct Lb as (ys' & Q & Sy & Hy). apply map_ok_inj in Q. subst ys'.
    assert (Keys : map fst xs = map fst ys).
    { clear - F He. induction F as [|x y xs ys Exy F IH]; simpl; auto.
      apply (pair_eqb_item ea ep He) in Exy. destruct Exy as [Exy _]. now rewrite Exy, IH. }
    assert (SK : forall (R0 : A -> A -> Prop) (l : list (A * P)), StronglySorted (fun x y => R0 (fst x) (fst y)) l <-> StronglySorted R0 (map fst l)).
    { clear. intros R0 l. split.
      - induction 1 as [|a l S IH Fa]; simpl; constructor; auto. rewrite Forall_forall in *.
        intros x Hx. apply in_map_iff in Hx. destruct Hx as (y & <- & Hy). auto.
      - induction l as [|a l IH]; simpl; intros H; constructor; inversion H; subst; auto.
        rewrite Forall_forall in *. intros x Hx. apply H3. now apply in_map. }
    split.
    - exists ys. split; auto. split; auto. apply SK. rewrite <- Keys. now apply SK.
    - intros x y Hx' Hy'.
      assert (Kx : forall z, f z <> None -> In z (map fst xs)).
      { intros z Hz. destruct (f z) as [p|] eqn:Q; [|congruence]. apply Hx in Q. now apply (in_map fst) in Q. }
      apply Kx in Hx', Hy'. apply SK in Sx, Sy. rewrite <- Keys in Sy.
      clear - Sx Sy Hx' Hy' irr tr irr' tr'. induction (map fst xs) as [|k ks IH]; [contradiction|].
      inversion Sx; inversion Sy; subst. rewrite Forall_forall in *.
      destruct Hx' as [->|Hx']; destruct Hy' as [->|Hy']; auto.
      + split; intros K; [now apply irr in K | now apply irr' in K].
      + split; auto.
      + split; intros K; exfalso; [apply (irr x); eapply tr; eauto | apply (irr' x); eapply tr'; eauto]. }
  destruct (zip_longest_eq (pair_eqb ea ep) a b) as [x|x] eqn:Z.
  - exists x. split; auto. split.
    + intros ->. apply zip_iff in Z. destruct (Back Z) as [Lb' So]. split; auto.
      destruct (zip_lists lt ea ep a b f f' irr tr He La Lb') as (y & Hy & Iy).
      apply Iy. apply zip_iff in Z. congruence.
    + intros [Ho So]. destruct (zip_lists lt ea ep a b f f' irr tr He La (Conv Ho So)) as (y & Hy & Iy).
      rewrite Z in Hy. inversion Hy; subst. now apply Iy.
  - exfalso. destruct La as (xs & -> & _), Lb as (ys & -> & _). clear - Z. revert ys Z.
    induction xs as [|x1 xs IH]; intros [|y ys]; simpl; try discriminate.
    destruct (pair_eqb ea ep x1 y); eauto; discriminate.
Qed.

Lemma top_rdf_try_eq neqb eeqb a b ga gb :
  reach a -> reach b -> rdf_shows a ga -> rdf_shows b gb ->
  exists x, rdf_try_eq seqb neqb eeqb a b = Ok x /\
    (x = true <->
      same_egraph neqb eeqb ga gb /\
      same_order (e_node ga) (behind_lt (r2l (name_index a))) (behind_lt (r2l (name_index b))) /\
      same_order (e_edge ga) (behind_edge_lt (r2l (name_index a)) SPO) (behind_edge_lt (r2l (name_index b)) SPO)).
Proof.
  intros Ra Rb [Na Ea] [Nb Eb].
  destruct (reach_inv a Ra) as [Oa _]. destruct (reach_inv b Rb) as [Ob _].
  destruct (zip_lists2 _ _ (entity_eqb seqb) neqb _ _ _ _
              (behind_lt_irr _ _ Oa) (behind_lt_tr _ _ Oa) (behind_lt_irr _ _ Ob) (behind_lt_tr _ _ Ob)
              (entity_eqb_eq seqb seqb_eq) Na Nb) as (x & Hx & Ix).
  destruct (zip_lists2 _ _ (triple_eqb (entity_eqb seqb)) eeqb _ _ _ _
              (behind_edge_lt_irr _ _ SPO Oa) (behind_edge_lt_tr _ _ SPO Oa)
              (behind_edge_lt_irr _ _ SPO Ob) (behind_edge_lt_tr _ _ SPO Ob)
              (entity3_eqb_eq seqb seqb_eq) (Ea SPO) (Eb SPO)) as (y & Hy & Iy).
  unfold rdf_try_eq, try_eq, rdf_iter_nodes. simpl.
  change (map (show_node (name_index a)) (iter_vertices (r_graph a))) with (rdf_iter_vertices a).
  change (map (show_node (name_index b)) (iter_vertices (r_graph b))) with (rdf_iter_vertices b).
  change (map (show_edge (name_index a)) (iter_edges SPO (r_graph a))) with (rdf_iter_edges SPO a).
  change (map (show_edge (name_index b)) (iter_edges SPO (r_graph b))) with (rdf_iter_edges SPO b).
  rewrite Hx. destruct x.
  - exists y. split; auto. rewrite Iy. unfold same_egraph. destruct (proj1 Ix eq_refl). tauto.
  - exists false. split; auto. split; [discriminate|]. intros ((A & B) & C & D).
    apply Ix. auto.
Qed.

End Query.
