(** Queries on an RdfTripleStore over every name index and every graph: C71. *)
From Coq Require Import Arith NArith List Bool Sorted Lia.
From Verif Require Import Bytes OMap Core IdType Store Mem MemIndex Spec History MemFacts MemSim MemTop GenSpec Prog Sled SledHistory
  Rdf RdfSpec RdfFacts RdfTop RdfQuery RdfSled RdfSledSpec RdfSledRead RdfAny RdfAnySpec RdfAnyFacts RdfAnyTop.
Import ListNotations.

Section Query.
Context {S NP EP X Y F IE GE E : Type} (seqb : S -> S -> bool) (seqb_eq : forall a b, seqb a b = true <-> a = b).
Context (ix : any_index S X F IE) (gr : any_graph NP EP Y F GE) (mn : NP -> NP -> NP) (me : EP -> EP -> EP).
Context (calm : F -> Prop) (goodx : X -> Prop) (l2r : X -> S -> option (Id KUlid)) (r2l : X -> Id KUlid -> option S).
Context (goody : nat -> Y -> Prop) (abs : Y -> graph KUlid NP EP).
Context (HI : names_ok ix calm goodx l2r r2l) (HG : graph_ok E gr mn me calm goody abs).
Notation I := (Id KUlid).
Notation ent := (entity S).
Notation R := (any_rdf X Y F).
Notation err := (rdf_error S IE GE).
Notation M A := (R -> result err A * R).
Context (w : R) (n : nat) (Gx : goodx (a_names w)) (Gy : goody n (a_graph w)) (Hc : calm (a_env w)).
Notation nu := (l2r (a_names w)).
Notation rho := (r2l (a_names w)).

Lemma state_of (x : R) : AnyRdf (a_names x) (a_graph x) (a_ulids x) (a_env x) = x.
Proof. now destruct x. Qed.

(** The identifiers behind the entities of a query. *)
Definition val (e : ent) : result err I :=
  match e with
  | EUlid i => Ok i
  | EString s => match nu s with Some i => Ok i | None => Err (NameNotFound s) end
  end.
Lemma find_known e : (forall s, e = EString s -> nu s <> None) -> a_lookup_entity ix e w = (val e, w).
Proof.
  destruct e as [s|i]; auto. intros H. cbn [a_lookup_entity val]. unfold and_then, of_names. destruct (nu s) as [i|] eqn:Q; [|now destruct (H s eq_refl)].
  rewrite (no_find _ _ _ _ _ HI s i) by auto. now rewrite state_of.
Qed.
Lemma show_known i : a_lookup_id (GE := GE) ix i w = (Ok (shown rho i), w).
Proof.
  unfold a_lookup_id, and_then, of_names. rewrite (no_calm _ _ _ _ _ HI i) by auto. now rewrite state_of.
Qed.

Lemma collect_known {A B} (m : A -> M B) v l : (forall a, In a l -> m a w = (v a, w)) -> a_collect m l w = (collect_result v l, w).
Proof.
  induction l as [|a l IH]; intros H; auto. cbn [a_collect collect_result]. unfold and_then. rewrite H by now left.
  destruct (v a); auto. rewrite IH by (intros; apply H; now right). now destruct (collect_result v l).
Qed.
Lemma query_known (q : query ent) : (forall s, In (EString s) (mentioned q) -> nu s <> None) ->
  a_query (a_lookup_entity ix) q w = (query_try_map val q, w).
Proof.
  intros H. assert (forall e, In e (mentioned q) -> a_lookup_entity ix e w = (val e, w)) as H1.
  { intros e He. apply find_known. intros s ->. now apply H. }
  assert (forall a b, In a (mentioned q) -> In b (mentioned q) -> a_pair (a_lookup_entity ix) (a, b) w = (try_pair val (a, b), w)) as H2.
  { intros a b Ha Hb. unfold a_pair, try_pair, and_then. cbn [fst snd]. rewrite H1 by auto. destruct (val a); auto.
    rewrite H1 by auto. now destruct (val b). }
  assert (forall a b c, In a (mentioned q) -> In b (mentioned q) -> In c (mentioned q) ->
    a_triple (a_lookup_entity ix) (a, b, c) w = (try_triple val (a, b, c), w)) as H3.
  { intros a b c Ha Hb Hd. unfold a_triple, try_triple, and_then. rewrite H1 by auto. destruct (val a); auto.
    rewrite H1 by auto. destruct (val b); auto. rewrite H1 by auto. now destruct (val c). }
  clear H. destruct q as [l|l|l|l|l|l|l|l]; cbn [a_query query_try_map]; unfold and_then; cbn [mentioned] in *.
  1,3-5: rewrite (collect_known _ val) by auto; now destruct (collect_result val l).
  - rewrite (collect_known _ (try_triple val)); [now destruct (collect_result (try_triple val) l)|].
    intros [[a b] c] Hi. apply H3; apply in_flat_map; exists (a, b, c); simpl; auto.
  - rewrite (collect_known _ (try_pair val)); [now destruct (collect_result (try_pair val) l)|].
    intros [a b] Hi. apply H2; apply in_flat_map; exists (a, b); simpl; auto.
  - rewrite (collect_known _ (try_pair val)); [now destruct (collect_result (try_pair val) l)|].
    intros [a b] Hi. apply H2; apply in_flat_map; exists (a, b); simpl; auto.
  - rewrite (collect_known _ (try_pair val)); [now destruct (collect_result (try_pair val) l)|].
    intros [a b] Hi. apply H2; apply in_flat_map; exists (a, b); simpl; auto.
Qed.

Lemma ids_known (q : query ent) : (forall s, In (EString s) (mentioned q) -> nu s <> None) -> exists qi, query_try_map val q = Ok qi.
Proof.
  intros H. destruct (query_try_map val q) as [qi|x] eqn:Q; eauto. exfalso.
  apply query_try_fail in Q. destruct Q as ([s|i] & Hin & Hx); [|discriminate].
  specialize (H s Hin). unfold val in Hx. destruct (nu s); congruence.
Qed.
Lemma val_shown (q : query ent) qi : query_try_map val q = Ok qi -> query_map (by_name rho) q = query_map (shown rho) qi.
Proof.
  intros Hq. pose proof (no_one _ _ _ _ _ HI _ Gx) as One.
  assert (forall e i, val e = Ok i -> shown rho i = by_name rho e) as Hshow.
  { intros [s|i] j Hj; simpl in *; [|congruence]. destruct (nu s) as [i|] eqn:Hs; [|discriminate]. injection Hj as ->.
    apply One in Hs. unfold shown. now rewrite Hs. }
  assert (forall X Y (f : X -> result err Y) l l', collect_result f l = Ok l' -> Forall2 (fun x y => f x = Ok y) l l') as Hcol.
  { intros X0 Y0 f l. induction l as [|x l IH]; simpl; intros l' H; [inversion H; constructor|].
    destruct (f x) eqn:Q; [|discriminate]. destruct (collect_result f l); [|discriminate]. inversion H; subst. constructor; auto. }
  assert (forall l l', Forall2 (fun e i => val e = Ok i) l l' -> map (by_name rho) l = map (shown rho) l') as H1.
  { induction 1; simpl; auto. f_equal; auto. symmetry. auto. }
  assert (forall l l', Forall2 (fun e i => try_pair val e = Ok i) l l' ->
     map (fun ab : ent * ent => let (a, b) := ab in (by_name rho a, by_name rho b)) l =
     map (fun ab : I * I => let (a, b) := ab in (shown rho a, shown rho b)) l') as H2.
  { induction 1 as [|[a b] [i j] l l' Hab _ IH]; simpl; auto. f_equal; auto. unfold try_pair in Hab. cbn [fst snd] in Hab.
    destruct (val a) eqn:A1; [|discriminate]. destruct (val b) eqn:A2; [|discriminate]. inversion Hab; subst.
    f_equal; symmetry; auto. }
  assert (forall l l', Forall2 (fun e i => try_triple val e = Ok i) l l' ->
     map (fun t => let '(s, p, o) := t in (by_name rho s, by_name rho p, by_name rho o)) l =
     map (fun t => let '(s, p, o) := t in (shown rho s, shown rho p, shown rho o)) l') as H3.
  { induction 1 as [|[[a b] c] [[i j] k] l l' Hab _ IH]; simpl; auto. f_equal; auto. unfold try_triple in Hab.
    destruct (val a) eqn:A1; [|discriminate]. destruct (val b) eqn:A2; [|discriminate].
    destruct (val c) eqn:A3; [|discriminate]. inversion Hab; subst.
    f_equal; [f_equal|]; symmetry; auto. }
  destruct q; simpl in Hq; match type of Hq with res_map _ ?x = _ => destruct x eqn:Q; simpl in Hq; [|discriminate] end;
    inversion Hq; subst; apply Hcol in Q; simpl; f_equal; auto.
Qed.

(** The names of the result. *)
Lemma set_names_known ids : forall new, a_set_names (GE := GE) ix seqb ids new w = (in_result (names_into seqb rho ids new), w).
Proof.
  induction ids as [|i ids IH]; intros new; auto. cbn [a_set_names names_into]. unfold and_then_q, at_left. rewrite show_known.
  unfold shown. destruct (rho i) as [s|]; [|apply IH]. destruct (index_set seqb id_eqb s i new) as [[[]|x] y]; [apply IH|reflexivity].
Qed.
Lemma set_edges_known (items : list (triple I * EP)) : forall new,
  a_set_edge_names (GE := GE) ix seqb (map Ok items) new w =
  (in_result (names_into seqb rho (flat_map (fun te => ids3 (fst te)) items) new), w).
Proof.
  induction items as [|[t p] items IH]; intros new; auto. cbn [map a_set_edge_names flat_map fst]. unfold and_then_q.
  rewrite set_names_known, names_into_app. unfold ids3 at 1. destruct (names_into seqb rho [sub t; pred t; obj t] new); [apply IH|reflexivity].
Qed.

Lemma any_run eg (q : query ent) g u :
  let q' := query_map (by_name rho) q in
  seen rho (abs (a_graph w)) eg ->
  (forall s, In (EString s) (mentioned q) -> nu s <> None) ->
  (forall qi m, query_map (shown rho) qi = q' -> fst (ag_run gr g qi (a_graph w, a_env w)) = Ok m -> drawn_distinct (id_generator m)) ->
  exists v, a_run ix gr seqb g u q w = (v, w) /\
  (forall es, matching q' eg es -> ((exists r', v = Ok r') <-> NoDup (flat_map names_of es))) /\
  match v with
  | Ok r' => exists eg', rdf_shows r' eg' /\ e_answers q' eg eg' /\
      forall s i, left_to_right seqb (name_index r') s = Some i -> nu s = Some i
  | Err x => exists s i, x = RightE (NameIndexStorageError (DuplicateRight s i i)) /\ nu s = Some i
  end.
Proof.
  intros q' V Kn Nr. pose proof (no_one _ _ _ _ _ HI _ Gx) as One.
  destruct (ids_known q Kn) as [qi Hq]. pose proof (val_shown q qi Hq) as Hsh. fold q' in Hsh.
  destruct (go_run _ _ _ _ _ _ _ HG g qi n _ _ Gy Hc) as (m & gq & Hm & [An Ae] & Hs).
  assert (fst (ag_run gr g qi (a_graph w, a_env w)) = Ok m) as Hm1 by now rewrite Hm.
  specialize (Hs (Nr qi m (eq_sym Hsh) Hm1)).
  destruct (view_lift _ _ One gq) as [Ln Le]. destruct V as [Vn Ve].
  assert (e_answers q' eg (RdfTop.lift nu rho gq)) as Hea.
  { rewrite Hsh. split.
    - intros e p. rewrite Ln, Vn. split.
      + intros (i & -> & H). apply An in H. destruct H as [H1 H2]. split; eauto.
        apply selects_node_rename; auto. apply (shown_inj _ _ One).
      + intros (H1 & i & -> & H2). exists i. split; auto. apply An. split; auto.
        apply selects_node_rename in H1; auto. apply (shown_inj _ _ One).
    - intros e p. rewrite Le, Ve. split.
      + intros (i & -> & H). apply Ae in H. destruct H as [H1 H2]. split; eauto.
        apply selects_rename; auto. apply (shown_inj _ _ One).
      + intros (H1 & i & -> & H2). exists i. split; auto. apply Ae. split; auto.
        apply selects_rename in H1; auto. apply (shown_inj _ _ One). }
  destruct (result_items m gq Hs) as (items & Hi & R1 & R2 & R3 & R4).
  set (x := names_into seqb rho (ids_in m items) index_new).
  exists (thn (in_result x) (fun new => Ok (Rdf new m u))). split; [|split].
  - unfold a_run, and_then_q at 1, at_left at 1. rewrite query_known, Hq by auto.
    unfold and_then_q at 1, at_left at 1, of_graph. rewrite Hm, state_of.
    unfold and_then_q at 1. rewrite set_names_known. unfold x, ids_in. rewrite names_into_app.
    destruct (names_into seqb rho (vertices m) index_new) as [y|e]; [|reflexivity]. cbn [in_result].
    unfold and_then_q. rewrite Hi, set_edges_known. now destruct (names_into seqb rho (flat_map (fun te => ids3 (fst te)) items) y).
  - intros es Me. rewrite <- (result_iff seqb seqb_eq _ _ One eg q m gq Hea items R1 R2 R3 R4 es Me). fold x.
    destruct x; simpl; split; intros [? ?]; try discriminate; eauto.
  - destruct x as [new|y] eqn:Q; simpl.
    + destruct (result_ok seqb seqb_eq _ _ One m gq Hs items R2 R4 new u Q) as [S1 S2]. exists (RdfTop.lift nu rho gq). auto.
    + destruct (result_error seqb seqb_eq _ _ One m items _ Q) as (s & i & -> & H). eauto.
Qed.
End Query.

(** ** Readers while things fail *)
Section Reads.
Context {S NP EP X Y F IE GE E : Type}.
Context (ix : any_index S X F IE) (gr : any_graph NP EP Y F GE) (mn : NP -> NP -> NP) (me : EP -> EP -> EP).
Context (calm : F -> Prop) (goodx : X -> Prop) (l2r : X -> S -> option (Id KUlid)) (r2l : X -> Id KUlid -> option S).
Context (goody : nat -> Y -> Prop) (abs : Y -> graph KUlid NP EP).
Context (HI : names_ok ix calm goodx l2r r2l) (HG : graph_ok E gr mn me calm goody abs).
Notation R := (any_rdf X Y F).
Notation err := (rdf_error S IE GE).
Notation M A := (R -> result err A * R).
Context (x : X) (Gx : goodx x).
Notation rho := (r2l x).

(** The same names and the same graph. *)
Definition like (w w' : R) : Prop := a_names w' = a_names w /\ a_graph w' = a_graph w /\ a_ulids w' = a_ulids w.
Lemma like_trans a b c : like a b -> like b c -> like a c.
Proof. intros (A & B & C) (A' & B' & C'). repeat split; congruence. Qed.
Definition gives {A} (m : M A) (a : A) : Prop := forall w r w', a_names w = x -> m w = (r, w') -> like w w' /\ (r = Ok a \/ exists e, r = Err e).

Lemma gives_and {A B} (m : M A) a (k : A -> M B) b : gives m a -> gives (k a) b -> gives (and_then m k) b.
Proof.
  intros H1 H2 w r w' Hx Q. unfold and_then in Q. destruct (m w) as [y w1] eqn:Q1. apply H1 in Q1; auto. destruct Q1 as [L [->|[e ->]]].
  - apply H2 in Q; [|destruct L; congruence]. destruct Q as [L2 Q]. split; auto. eapply like_trans; eauto.
  - injection Q as <- <-. eauto.
Qed.
Lemma gives_ok {A} (a : A) : gives (ok a) a.
Proof. intros w r w' _ [= <- <-]. split; [split|]; auto. Qed.
Lemma gives_show i : gives (a_lookup_id ix i) (shown rho i).
Proof.
  intros w r w' Hx Q. unfold a_lookup_id, and_then, of_names in Q. rewrite Hx in Q.
  destruct (ai_right ix i (x, a_env w)) as [a [x' f']] eqn:Q1. apply (no_right _ _ _ _ _ HI) in Q1; auto. destruct Q1 as [-> H].
  destruct a as [a|e]; injection Q as <- <-; (split; [repeat split; auto|]); [|eauto]. left. now rewrite (H a eq_refl).
Qed.
Lemma gives_items {A B} (show : A -> M B) (h : A -> B) y items (l : list (result GE A)) : (forall a, gives (show a) (h a)) ->
  yields calm y items l -> forall vs w xs w', l = map Ok vs -> a_names w = x -> a_graph w = y -> a_items show items w = (xs, w') ->
  like w w' /\ but_for_errors (map Ok (map h vs)) xs.
Proof.
  intros Hs Hy. induction Hy as [|it r items l [_ H2] Hy IH]; intros vs w xs w' Hl Hx Hw Q.
  - destruct vs; [|discriminate]. injection Q as <- <-. split; [split; auto|constructor].
  - destruct vs as [|a vs]; [discriminate|]. injection Hl as -> Hl. cbn [a_items] in Q.
    destruct (and_then (of_graph it) show w) as [z w1] eqn:Q1. destruct (a_items show items w1) as [zs w2] eqn:Q2. injection Q as <- <-.
    assert (like w w1 /\ (z = Ok (h a) \/ exists e, z = Err e)) as [L Hz].
    { unfold and_then, of_graph in Q1. rewrite Hw in Q1. destruct (it (y, a_env w)) as [c [y' f']] eqn:Q3. apply H2 in Q3. destruct Q3 as [-> [->|[e ->]]].
      - apply Hs in Q1; auto. destruct Q1 as [(L1 & L2 & L3) Q1]. split; auto. cbn in *. repeat split; congruence.
      - injection Q1 as <- <-. split; [cbn; repeat split; auto|eauto]. }
    destruct L as (L1 & L2 & L3). destruct (IH vs w1 zs w2) as [L' Hb]; auto; try congruence.
    split; [eapply like_trans; [|exact L']; repeat split; auto|]. constructor; auto.
Qed.

Lemma any_reads n (w : R) : a_names w = x -> goody n (a_graph w) ->
  exists vs, (forall f, calm f -> fst (a_iter_vertices ix gr (AnyRdf (a_names w) (a_graph w) (a_ulids w) f)) = vs) /\
    like w (snd (a_iter_vertices ix gr w)) /\ but_for_errors vs (fst (a_iter_vertices ix gr w)).
Proof.
  intros Hx Gy. destruct (go_vertices _ _ _ _ _ _ _ HG n (a_graph w) Gy) as (l & Hl & (ns & -> & _)).
  exists (map Ok (map (fun ip => (shown rho (fst ip), snd ip)) ns)). split.
  - intros f Hf. unfold a_iter_vertices. set (w0 := AnyRdf (a_names w) (a_graph w) (a_ulids w) f).
    rewrite (items_calm calm (a_show_pair ix) (fun ip => (shown rho (fst ip), snd ip)) f w0 _ (map Ok ns) eq_refl Hf) with (x := ns); auto.
    intros a. unfold a_show_pair, and_then. rewrite (show_id_calm ix calm goodx l2r r2l HI f) by (cbn; auto; now rewrite Hx). cbn [w0 a_names]. now rewrite Hx.
  - destruct (a_iter_vertices ix gr w) as [xs w'] eqn:Q. eapply gives_items in Q; eauto. intros a.
    apply (gives_and _ (shown rho (fst a))); [apply gives_show|apply gives_ok].
Qed.
Lemma any_reads_edges o n (w : R) : a_names w = x -> goody n (a_graph w) ->
  exists vs, (forall f, calm f -> fst (a_iter_edges ix gr o (AnyRdf (a_names w) (a_graph w) (a_ulids w) f)) = vs) /\
    like w (snd (a_iter_edges ix gr o w)) /\ but_for_errors vs (fst (a_iter_edges ix gr o w)).
Proof.
  intros Hx Gy. destruct (go_edges _ _ _ _ _ _ _ HG o n (a_graph w) Gy) as (l & Hl & (ns & -> & _)).
  exists (map Ok (map (fun te => (triple_map (shown rho) (fst te), snd te)) ns)). split.
  - intros f Hf. unfold a_iter_edges. set (w0 := AnyRdf (a_names w) (a_graph w) (a_ulids w) f).
    rewrite (items_calm calm (a_show_edge ix) (fun te => (triple_map (shown rho) (fst te), snd te)) f w0 _ (map Ok ns) eq_refl Hf) with (x := ns); auto.
    intros a. unfold a_show_edge, and_then. rewrite (show3_calm ix calm goodx l2r r2l HI f) by (cbn; auto; now rewrite Hx). cbn [w0 a_names]. now rewrite Hx.
  - destruct (a_iter_edges ix gr o w) as [xs w'] eqn:Q. eapply gives_items in Q; eauto. intros a.
    apply (gives_and _ (triple_map (shown rho) (fst a))); [|apply gives_ok].
    apply (gives_and _ (shown rho (sub (fst a)))); [apply gives_show|]. apply (gives_and _ (shown rho (pred (fst a)))); [apply gives_show|].
    apply (gives_and _ (shown rho (obj (fst a)))); [apply gives_show|]. apply gives_ok.
Qed.
End Reads.

Lemma any_readers {S NP EP X Y F IE GE E : Type} (ix : any_index S X F IE) (gr : any_graph NP EP Y F GE) mn me calm goodx l2r r2l goody abs :
  names_ok ix calm goodx l2r r2l -> graph_ok E gr mn me calm goody abs ->
  forall n (w : any_rdf X Y F), goodx (a_names w) -> goody n (a_graph w) ->
  forall f, calm f ->
  let w0 := AnyRdf (a_names w) (a_graph w) (a_ulids w) f in
  but_for_errors (fst (a_iter_vertices ix gr w0)) (fst (a_iter_vertices ix gr w)) /\
  (forall o, but_for_errors (fst (a_iter_edges ix gr o w0)) (fst (a_iter_edges ix gr o w))) /\
  a_names (snd (a_iter_vertices ix gr w)) = a_names w /\ a_graph (snd (a_iter_vertices ix gr w)) = a_graph w /\
  forall o, a_names (snd (a_iter_edges ix gr o w)) = a_names w /\ a_graph (snd (a_iter_edges ix gr o w)) = a_graph w.
Proof.
  intros HI HG n w Gx Gy f Hf w0.
  destruct (any_reads ix gr mn me calm goodx l2r r2l goody abs HI HG _ Gx n w eq_refl Gy) as (vs & A1 & (A2 & A3 & _) & A4).
  split; [unfold w0; now rewrite A1|]. split.
  - intros o. destruct (any_reads_edges ix gr mn me calm goodx l2r r2l goody abs HI HG _ Gx o n w eq_refl Gy) as (es & B1 & _ & B4).
    unfold w0. now rewrite B1.
  - split; auto. split; auto. intros o.
    destruct (any_reads_edges ix gr mn me calm goodx l2r r2l goody abs HI HG _ Gx o n w eq_refl Gy) as (es & _ & (B2 & B3 & _) & _). auto.
Qed.
