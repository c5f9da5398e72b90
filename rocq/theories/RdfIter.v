(** The other iterators of the RDF store. *)
From Coq Require Import Arith NArith List Sorted Lia Bool.
From Verif Require Import Bytes BytesFacts OMap Core IdType IdTypeFacts Store Mem MemIndex Spec History
  GenSpec ListFacts MemTop Rdf RdfSpec RdfFacts RdfTop RdfQuery.
Import ListNotations.

Section Iter.
Context {S NP EP E : Type} (seqb : S -> S -> bool).
Context (seqb_eq : forall a b, seqb a b = true <-> a = b).
Context (mn : NP -> NP -> NP) (me : EP -> EP -> EP).
Notation I := (Id KUlid).
Notation ent := (entity S).
Notation R := (rdf S NP EP).
Notation err := (rdf_error S (index_error S I) unit).
Notation r2l r := (right_to_left id_eqb (name_index r)).
Implicit Types r : R.

Lemma rdf_reachable_history (l : list (rop S NP EP E)) : forall r,
  rdf_reachable E seqb mn me r -> ~ index_error_in (fst (rdf_history seqb mn me l r)) ->
  rdf_reachable E seqb mn me (snd (rdf_history seqb mn me l r)).
Proof.
  induction l as [|o l IH]; simpl; intros r Re N; auto.
  destruct (rdf_apply seqb mn me o r) as [x r1] eqn:A.
  specialize (IH r1). destruct (rdf_history seqb mn me l r1) as [xs r2]. simpl in *. apply IH.
  - eapply RR_op; eauto. intros y ->. apply N. exists y. simpl. auto.
  - intros [y H]. apply N. exists y. simpl. auto.
Qed.

Lemma rdf_into_iter_eq o r :
  rdf_iter_nodes o r = (rdf_iter_vertices r, rdf_iter_edges o r) /\
  rdf_into_iter_nodes o r = rdf_iter_nodes o r /\
  rdf_into_iter_vertices r = rdf_iter_vertices r /\
  rdf_into_iter_edges o r = rdf_iter_edges o r /\
  rdf_into_iter_edges_with_props o r = rdf_iter_edges_with_props o r /\
  exists ns, rdf_vertices r = Ok ns /\ map (@Ok err _) ns = map (res_map fst) (rdf_iter_vertices r).
Proof.
  destruct (into_iter_eq o (r_graph r)) as (A & B & C & D & F & G).
  split; [reflexivity|]. split; [unfold rdf_into_iter_nodes; now rewrite A|].
  split; [unfold rdf_into_iter_vertices; now rewrite B|].
  split; [unfold rdf_into_iter_edges; now rewrite C|].
  split; [unfold rdf_into_iter_edges_with_props; now rewrite D|].
  exists (map (shown (r2l r)) (vertices (r_graph r))). split.
  - unfold rdf_vertices. apply collect_all. reflexivity.
  - unfold rdf_iter_vertices. rewrite !map_map.
    assert (K : map (fun x : result unit (I * NP) => res_map fst (show_node (S := S) (name_index r) x)) (iter_vertices (r_graph r)) =
                map (fun x => match x with Ok i => @Ok err _ (shown (r2l r) i) | Err e => Err (GraphStorageError e) end)
                  (map (res_map (E := unit) fst) (iter_vertices (r_graph r)))).
    { rewrite map_map. apply map_ext. intros [[i p]|e]; reflexivity. }
    rewrite K, <- F, map_map. reflexivity.
Qed.

Lemma top_rdf_with_props o r eg :
  rdf_reachable E seqb mn me r -> rdf_shows r eg ->
  exists items, rdf_iter_edges_with_props o r = map Ok items /\
    StronglySorted (fun x y => behind_edge_lt (r2l r) o (pt_edge x) (pt_edge y)) items /\
    forall s sp p ep b op,
      In (PropsTriple (s, sp) (p, ep) (b, op)) items <->
      e_node eg s = Some sp /\ e_edge eg (Triple s p b) = Some ep /\ e_node eg b = Some op.
Proof.
  intros Re Sh. destruct (reach_inv seqb seqb_eq mn me r Re) as [one Rg].
  destruct (top_shows mn me _ Rg) as [g Sg].
  pose proof (reach_view seqb seqb_eq mn me r eg g Re Sh Sg) as V.
  destruct (top_with_props mn me o _ g Rg Sg) as (items & Hi & Si & Ii).
  set (f := fun x : props_triple I NP EP =>
    PropsTriple (shown (r2l r) (fst (p_sub x)), snd (p_sub x)) (shown (r2l r) (fst (p_pred x)), snd (p_pred x))
                (shown (r2l r) (fst (p_obj x)), snd (p_obj x))).
  exists (map f items). split; [|split].
  - unfold rdf_iter_edges_with_props. rewrite Hi, !map_map. apply map_ext.
    intros [[s sp] [p ep] [b op]]. reflexivity.
  - clear - Si. induction Si as [|x l Sl IH F]; simpl; constructor; auto.
    rewrite Forall_forall in *. intros y Hy. apply in_map_iff in Hy. destruct Hy as (z & <- & Hz).
    exists (pt_triple x), (pt_triple z). split; [reflexivity|]. split; [reflexivity|]. now apply F.
  - intros s sp p ep b op. rewrite in_map_iff. split.
    + intros ([[s' sp'] [p' ep'] [b' op']] & Q & H). apply Ii in H. destruct H as (H1 & H2 & H3).
      unfold f in Q. simpl in Q. inversion Q; subst; clear Q.
      rewrite !(view_node _ _ one g eg _ V). split; auto. split; auto.
      rewrite <- H2. apply (view_edge _ _ one g eg (Triple s' p' b') V).
    + intros (H1 & H2 & H3). apply V in H2. destruct H2 as ([s' p' b'] & Q & H2).
      unfold triple_map in Q. simpl in Q. inversion Q; subst; clear Q.
      rewrite (view_node _ _ one g eg s' V) in H1. rewrite (view_node _ _ one g eg b' V) in H3.
      exists (PropsTriple (s', sp) (p', ep) (b', op)). split; [reflexivity|]. now apply Ii.
Qed.

(** Equal identifiers for the same names: try_eq compares the graphs. *)
Lemma top_rdf_try_eq_same neqb eeqb a b ga gb :
  rdf_reachable E seqb mn me a -> rdf_reachable E seqb mn me b -> rdf_shows a ga -> rdf_shows b gb ->
  (forall i, r2l a i = r2l b i) ->
  exists x, rdf_try_eq seqb neqb eeqb a b = Ok x /\ (x = true <-> same_egraph neqb eeqb ga gb).
Proof.
  intros Ra Rb Sa Sb Q. destruct (top_rdf_try_eq seqb seqb_eq mn me neqb eeqb a b ga gb Ra Rb Sa Sb) as (x & Hx & Ix).
  exists x. split; auto. rewrite Ix.
  assert (Hs : forall i, shown (r2l a) i = shown (r2l b) i) by (intros i; unfold shown; now rewrite Q).
  assert (Ht : forall t, triple_map (shown (r2l a)) t = triple_map (shown (r2l b)) t)
    by (intros t; unfold triple_map; now rewrite !Hs).
  split; [tauto|]. intros H. split; auto. split.
  - intros y z _ _. unfold behind_lt. split; intros (i & j & <- & <- & L); exists i, j; rewrite !Hs; auto.
  - intros y z _ _. unfold behind_edge_lt. split; intros (i & j & <- & <- & L); exists i, j; rewrite !Ht; auto.
Qed.

End Iter.
