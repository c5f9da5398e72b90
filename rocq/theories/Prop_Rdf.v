(** C41-C44: the RDF store. *)
From Coq Require Import NArith List Sorted String.
From Verif Require Import Bytes Core IdType Store Mem MemIndex Spec History GenSpec MemTop
  Rdf RdfSpec RdfFacts RdfTop RdfQuery RdfIter Ex.
Import ListNotations.

(** ** C41 *)

(** Any history of calls, as long as none reports an error of the name index and the edge
    records of the graph get pairwise different identifiers.  Names and identifiers correspond
    one to one, the names with an identifier are those given to an insert or a merge, every
    call answers as specified, and the iterators list the abstract graph over entities, each
    shown by its name if it has one. *)
Theorem C41_history : forall S NP EP E (seqb : S -> S -> bool),
  (forall a b, seqb a b = true <-> a = b) ->
  forall mn me (l : list (rop S NP EP E)) g u xs r,
  rdf_history seqb mn me l (rdf_new g u) = (xs, r) ->
  ~ index_error_in xs -> drawn_distinct (id_generator (r_graph r)) ->
  let l2r := left_to_right seqb (name_index r) in
  let r2l := right_to_left id_eqb (name_index r) in
  one_to_one l2r r2l /\
  (forall s, (exists i, l2r s = Some i) <-> In s (flat_map given l)) /\
  xs = fst (e_history seqb mn me (by_name r2l) [] l e_empty) /\
  rdf_shows r (snd (e_history seqb mn me (by_name r2l) [] l e_empty)).
Proof. exact @top_rdf_history. Qed.
Print Assumptions C41_history.

(** Pairwise different Ulids: no call reports an error of the name index. *)
Theorem C41_no_index_error : forall S NP EP E (seqb : S -> S -> bool),
  (forall a b, seqb a b = true <-> a = b) ->
  forall mn me (l : list (rop S NP EP E)) g u,
  drawn_distinct (r_ulids (snd (rdf_history seqb mn me l (rdf_new g u)))) ->
  ~ index_error_in (fst (rdf_history seqb mn me l (rdf_new g u))).
Proof. exact @top_no_index_error. Qed.
Print Assumptions C41_no_index_error.

(** A name keeps its identifier and an identifier its name, on any store and whatever the Ulids. *)
Theorem C41_stable : forall S NP EP E (seqb : S -> S -> bool),
  (forall a b, seqb a b = true <-> a = b) ->
  forall mn me (l : list (rop S NP EP E)) (r : rdf S NP EP),
  let r' := snd (rdf_history seqb mn me l r) in
  (forall s i, left_to_right seqb (name_index r) s = Some i -> left_to_right seqb (name_index r') s = Some i) /\
  (forall i s, right_to_left id_eqb (name_index r) i = Some s -> right_to_left id_eqb (name_index r') i = Some s).
Proof. exact @top_rdf_stable. Qed.
Print Assumptions C41_stable.

(** If no Ulid that the caller uses is drawn for a name, identifiers do not matter at all. *)
Theorem C41_plain : forall S NP EP E (seqb : S -> S -> bool),
  (forall a b, seqb a b = true <-> a = b) ->
  forall mn me (l : list (rop S NP EP E)) g u xs r,
  rdf_history seqb mn me l (rdf_new g u) = (xs, r) ->
  drawn_distinct (r_ulids r) -> drawn_distinct (id_generator (r_graph r)) ->
  (forall i n, In (EUlid i) (flat_map entities_of l) -> n < g_pos (r_ulids r) -> g_seq (r_ulids r) n <> i)%nat ->
  xs = fst (e_history seqb mn me (fun e => e) [] l e_empty) /\
  rdf_shows r (snd (e_history seqb mn me (fun e => e) [] l e_empty)).
Proof. exact @top_rdf_plain. Qed.
Print Assumptions C41_plain.

(** The other iterators. *)
Theorem C41_iterators : forall S NP EP o (r : rdf S NP EP),
  rdf_iter_nodes o r = (rdf_iter_vertices r, rdf_iter_edges o r) /\
  rdf_into_iter_nodes o r = rdf_iter_nodes o r /\
  rdf_into_iter_vertices r = rdf_iter_vertices r /\
  rdf_into_iter_edges o r = rdf_iter_edges o r /\
  rdf_into_iter_edges_with_props o r = rdf_iter_edges_with_props o r /\
  exists ns, rdf_vertices r = Ok ns /\ map Ok ns = map (res_map fst) (rdf_iter_vertices r).
Proof. exact @rdf_into_iter_eq. Qed.
Print Assumptions C41_iterators.

Theorem C41_with_props : forall S NP EP E (seqb : S -> S -> bool),
  (forall a b, seqb a b = true <-> a = b) ->
  forall mn me o (r : rdf S NP EP) eg, rdf_reachable E seqb mn me r -> rdf_shows r eg ->
  exists items, rdf_iter_edges_with_props o r = map Ok items /\
    StronglySorted
      (fun x y => behind_edge_lt (right_to_left id_eqb (name_index r)) o (pt_edge x) (pt_edge y)) items /\
    forall s sp p ep b op,
      In (PropsTriple (s, sp) (p, ep) (b, op)) items <->
      e_node eg s = Some sp /\ e_edge eg (Triple s p b) = Some ep /\ e_node eg b = Some op.
Proof. exact @top_rdf_with_props. Qed.
Print Assumptions C41_with_props.

(** A name given before and after its identifier, an unnamed entity, a removal of an unknown
    name, a failing source. *)
Definition ui (n : N) : Id KUlid := uint_mk 16 n.
Definition upto (n : N) : gen KUlid := Gen (fun i => ui (n + N.of_nat i)) 0.
Definition downto (n : N) : gen KUlid := Gen (fun i => ui (n - N.of_nat i)) 0.
Notation nm := EString.
Definition rdf_ops : list (rop string N N N) :=
  [ RInsertNode (nm "foo") 1; RInsertNode (nm "bar") 2; RInsertNode (EUlid (ui 7)) 3;
    RInsertEdge (Triple (nm "foo") (nm "knows") (nm "bar")) 123;
    RRemoveNode (nm "baz");
    RInsertEdge (Triple (EUlid (ui 49)) (nm "knows") (EUlid (ui 7))) 456;
    RMergeNode (nm "foo") 4;
    RExtend (RdfSource [Ok (nm "qux", 9)] [Ok (Triple (nm "qux") (EUlid (ui 48)) (nm "foo"), 5); Err 404]) ]%string.
Example C41_case :
  let x := rdf_history String.eqb mg mg rdf_ops (rdf_new (upto 1000) (downto 50)) in
  fst x = [Ok tt; Ok tt; Ok tt; Ok tt; Err (LeftE (NameNotFound "baz")); Ok tt; Ok tt; Err (RightE 404)]%string /\
  rdf_vertices (snd x) = Ok [EUlid (ui 7); nm "qux"; nm "bar"; nm "foo"]%string /\
  rdf_iter_vertices (snd x) = [Ok (EUlid (ui 7), 3); Ok (nm "qux", 9); Ok (nm "bar", 2); Ok (nm "foo", 14)]%string /\
  rdf_iter_edges SPO (snd x) =
    [ Ok (Triple (nm "qux") (nm "knows") (nm "foo"), 5);
      Ok (Triple (nm "bar") (nm "knows") (EUlid (ui 7)), 456);
      Ok (Triple (nm "foo") (nm "knows") (nm "bar"), 123) ]%string.
Proof. vm_compute. repeat split. Qed.

(** ** C42.  False of the code: query.rs:49-72 associates a name again for every edge it occurs
    in, and set refuses that. *)
Definition two_edges : list (rop string N N N) :=
  [ RInsertEdge (Triple (nm "a") (nm "p") (nm "b")) 1; RInsertEdge (Triple (nm "b") (nm "q") (nm "c")) 2 ]%string.
Definition two_store : rdf string N N := snd (rdf_history String.eqb mg mg two_edges (rdf_new (upto 1000) (upto 10))).

Lemma two_reachable : rdf_reachable N String.eqb mg mg two_store.
Proof.
  apply rdf_reachable_history; [apply RR_new|]. apply (C41_no_index_error _ _ _ _ _ String.eqb_eq).
  apply drawn_distinct_check. vm_compute. reflexivity.
Qed.

Theorem C42_refuted : exists (r : rdf string N N) q g u s i,
  rdf_reachable N String.eqb mg mg r /\
  (forall s, In (EString s) (mentioned q) -> exists i, left_to_right String.eqb (name_index r) s = Some i) /\
  (forall qi, query_try_map (lookup_entity String.eqb (name_index r)) q = Ok (E := rdf_error string (index_error string (Id KUlid)) unit) qi ->
     drawn_distinct (id_generator (run g qi (r_graph r)))) /\
  rdf_run String.eqb g u q r = Err (RightE (NameIndexStorageError (DuplicateRight s i i))).
Proof.
  exists two_store, (QP [nm "p"; nm "q"]%string), (upto 2000), (upto 3000), "b"%string, (ui 12).
  split; [exact two_reachable|]. split; [|split].
  - intros s [H|[H|[]]]; inversion H; eexists; vm_compute; reflexivity.
  - intros qi H. assert (Q : qi = QP [ui 11; ui 13]) by (vm_compute in H; inversion H; reflexivity).
    subst qi. apply drawn_distinct_check. vm_compute. reflexivity.
  - vm_compute. reflexivity.
Qed.
Print Assumptions C42_refuted.

(** What is true: with all names of the query known, run succeeds if and only if no name occurs
    twice in the matching edges; that is the only error; if it succeeds, the result displays
    exactly what matches, and the names keep their identifiers. *)
Theorem C42_run_partial : forall S NP EP E (seqb : S -> S -> bool),
  (forall a b, seqb a b = true <-> a = b) ->
  forall mn me (r : rdf S NP EP), rdf_reachable E seqb mn me r -> forall eg, rdf_shows r eg ->
  forall q g u,
  (forall s, In (EString s) (mentioned q) -> exists i, left_to_right seqb (name_index r) s = Some i) ->
  (forall qi, query_try_map (lookup_entity seqb (name_index r)) q = Ok qi ->
     drawn_distinct (id_generator (run g qi (r_graph r)))) ->
  let q' := query_map (by_name (right_to_left id_eqb (name_index r))) q in
  (forall es, matching q' eg es ->
     ((exists r', rdf_run seqb g u q r = Ok r') <-> NoDup (flat_map names_of es))) /\
  match rdf_run seqb g u q r with
  | Ok r' => exists eg', rdf_shows r' eg' /\ e_answers q' eg eg' /\
      forall s i, left_to_right seqb (name_index r') s = Some i -> left_to_right seqb (name_index r) s = Some i
  | Err x => exists s i, x = RightE (NameIndexStorageError (DuplicateRight s i i)) /\
      left_to_right seqb (name_index r) s = Some i
  end.
Proof.
  intros S NP EP E seqb He mn me r Re eg Sh q g u Kn Nr q'. split.
  - intros es. apply (@top_rdf_run_iff S NP EP E seqb He mn me); auto.
  - destruct (rdf_run seqb g u q r) as [r'|x] eqn:Q.
    + eapply (@top_rdf_run_ok S NP EP E seqb He mn me); eauto.
    + eapply (@top_rdf_run_error S NP EP E seqb He mn me); eauto.
Qed.
Print Assumptions C42_run_partial.

(** An unknown name in the query is reported, on any store. *)
Theorem C42_unknown : forall S NP EP (seqb : S -> S -> bool) (r : rdf S NP EP) q g u s,
  In (EString s) (mentioned q) -> left_to_right seqb (name_index r) s = None ->
  exists s', In (EString s') (mentioned q) /\ left_to_right seqb (name_index r) s' = None /\
    rdf_run seqb g u q r = Err (LeftE (NameNotFound s')).
Proof. exact @top_rdf_run_unknown. Qed.
Print Assumptions C42_unknown.

Example C42_case :
  let ask q := match rdf_run String.eqb (upto 2000) (upto 3000) q two_store with
               | Ok r => Ok (rdf_iter_edges SPO r)
               | Err e => Err e
               end in
  ask (QS [nm "b"; nm "c"]%string) = Ok [Ok (Triple (nm "b") (nm "q") (nm "c"), 2)]%string /\
  ask (QO [nm "b"; nm "c"]%string) = Err (RightE (NameIndexStorageError (DuplicateRight "b" (ui 12) (ui 12))))%string /\
  ask (QSO [(nm "a", nm "x")]%string) = Err (LeftE (NameNotFound "x"))%string.
Proof. vm_compute. auto. Qed.

(** ** C43 *)
Theorem C43_remove_node : forall S NP EP (seqb : S -> S -> bool) (r : rdf S NP EP),
  (forall e i, denotes seqb r e i -> rdf_remove_node seqb e r = (Ok tt, set_graph (remove_node i (r_graph r)) r)) /\
  (forall s, left_to_right seqb (name_index r) s = None ->
     rdf_remove_node seqb (EString s) r = (Err (NameNotFound s), r)).
Proof. intros. split; [exact (remove_node_known seqb r) | exact (remove_node_unknown seqb r)]. Qed.
Print Assumptions C43_remove_node.

(** The first unknown name is reported. *)
Theorem C43_remove_edge : forall S NP EP (seqb : S -> S -> bool) (r : rdf S NP EP) t,
  (forall a b c, denotes seqb r (sub t) a -> denotes seqb r (pred t) b -> denotes seqb r (obj t) c ->
     rdf_remove_edge seqb t r = (Ok tt, set_graph (remove_edge (Triple a b c) (r_graph r)) r)) /\
  (forall s before after, names_of t = before ++ s :: after ->
     (forall s', In s' before -> left_to_right seqb (name_index r) s' <> None) ->
     left_to_right seqb (name_index r) s = None ->
     rdf_remove_edge seqb t r = (Err (NameNotFound s), r)).
Proof. intros. split; [exact (remove_edge_known seqb r t) | exact (remove_edge_unknown seqb r t)]. Qed.
Print Assumptions C43_remove_edge.

(** What is displayed afterwards. *)
Theorem C43_node_gone : forall S NP EP E (seqb : S -> S -> bool),
  (forall a b, seqb a b = true <-> a = b) ->
  forall mn me (r : rdf S NP EP) eg e i, rdf_reachable E seqb mn me r ->
  drawn_distinct (id_generator (r_graph r)) -> rdf_shows r eg -> denotes seqb r e i ->
  rdf_shows (snd (rdf_remove_node seqb e r))
    (e_del_node seqb (by_name (right_to_left id_eqb (name_index r)) e) eg).
Proof. exact @top_rdf_remove_node. Qed.
Print Assumptions C43_node_gone.

Theorem C43_edge_gone : forall S NP EP E (seqb : S -> S -> bool),
  (forall a b, seqb a b = true <-> a = b) ->
  forall mn me (r : rdf S NP EP) eg t a b c, rdf_reachable E seqb mn me r ->
  drawn_distinct (id_generator (r_graph r)) -> rdf_shows r eg ->
  denotes seqb r (sub t) a -> denotes seqb r (pred t) b -> denotes seqb r (obj t) c ->
  rdf_shows (snd (rdf_remove_edge seqb t r))
    (e_del_edge seqb (triple_map (by_name (right_to_left id_eqb (name_index r))) t) eg).
Proof. exact @top_rdf_remove_edge. Qed.
Print Assumptions C43_edge_gone.

Example C43_case :
  let r := two_store in
  rdf_iter_edges SPO (snd (rdf_remove_node String.eqb (nm "c"%string) r)) = [Ok (Triple (nm "a") (nm "p") (nm "b"), 1)]%string /\
  rdf_iter_edges SPO (snd (rdf_remove_edge String.eqb (Triple (nm "a") (EUlid (ui 11)) (nm "b"))%string r)) =
    [Ok (Triple (nm "b") (nm "q") (nm "c"), 2)]%string /\
  fst (rdf_remove_edge String.eqb (Triple (nm "a") (nm "x") (nm "y"))%string r) = Err (NameNotFound "x")%string.
Proof. vm_compute. auto. Qed.

(** ** C44.  False of the code: the items are compared in the order of the Ulids. *)
Definition swapped : list (rop string N N N) := [ RInsertNode (nm "a") 1; RInsertNode (nm "b") 2 ]%string.
Definition swapped_in (u : gen KUlid) : rdf string N N :=
  snd (rdf_history String.eqb mg mg swapped (rdf_new (upto 1000) u)).
Lemma swapped_ok v :
  MemTop.distinctb (map (g_seq (r_ulids (swapped_in v))) (seq 0 (g_pos (r_ulids (swapped_in v))))) = true ->
  g_pos (id_generator (r_graph (swapped_in v))) = 0%nat ->
  rdf_reachable N String.eqb mg mg (swapped_in v) /\
  rdf_shows (swapped_in v) (snd (e_history (E := N) String.eqb mg mg (fun e => e) [] swapped e_empty)).
Proof.
  intros D P. apply drawn_distinct_check in D. unfold swapped_in in *.
  pose proof (C41_no_index_error _ _ _ _ _ String.eqb_eq mg mg swapped (upto 1000) v D) as Ni.
  split; [apply rdf_reachable_history; [apply RR_new | exact Ni]|].
  destruct (rdf_history String.eqb mg mg swapped (rdf_new (upto 1000) v)) as [xs r] eqn:Q.
  destruct (C41_plain _ _ _ _ _ String.eqb_eq mg mg swapped (upto 1000) v xs r Q D) as [_ H].
  - intros i j Hi. simpl in P. rewrite P in Hi. inversion Hi.
  - intros i n [H|[H|[]]]; discriminate.
  - exact H.
Qed.

Theorem C44_refuted : exists (a b : rdf string N N) g,
  rdf_reachable N String.eqb mg mg a /\ rdf_reachable N String.eqb mg mg b /\
  rdf_shows a g /\ rdf_shows b g /\ rdf_try_eq String.eqb N.eqb N.eqb a b = Ok false.
Proof.
  destruct (swapped_ok (upto 10)) as [Ra Sa]; [vm_compute; reflexivity..|].
  destruct (swapped_ok (downto 20)) as [Rb Sb]; [vm_compute; reflexivity..|].
  exists (swapped_in (upto 10)), (swapped_in (downto 20)). eexists.
  repeat (split; [eassumption|]). vm_compute. reflexivity.
Qed.
Print Assumptions C44_refuted.

(** What is true: try_eq answers true if and only if the named graphs are the same and their
    vertices and edges come in the same order of the identifiers. *)
Theorem C44_exact_partial : forall S NP EP E (seqb : S -> S -> bool),
  (forall a b, seqb a b = true <-> a = b) ->
  forall mn me neqb eeqb (a b : rdf S NP EP) ga gb,
  rdf_reachable E seqb mn me a -> rdf_reachable E seqb mn me b -> rdf_shows a ga -> rdf_shows b gb ->
  let ra := right_to_left id_eqb (name_index a) in
  let rb := right_to_left id_eqb (name_index b) in
  exists x, rdf_try_eq seqb neqb eeqb a b = Ok x /\
    (x = true <->
      same_egraph neqb eeqb ga gb /\
      same_order (e_node ga) (behind_lt ra) (behind_lt rb) /\
      same_order (e_edge ga) (behind_edge_lt ra SPO) (behind_edge_lt rb SPO)).
Proof. exact @top_rdf_try_eq. Qed.
Print Assumptions C44_exact_partial.

(** In particular if the names have the same identifiers in both stores. *)
Theorem C44_same_ids_partial : forall S NP EP E (seqb : S -> S -> bool),
  (forall a b, seqb a b = true <-> a = b) ->
  forall mn me neqb eeqb (a b : rdf S NP EP) ga gb,
  rdf_reachable E seqb mn me a -> rdf_reachable E seqb mn me b -> rdf_shows a ga -> rdf_shows b gb ->
  (forall i, right_to_left id_eqb (name_index a) i = right_to_left id_eqb (name_index b) i) ->
  exists x, rdf_try_eq seqb neqb eeqb a b = Ok x /\ (x = true <-> same_egraph neqb eeqb ga gb).
Proof. exact @top_rdf_try_eq_same. Qed.
Print Assumptions C44_same_ids_partial.

Example C44_case :
  rdf_try_eq String.eqb N.eqb N.eqb (swapped_in (upto 10)) (swapped_in (upto 30)) = Ok true /\
  rdf_try_eq String.eqb N.eqb N.eqb (swapped_in (upto 10))
    (snd (rdf_remove_node String.eqb (nm "b") (swapped_in (upto 10))))%string = Ok false.
Proof. vm_compute. auto. Qed.
