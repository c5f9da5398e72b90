(** C71: the RDF store over every pair of a name index and a graph. *)
From Coq Require Import NArith List.
From Verif Require Import Bytes Core IdType Store Mem MemIndex Spec GenSpec History Prog Sled SledHistory SledIndex
  Rdf RdfSpec RdfSled RdfSledSpec RdfAny RdfAnySpec RdfAnyLaws RdfAnyMain RdfAnyQuery RdfAnyBridge Ex ExSled Prop_RdfSled.
Import ListNotations.

(** ** Any index and any graph *)

(** Any sequence of calls, whatever fails meanwhile: names and identifiers correspond one to one,
    a name keeps its identifier, every call answers and does what it should on the graph over
    entities or reports that the index or the graph failed, and the readers then list that
    graph. *)
Theorem C71_any : forall S NP EP X Y F IE GE E (seqb : S -> S -> bool),
  (forall a b, seqb a b = true <-> a = b) ->
  forall (ix : any_index S X F IE) (gr : any_graph NP EP Y F GE) mn me calm goodx l2r r2l goody abs,
  names_ok ix calm goodx l2r r2l -> graph_ok E gr mn me calm goody abs ->
  forall (l : list (rop S NP EP E)) K (w : any_rdf X Y F),
  goodx (a_names w) -> goody (sum (map r_draws l)) (a_graph w) ->
  NoDup (next_ids (a_ulids w) (length (flat_map given l))) ->
  (forall i, In i (next_ids (a_ulids w) (length (flat_map given l))) -> r2l (a_names w) i = None) ->
  (forall s, l2r (a_names w) s <> None <-> In s K) ->
  let rs := fst (a_history ix gr l w) in
  let w' := snd (a_history ix gr l w) in
  goodx (a_names w') /\ goody 0%nat (a_graph w') /\ one_to_one (l2r (a_names w')) (r2l (a_names w')) /\
  (forall s i, l2r (a_names w) s = Some i -> l2r (a_names w') s = Some i) /\
  exists K' eg eg', (forall s, l2r (a_names w') s <> None <-> In s K') /\
    seen (r2l (a_names w')) (abs (a_graph w)) eg /\
    n_tracks seqb mn me (by_name (r2l (a_names w'))) l rs K eg K' eg' /\
    seen (r2l (a_names w')) (abs (a_graph w')) eg' /\
    a_shows ix gr calm r2l w' eg'.
Proof. exact @any_history. Qed.
Print Assumptions C71_any.

(** While things fail the readers yield the same items, with errors in place of some, and change
    neither the names nor the graph. *)
Theorem C71_readers : forall S NP EP X Y F IE GE E (ix : any_index S X F IE) (gr : any_graph NP EP Y F GE)
    mn me calm goodx l2r r2l goody abs,
  names_ok ix calm goodx l2r r2l -> graph_ok E gr mn me calm goody abs ->
  forall n (w : any_rdf X Y F), goodx (a_names w) -> goody n (a_graph w) ->
  forall f, calm f ->
  let w0 := AnyRdf (a_names w) (a_graph w) (a_ulids w) f in
  but_for_errors (fst (a_iter_vertices ix gr w0)) (fst (a_iter_vertices ix gr w)) /\
  (forall o, but_for_errors (fst (a_iter_edges ix gr o w0)) (fst (a_iter_edges ix gr o w))) /\
  a_names (snd (a_iter_vertices ix gr w)) = a_names w /\ a_graph (snd (a_iter_vertices ix gr w)) = a_graph w /\
  forall o, a_names (snd (a_iter_edges ix gr o w)) = a_names w /\ a_graph (snd (a_iter_edges ix gr o w)) = a_graph w.
Proof. exact @any_readers. Qed.
Print Assumptions C71_readers.

(** A query about known names when nothing fails: the store is as before, the query fails exactly
    when a name is in two places of the matching edges (the defect of C42 and C51), and otherwise
    the result shows the answer, under the same names. *)
Theorem C71_run : forall S NP EP X Y F IE GE E (seqb : S -> S -> bool),
  (forall a b, seqb a b = true <-> a = b) ->
  forall (ix : any_index S X F IE) (gr : any_graph NP EP Y F GE) mn me calm goodx l2r r2l goody abs,
  names_ok ix calm goodx l2r r2l -> graph_ok E gr mn me calm goody abs ->
  forall (w : any_rdf X Y F) n, goodx (a_names w) -> goody n (a_graph w) -> calm (a_env w) ->
  forall eg q g u,
  let q' := query_map (by_name (r2l (a_names w))) q in
  seen (r2l (a_names w)) (abs (a_graph w)) eg ->
  (forall s, In (EString s) (mentioned q) -> l2r (a_names w) s <> None) ->
  (forall qi m, query_map (shown (r2l (a_names w))) qi = q' ->
     fst (ag_run gr g qi (a_graph w, a_env w)) = Ok m -> drawn_distinct (id_generator m)) ->
  exists v, a_run ix gr seqb g u q w = (v, w) /\
  (forall es, matching q' eg es -> ((exists r', v = Ok r') <-> NoDup (flat_map names_of es))) /\
  match v with
  | Ok r' => exists eg', rdf_shows r' eg' /\ e_answers q' eg eg' /\
      forall s i, left_to_right seqb (name_index r') s = Some i -> l2r (a_names w) s = Some i
  | Err x => exists s i, x = RightE (NameIndexStorageError (DuplicateRight s i i)) /\ l2r (a_names w) s = Some i
  end.
Proof. exact @any_run. Qed.
Print Assumptions C71_run.

(** ** The implementations of the crate do what is required *)
Theorem C71_mem_names : forall S F (seqb : S -> S -> bool) (calm : F -> Prop), (forall a b, seqb a b = true <-> a = b) ->
  names_ok (mem_names F seqb) calm (mem_names_good seqb) (left_to_right seqb) (right_to_left id_eqb).
Proof. exact @mem_names_ok. Qed.
Print Assumptions C71_mem_names.

(** The database of an index that any number of processes have used, at the same time, failing
    and dying. *)
Theorem C71_sled_names : forall S SE BE (cs : codec BE S) (cu : codec BE (Id KUlid)), codec_ok cs -> codec_ok cu -> codec_total cu ->
  exists good, names_ok (sled_names SE cs cu) works good (sled_l2r SE cs cu) (sled_r2l SE cs cu) /\
  forall es, good (si_epochs (SE := SE) cs cu es idb_new).
Proof. exact @sled_names_law. Qed.
Print Assumptions C71_sled_names.

Theorem C71_mem_graph : forall NP EP E mn me F (calm : F -> Prop), exists (good : nat -> mem KUlid NP EP -> Prop) abs,
  graph_ok E (mem_graph F mn me) mn me calm good abs /\
  (forall n m, reachable E mn me m -> drawn_distinct (Gen (g_seq (id_generator m)) (g_pos (id_generator m) + n)%nat) -> good n m) /\
  forall n m, good n m -> shows m (abs m).
Proof. exact @mem_graph_law. Qed.
Print Assumptions C71_mem_graph.

Theorem C71_sled_graph : forall NP EP SE BE E mn me (cn : codec BE NP) (ce : codec BE EP), codec_ok cn -> codec_ok ce ->
  exists (good : nat -> db * handle KUlid -> Prop) abs,
  graph_ok E (sled_graph SE cn ce mn me) mn me works good abs /\
  (forall n (ls : list (life (k := KUlid) (NP := NP) (EP := EP) (SE := SE) (E := E))) h,
    NoDup (life_keys ls ++ map to_be_bytes (next_ids (h_gen h) n)) -> extends_done cn ce mn me ls db_new ->
    good n (lives cn ce mn me ls db_new, h) /\
    moments (SE := SE) (BE := BE) mn me (map lf_ops ls) g_empty (abs (lives cn ce mn me ls db_new, h))) /\
  forall n y, good n y -> sled_shows SE cn ce (fst y) (abs y).
Proof. exact @sled_graph_law. Qed.
Print Assumptions C71_sled_graph.

(** ** The two mixtures *)

(** Names in memory over a graph in a database that processes have used before: none of the
    vertices of the graph has a name at first. *)
Theorem C71_mem_sled : forall S NP EP SE BE E (seqb : S -> S -> bool), (forall a b, seqb a b = true <-> a = b) ->
  forall mn me (cn : codec BE NP) (ce : codec BE EP) (ls : list (life (k := KUlid) (NP := NP) (EP := EP) (SE := SE) (E := E))) h u fs
    (l : list (rop S NP EP E)),
  codec_ok cn -> codec_ok ce ->
  NoDup (life_keys ls ++ map to_be_bytes (next_ids (h_gen h) (sum (map r_draws l)))) -> extends_done cn ce mn me ls db_new ->
  NoDup (next_ids u (length (flat_map given l))) ->
  let ix := mem_names (list (option SE)) seqb in
  let gr := sled_graph SE cn ce mn me in
  let d := lives cn ce mn me ls db_new in
  let x := a_history ix gr l (AnyRdf index_new (d, h) u fs) in
  let r2l := right_to_left id_eqb (a_names (snd x)) in
  one_to_one (left_to_right seqb (a_names (snd x))) r2l /\
  exists g K' eg eg',
    moments (SE := SE) (BE := BE) mn me (map lf_ops ls) g_empty g /\ sled_shows SE cn ce d g /\ seen r2l g eg /\
    (forall s, left_to_right seqb (a_names (snd x)) s <> None <-> In s K') /\
    n_tracks seqb mn me (by_name r2l) l (fst x) [] eg K' eg' /\
    a_shows ix gr works (right_to_left id_eqb) (snd x) eg'.
Proof. exact @mem_sled. Qed.
Print Assumptions C71_mem_sled.

(** Names in a database that processes have used before, over a graph in memory. *)
Theorem C71_sled_mem : forall S NP EP SE BE E (seqb : S -> S -> bool), (forall a b, seqb a b = true <-> a = b) ->
  forall mn me (cs : codec BE S) (cu : codec BE (Id KUlid)) es (m : mem KUlid NP EP) u fs (l : list (rop S NP EP E)) K,
  codec_ok cs -> codec_ok cu -> codec_total cu ->
  reachable E mn me m -> drawn_distinct (Gen (g_seq (id_generator m)) (g_pos (id_generator m) + sum (map r_draws l))%nat) ->
  NoDup (next_ids u (length (flat_map given l))) ->
  let d := si_epochs (SE := SE) cs cu es idb_new in
  (forall i, In i (next_ids u (length (flat_map given l))) -> sled_r2l SE cs cu d i = None) ->
  (forall s, sled_l2r SE cs cu d s <> None <-> In s K) ->
  let ix := sled_names SE cs cu in
  let gr := mem_graph (list (option SE)) mn me in
  let x := a_history ix gr l (AnyRdf d m u fs) in
  let r2l := sled_r2l SE cs cu (a_names (snd x)) in
  one_to_one (sled_l2r SE cs cu (a_names (snd x))) r2l /\
  (forall s i, sled_l2r SE cs cu d s = Some i -> sled_l2r SE cs cu (a_names (snd x)) s = Some i) /\
  exists g K' eg eg', shows m g /\ seen r2l g eg /\
    (forall s, sled_l2r SE cs cu (a_names (snd x)) s <> None <-> In s K') /\
    n_tracks seqb mn me (by_name r2l) l (fst x) K eg K' eg' /\
    a_shows ix gr works (sled_r2l SE cs cu) (snd x) eg'.
Proof. exact @sled_mem. Qed.
Print Assumptions C71_sled_mem.

(** ** Rdf.v and RdfSled.v are the two others *)
Theorem C71_mem_mem : forall S NP EP F E (seqb : S -> S -> bool) mn me (l : list (rop S NP EP E)) (r : rdf S NP EP) (f : F),
  a_history (mem_names F seqb) (mem_graph F mn me) l (of_rdf r f) =
  (fst (rdf_history seqb mn me l r), of_rdf (snd (rdf_history seqb mn me l r)) f).
Proof. exact @mem_mem_history. Qed.
Print Assumptions C71_mem_mem.

Theorem C71_mem_mem_readers : forall S NP EP F (seqb : S -> S -> bool) mn me (r : rdf S NP EP) (f : F),
  let ix := mem_names F seqb in let gr := mem_graph F mn me in
  a_vertices ix gr (of_rdf r f) = (rdf_vertices r, of_rdf r f) /\
  a_iter_vertices ix gr (of_rdf r f) = (rdf_iter_vertices r, of_rdf r f) /\
  forall o, a_iter_edges ix gr o (of_rdf r f) = (rdf_iter_edges o r, of_rdf r f) /\
    a_iter_edges_with_props ix gr o (of_rdf r f) = (rdf_iter_edges_with_props o r, of_rdf r f) /\
    a_into_iter_nodes ix gr o (of_rdf r f) = (rdf_into_iter_nodes o r, of_rdf r f).
Proof. exact @mem_mem_readers. Qed.
Print Assumptions C71_mem_mem_readers.

Theorem C71_mem_mem_run : forall S NP EP F (seqb : S -> S -> bool) mn me g u q (r : rdf S NP EP) (f : F),
  a_run (mem_names F seqb) (mem_graph F mn me) seqb g u q (of_rdf r f) = (rdf_run seqb g u q r, of_rdf r f).
Proof. exact @mem_mem_run. Qed.
Print Assumptions C71_mem_mem_run.

Theorem C71_sled_sled : forall S NP EP SE BE E (cs : codec BE S) (cu : codec BE (Id KUlid)) (cn : codec BE NP) (ce : codec BE EP) mn me
    (l : list (rop S NP EP E)) h (f : list (option SE)) d,
  a_history (sled_names SE cs cu) (sled_graph SE cn ce mn me) l (of_rdb h d f) =
  let '(rs, h', d', f') := exec (rs_history cs cu cn ce mn me l h) f d in (rs, of_rdb h' d' f').
Proof. exact @sled_sled_history. Qed.
Print Assumptions C71_sled_sled.

Theorem C71_sled_sled_readers : forall S NP EP SE BE (cs : codec BE S) (cu : codec BE (Id KUlid)) (cn : codec BE NP) (ce : codec BE EP) mn me
    h (f : list (option SE)) d,
  let ix := sled_names SE cs cu in let gr := sled_graph SE cn ce mn me in
  let same A (x : A * any_rdf idb (db * handle KUlid) (list (option SE))) p := x = let '(a, d', f') := exec p f d in (a, of_rdb h d' f') in
  same _ (a_vertices ix gr (of_rdb h d f)) (rs_vertices cs cu) /\
  same _ (a_iter_vertices ix gr (of_rdb h d f)) (rs_iter_vertices cs cu cn) /\
  forall o, same _ (a_iter_edges ix gr o (of_rdb h d f)) (rs_iter_edges cs cu ce o) /\
    same _ (a_iter_edges_with_props ix gr o (of_rdb h d f)) (rs_iter_edges_with_props cs cu cn ce o).
Proof. exact @sled_sled_reads. Qed.
Print Assumptions C71_sled_sled_readers.

Theorem C71_sled_sled_run : forall S NP EP SE BE (cs : codec BE S) (cu : codec BE (Id KUlid)) (cn : codec BE NP) (ce : codec BE EP) mn me
    (seqb : S -> S -> bool) g u q h (f : list (option SE)) d,
  a_run (sled_names SE cs cu) (sled_graph SE cn ce mn me) seqb g u q (of_rdb h d f) =
  let '(r, d', f') := exec (rs_run cs cu cn ce seqb g u q) f d in (r, of_rdb h d' f').
Proof. exact @sled_sled_run. Qed.
Print Assumptions C71_sled_sled_run.

(** ** Examples *)
Definition ex_calls : list xrop :=
  [ RInsertNode (nm 1) 11; RInsertEdge (Triple (nm 1) (nm 2) (EUlid (ul 70))) 4; RMergeNode (nm 1) 3;
    RRemoveNode (nm 9); RMergeEdge (Triple (nm 1) (nm 2) (EUlid (ul 70))) 5; RInsertNode (nm 8) 7 ].
Definition gh (n : N) : handle KUlid := Handle (ulids n) (ulids 9000).
Definition old : list (life (k := KUlid) (NP := N) (EP := N) (SE := N) (E := N)) :=
  [ Life (gh 100) [ OInsertNode (ul 50) 5; OInsertEdge (Triple (ul 50) (ul 51) (ul 52)) 6; ORemoveNode (ul 50) ] [] 3 ].
Notation mn_ix := (mem_names (list (option N)) N.eqb).
Notation sg_gr := (sled_graph N nc nc mg mg).
Notation sn_ix := (sled_names N nc uc).
Notation mg_gr := (mem_graph (list (option N)) mg mg).

(** Names in memory: the fourth storage step after the first call fails.  A new process does not
    know the names any more. *)
Example C71_case_mem_sled :
  let d := lives nc nc mg mg old db_new in
  let x := a_history (E := N) mn_ix sg_gr ex_calls (AnyRdf index_new (d, gh 500) (ulids 30) [None; None; None; Some 6]) in
  NoDup (life_keys old ++ map to_be_bytes (next_ids (h_gen (gh 500)) (sum (map r_draws ex_calls)))) /\
  extends_done nc nc mg mg old db_new /\
  fst x = [Ok tt; Ok tt; Ok tt; Err (LeftE (NameNotFound 9)); Err (LeftE (GraphStorageError (SledError 6))); Ok tt] /\
  fst (a_iter_vertices mn_ix sg_gr (snd x)) = [Ok (nm 1, 113); Ok (nm 8, 7); Ok (EUlid (ul 50), 5)] /\
  fst (a_iter_edges mn_ix sg_gr POS (snd x)) =
    [Ok (Triple (nm 1) (nm 2) (EUlid (ul 70)), 4); Ok (Triple (EUlid (ul 50)) (EUlid (ul 51)) (EUlid (ul 52)), 6)] /\
  fst (a_iter_vertices mn_ix sg_gr (AnyRdf index_new (a_graph (snd x)) (ulids 60) [])) =
    [Ok (EUlid (ul 30), 113); Ok (EUlid (ul 32), 7); Ok (EUlid (ul 50), 5)].
Proof.
  split; [apply nodupb_ok; vm_compute; reflexivity|]. split; [split; [left; repeat constructor|exact Logic.I]|].
  vm_compute. repeat split.
Qed.

(** Names in a database: the same failure hits the index.  A new process knows the names, and its
    graph is empty. *)
Example C71_case_sled_mem :
  let x := a_history (E := N) sn_ix mg_gr ex_calls (AnyRdf idb_new (mem_new (ulids 500)) (ulids 30) [None; None; None; Some 6]) in
  let y := a_history (E := N) sn_ix mg_gr [RMergeNode (nm 8) 2] (AnyRdf (a_names (snd x)) (mem_new (ulids 500)) (ulids 60) []) in
  fst x = [Ok tt; Err (LeftE (NameIndexStorageError (ISledError 6))); Ok tt; Err (LeftE (NameNotFound 9)); Ok tt; Ok tt] /\
  fst (a_iter_vertices sn_ix mg_gr (snd x)) = [Ok (nm 1, 113); Ok (nm 8, 7)] /\
  fst (a_iter_edges sn_ix mg_gr POS (snd x)) = [Ok (Triple (nm 1) (nm 2) (EUlid (ul 70)), 5)] /\
  fst (a_iter_vertices sn_ix mg_gr (snd y)) = [Ok (nm 8, 2)] /\
  vertices (a_graph (snd y)) = [ul 32].
Proof. vm_compute. repeat split. Qed.

(** Queries: a name that is not there, an answer, and a name in two places of the matching edges. *)
Example C71_case_run :
  let d := lives nc nc mg mg old db_new in
  let x := snd (a_history (E := N) mn_ix sg_gr [RInsertEdge (Triple (nm 1) (nm 2) (nm 3)) 4; RInsertEdge (Triple (nm 3) (nm 2) (EUlid (ul 50))) 6]
    (AnyRdf index_new (d, gh 500) (ulids 30) [])) in
  let ask q := match fst (a_run mn_ix sg_gr N.eqb (ulids 2000) (ulids 3000) q x) with
               | Ok r => Ok (rdf_iter_vertices r, rdf_iter_edges SPO r)
               | Err e => Err e
               end in
  ask (QS [nm 1; EUlid (ul 50)]) = Ok ([], [Ok (Triple (nm 1) (nm 2) (nm 3), 4); Ok (Triple (EUlid (ul 50)) (EUlid (ul 51)) (EUlid (ul 52)), 6)]) /\
  ask (QS [nm 7]) = Err (LeftE (NameNotFound 7)) /\
  ask (QP [nm 2]) = Err (RightE (NameIndexStorageError (DuplicateRight 3 (ul 32) (ul 32)))).
Proof. vm_compute. repeat split. Qed.
