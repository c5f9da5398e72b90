(** C60: copying a whole RDF store into a new one, over either backend.  [e_delivers s g]: the
    source lists exactly the graph over entities, each vertex and each edge once. *)
From Coq Require Import NArith List.
From Verif Require Import Bytes BytesFacts Core IdType Store Mem MemIndex Spec GenSpec History MemTop Prog Sled SledHistory SledIndex
  Rdf RdfSpec RdfTop RdfIter RdfSled RdfSledSpec RdfCopySpec RdfCopyFacts Ex ExSled Prop_RdfSled.
Import ListNotations.

(** A store over Mem, or over sled, given by value. *)
Theorem C60_from_mem : forall S NP EP E (seqb : S -> S -> bool),
  (forall a b, seqb a b = true <-> a = b) ->
  forall mn me (r : rdf S NP EP) eg,
  rdf_reachable E seqb mn me r -> rdf_shows r eg -> e_delivers (rdf_source_of r) eg.
Proof. exact @mem_rdf_delivers. Qed.
Print Assumptions C60_from_mem.

Theorem C60_from_sled : forall S NP EP SE BE E (seqb : S -> S -> bool)
  (cs : codec BE S) (cu : codec BE (Id KUlid)) (cn : codec BE NP) (ce : codec BE EP) mn me,
  (forall a b, seqb a b = true <-> a = b) ->
  codec_ok cs -> codec_ok cu -> codec_ok cn -> codec_ok ce -> codec_total cu ->
  forall (es : list (repoch (S := S) (NP := NP) (EP := EP) (SE := SE) (E := E))) eg,
  NoDup (flat_map epoch_keys es) -> Forall calm es ->
  let d := rs_epochs cs cu cn ce mn me es rdb_new in
  rs_shows SE cs cu cn ce d eg -> e_delivers (rs_source (SE := SE) cs cu cn ce d) eg.
Proof. exact @sled_rdf_delivers. Qed.
Print Assumptions C60_from_sled.

(** Into a new store over Mem: if the Ulids it draws for names are pairwise different and none
    of them is an unnamed entity of the original, the copy lists the graph of the original. *)
Theorem C60_to_mem : forall S NP EP E (seqb : S -> S -> bool),
  (forall a b, seqb a b = true <-> a = b) ->
  forall mn me g u (s : rdf_source S NP EP E) o eg xs r,
  e_delivers s eg -> r_copying s o -> rdf_history seqb mn me [o] (rdf_new g u) = (xs, r) ->
  drawn_distinct (r_ulids r) -> drawn_distinct (id_generator (r_graph r)) ->
  (forall i n, In (EUlid i) (entities_of o) -> n < g_pos (r_ulids r) -> g_seq (r_ulids r) n <> i)%nat ->
  xs = [Ok tt] /\ rdf_shows r eg.
Proof. exact @copy_rdf_mem. Qed.
Print Assumptions C60_to_mem.

(** Into a new database, whatever storage calls fail: if the copying call reports no failure,
    the copy is complete. *)
Theorem C60_to_sled : forall S NP EP SE BE E (seqb : S -> S -> bool)
  (cs : codec BE S) (cu : codec BE (Id KUlid)) (cn : codec BE NP) (ce : codec BE EP) mn me,
  (forall a b, seqb a b = true <-> a = b) ->
  codec_ok cs -> codec_ok cu -> codec_ok cn -> codec_ok ce -> codec_total cu ->
  forall h (s : rdf_source S NP EP E) o eg fs,
  e_delivers s eg -> r_copying s o -> NoDup (rs_keys h [o]) ->
  let p := rs_history (SE := SE) cs cu cn ce mn me [o] h in
  let d := db_of p fs rdb_new in
  (forall r, In r (fst (ret_of p fs rdb_new)) -> r_failed r = false) ->
  (forall i, In (EUlid i) (entities_of o) -> id_now (SE := SE) cs cu d i = None) ->
  fst (ret_of p fs rdb_new) = [Ok tt] /\ rs_shows SE cs cu cn ce d eg.
Proof. exact @copy_rdf_sled. Qed.
Print Assumptions C60_to_sled.

(** A store over Mem saved to a database and loaded again. *)
Theorem C60_round_trip : forall S NP EP SE BE (seqb : S -> S -> bool)
  (cs : codec BE S) (cu : codec BE (Id KUlid)) (cn : codec BE NP) (ce : codec BE EP) mn me,
  (forall a b, seqb a b = true <-> a = b) ->
  codec_ok cs -> codec_ok cu -> codec_ok cn -> codec_ok ce -> codec_total cu ->
  forall E (r : rdf S NP EP) eg h o fs g u o' xs r',
  rdf_reachable E seqb mn me r -> rdf_shows r eg ->
  r_copying (rdf_source_of r) o -> NoDup (rs_keys h [o]) ->
  let p := rs_history (SE := SE) cs cu cn ce mn me [o] h in
  let d := db_of p fs rdb_new in
  (forall x, In x (fst (ret_of p fs rdb_new)) -> r_failed x = false) ->
  (forall i, In (EUlid i) (entities_of o) -> id_now (SE := SE) cs cu d i = None) ->
  r_copying (rs_source (SE := SE) cs cu cn ce d) o' ->
  rdf_history seqb mn me [o'] (rdf_new g u) = (xs, r') ->
  drawn_distinct (r_ulids r') -> drawn_distinct (id_generator (r_graph r')) ->
  (forall i n, In (EUlid i) (entities_of o') -> n < g_pos (r_ulids r') -> g_seq (r_ulids r') n <> i)%nat ->
  rs_shows SE cs cu cn ce d eg /\ xs = [Ok tt] /\ rdf_shows r' eg.
Proof. exact @rdf_round_trip. Qed.
Print Assumptions C60_round_trip.

(** The consuming iterators over sled are the borrowing ones, under any failures, and iter_nodes
    yields what iter_vertices and iter_edges do. *)
Theorem C60_into_iter : forall S NP EP SE BE
  (cs : codec BE S) (cu : codec BE (Id KUlid)) (cn : codec BE NP) (ce : codec BE EP) o fs d,
  exec (rs_into_iter_nodes (SE := SE) cs cu cn ce o) fs d = exec (rs_iter_nodes cs cu cn ce o) fs d /\
  exec (rs_into_iter_vertices (SE := SE) cs cu cn) fs d = exec (rs_iter_vertices cs cu cn) fs d /\
  exec (rs_into_iter_edges (SE := SE) cs cu ce o) fs d = exec (rs_iter_edges cs cu ce o) fs d /\
  exec (rs_into_iter_edges_with_props (SE := SE) cs cu cn ce o) fs d = exec (rs_iter_edges_with_props cs cu cn ce o) fs d.
Proof. exact @rs_into_iter. Qed.
Print Assumptions C60_into_iter.

Theorem C60_iter_nodes : forall S NP EP SE BE E (seqb : S -> S -> bool)
  (cs : codec BE S) (cu : codec BE (Id KUlid)) (cn : codec BE NP) (ce : codec BE EP) mn me,
  (forall a b, seqb a b = true <-> a = b) ->
  codec_ok cs -> codec_ok cu -> codec_ok cn -> codec_ok ce -> codec_total cu ->
  forall (es : list (repoch (S := S) (NP := NP) (EP := EP) (SE := SE) (E := E))) o,
  NoDup (flat_map epoch_keys es) -> Forall calm es ->
  let d := rs_epochs cs cu cn ce mn me es rdb_new in
  ret_of (rs_iter_nodes (SE := SE) cs cu cn ce o) [] d =
    (ret_of (rs_iter_vertices (SE := SE) cs cu cn) [] d, ret_of (rs_iter_edges (SE := SE) cs cu ce o) [] d).
Proof. exact @rs_iter_nodes_now. Qed.
Print Assumptions C60_iter_nodes.

(** Three names, one of them only in an edge, and an unnamed entity; the copy gives the names
    identifiers in the opposite order. *)
Notation xsource := (rdf_source N N N (rdf_error N (sled_index_error N (Id KUlid) N N) (sled_error N N))).
Definition original : rdb :=
  xdb [Alone (RLife (rh 100 10)
    [ RInsertNode (nm 1) 11; RInsertNode (nm 2) 22; RInsertNode (EUlid (ul 7)) 33;
      RInsertEdge (Triple (nm 1) (nm 3) (nm 2)) 4; RInsertEdge (Triple (EUlid (ul 7)) (nm 3) (nm 1)) 5 ] [] 30)].
Definition original_source : xsource := rs_source (SE := N) nc uc nc nc original.
Definition down (n : N) : gen KUlid := Gen (fun i => ul (n - N.of_nat i)) 0.
Example C60_case :
  original_source = RdfSource [Ok (EUlid (ul 7), 33); Ok (nm 1, 11); Ok (nm 2, 22)]
    [Ok (Triple (EUlid (ul 7)) (nm 3) (nm 1), 5); Ok (Triple (nm 1) (nm 3) (nm 2), 4)] /\
  let x := rdf_history N.eqb mg mg [RMerge original_source] (rdf_new (ulids 500) (down 90)) in
  fst x = [Ok tt] /\
  rdf_iter_vertices (snd x) = [Ok (EUlid (ul 7), 33); Ok (nm 2, 22); Ok (nm 1, 11)] /\
  rdf_iter_edges OSP (snd x) = [Ok (Triple (nm 1) (nm 3) (nm 2), 4); Ok (Triple (EUlid (ul 7)) (nm 3) (nm 1), 5)] /\
  let p := rs_history (SE := N) nc uc nc nc mg mg [RExtend (rdf_source_of (snd x))] (rh 200 20) in
  fst (ret_of p [] rdb_new) = [Ok tt] /\
  ret_of (rs_iter_nodes (SE := N) nc uc nc nc SPO) [] (db_of p [] rdb_new) =
    ([Ok (EUlid (ul 7), 33); Ok (nm 2, 22 : N); Ok (nm 1, 11)],
     [Ok (Triple (EUlid (ul 7)) (nm 3) (nm 1), 5); Ok (Triple (nm 1) (nm 3) (nm 2), 4 : N)]) /\
  fst (ret_of p [None; None; Some 6] rdb_new) <> [Ok tt].
Proof. vm_compute. repeat split. discriminate. Qed.
