(** C61: opening a SledTripleStore and a SledHashIndex in one sled::Db. *)
From Coq Require Import NArith List String.
From Verif Require Import Bytes OMap Core IdType Store Mem Spec Prog Sled SledHistory SledIndex Rdf RdfSled SledOpen SledOpenFacts
  Ex ExSled Prop_RdfSled.
Import ListNotations.

(** Opening works if the storage does, changes the contents of no tree, gives the same trees
    whenever and wherever it is done, and fails only with an error of the storage. *)
Theorem C61_open_store : forall SE BE (fs : list (option SE)) r,
  (forall n, tree_at (db_of (open_store (BE := BE)) fs r) n = tree_at r n) /\
  (exists o, ret_of (open_store (SE := SE) (BE := BE)) [] r = Ok o) /\
  match ret_of (open_store (BE := BE)) fs r with
  | Ok o => forall fs' r' o', ret_of (open_store (SE := SE) (BE := BE)) fs' r' = Ok o' -> o' = o
  | Err e => exists x, In (Some x) fs /\ e = SledError x
  end.
Proof. exact @open_store_top. Qed.
Print Assumptions C61_open_store.

Theorem C61_open_index : forall SE (fs : list (option SE)) r,
  (forall n, tree_at (db_of open_index fs r) n = tree_at r n) /\
  (exists i, ret_of (open_index (SE := SE)) [] r = Ok i) /\
  match ret_of open_index fs r with
  | Ok i => forall fs' r' i', ret_of (open_index (SE := SE)) fs' r' = Ok i' -> i' = i
  | Err e => In (Some e) fs
  end.
Proof. exact @open_index_top. Qed.
Print Assumptions C61_open_index.

(** A store in the database of an index: every program runs as on five trees of its own, until
    the end or a crash, and leaves the index alone. *)
Theorem C61_store : forall SE BE (o : opened) (i : iopened) (fo fi : list (option SE)) (ro ri : sdb),
  ret_of (open_store (BE := BE)) fo ro = Ok o -> ret_of open_index fi ri = Ok i ->
  forall A (p : prog db SE A) fs n r,
  ret_of (in_store o p) fs r = ret_of p fs (trees_of o r) /\
  trees_of o (db_of (in_store o p) fs r) = db_of p fs (trees_of o r) /\
  trees_of o (crash n (in_store o p) fs r) = crash n p fs (trees_of o r) /\
  itrees_of i (db_of (in_store o p) fs r) = itrees_of i r /\
  itrees_of i (crash n (in_store o p) fs r) = itrees_of i r.
Proof. exact @store_runs. Qed.
Print Assumptions C61_store.

Theorem C61_store_together : forall SE BE (o : opened) (i : iopened) (fo fi : list (option SE)) (ro ri : sdb),
  ret_of (open_store (BE := BE)) fo ro = Ok o -> ret_of open_index fi ri = Ok i ->
  forall A schedule (ps : list (prog db SE A)) r,
  let x := interleave schedule (map (in_store o) ps) r in
  let y := interleave schedule ps (trees_of o r) in
  fst x = map (in_store o) (fst y) /\ trees_of o (snd x) = snd y /\ itrees_of i (snd x) = itrees_of i r.
Proof. exact @store_runs_together. Qed.
Print Assumptions C61_store_together.

Theorem C61_index : forall SE BE (o : opened) (i : iopened) (fo fi : list (option SE)) (ro ri : sdb),
  ret_of (open_store (BE := BE)) fo ro = Ok o -> ret_of open_index fi ri = Ok i ->
  forall A (p : prog idb SE A) fs n r,
  ret_of (in_index i p) fs r = ret_of p fs (itrees_of i r) /\
  itrees_of i (db_of (in_index i p) fs r) = db_of p fs (itrees_of i r) /\
  itrees_of i (crash n (in_index i p) fs r) = crash n p fs (itrees_of i r) /\
  trees_of o (db_of (in_index i p) fs r) = trees_of o r /\
  trees_of o (crash n (in_index i p) fs r) = trees_of o r.
Proof. exact @index_runs. Qed.
Print Assumptions C61_index.

(** An RdfTripleStore over both, alone and with others. *)
Theorem C61_rdf : forall SE BE (o : opened) (i : iopened) (fo fi : list (option SE)) (ro ri : sdb),
  ret_of (open_store (BE := BE)) fo ro = Ok o -> ret_of open_index fi ri = Ok i ->
  forall A (p : prog rdb SE A) fs n r,
  ret_of (in_rdf o i p) fs r = ret_of p fs (rdb_of o i r) /\
  rdb_of o i (db_of (in_rdf o i p) fs r) = db_of p fs (rdb_of o i r) /\
  rdb_of o i (crash n (in_rdf o i p) fs r) = crash n p fs (rdb_of o i r).
Proof. exact @rdf_runs. Qed.
Print Assumptions C61_rdf.

Theorem C61_rdf_together : forall SE BE (o : opened) (i : iopened) (fo fi : list (option SE)) (ro ri : sdb),
  ret_of (open_store (BE := BE)) fo ro = Ok o -> ret_of open_index fi ri = Ok i ->
  forall A schedule (ps : list (prog rdb SE A)) r,
  let x := interleave schedule (map (in_rdf o i) ps) r in
  let y := interleave schedule ps (rdb_of o i r) in
  fst x = map (in_rdf o i) (fst y) /\ rdb_of o i (snd x) = snd y.
Proof. exact @rdf_runs_together. Qed.
Print Assumptions C61_rdf_together.

(** What it does to its graph and to its index is what a store and an index do. *)
Theorem C61_rdf_parts : forall SE BE (o : opened) (i : iopened) (fo fi : list (option SE)) (ro ri : sdb),
  ret_of (open_store (BE := BE)) fo ro = Ok o -> ret_of open_index fi ri = Ok i ->
  forall A (p : prog db SE A) B (q : prog idb SE B) fs r,
  (ret_of (in_rdf o i (on_graph p)) fs r = ret_of (in_store o p) fs r /\
   forall n, tree_at (db_of (in_rdf o i (on_graph p)) fs r) n = tree_at (db_of (in_store o p) fs r) n) /\
  (ret_of (in_rdf o i (on_names q)) fs r = ret_of (in_index i q) fs r /\
   forall n, tree_at (db_of (in_rdf o i (on_names q)) fs r) n = tree_at (db_of (in_index i q) fs r) n).
Proof. exact @rdf_parts. Qed.
Print Assumptions C61_rdf_parts.

(** A process opens the database, works, and dies; the next one opens it and finds what the
    first left. *)
Theorem C61_reopen : forall SE BE (o o' : opened) (fo fo' : list (option SE)) r A (p : prog db SE A) fs n,
  ret_of (open_store (BE := BE)) fo r = Ok o ->
  let left := crash n (in_store o p) fs (db_of (open_store (BE := BE)) fo r) in
  ret_of (open_store (BE := BE)) fo' left = Ok o' ->
  trees_of o' (db_of (open_store (BE := BE)) fo' left) = crash n p fs (trees_of o r).
Proof. exact @reopened. Qed.
Print Assumptions C61_reopen.

(** A named vertex and an edge written by an RdfTripleStore, read by a SledTripleStore that is
    opened afterwards; the fourth tree of a store cannot be opened. *)
Definition opening : prog sdb N (result (sled_error N N) opened) := open_store (SE := N) (BE := N).
Example C61_case :
  ret_of opening [None; None; None; Some 5] sdb_new = Err (SledError 5) /\
  exists o i, ret_of opening [] sdb_new = Ok o /\ ret_of (open_index (SE := N)) [] sdb_new = Ok i /\
  let r1 := db_of (in_rdf (SE := N) o i (xhist [RInsertNode (nm 1) 11; RInsertEdge (Triple (nm 1) (nm 2) (EUlid (ul 7))) 5] (rh 100 10))) [] sdb_new in
  ret_of opening [] r1 = Ok o /\
  ret_of (in_store (SE := N) o (s_iter_vertices (k := KUlid) (BE := N) nc)) [] r1 = [Ok (ul 10, 11)] /\
  ret_of (in_store (SE := N) o (s_iter_edges (k := KUlid) (BE := N) nc POS)) [] r1 = [Ok (Triple (ul 10) (ul 11) (ul 7), 5)] /\
  let r2 := db_of (in_store (SE := N) o (s_remove_node (BE := N) (ul 10))) [] r1 in
  ret_of (in_store (SE := N) o (s_iter_vertices (k := KUlid) (BE := N) nc)) [] r2 = [] /\
  ret_of (in_index (SE := N) i (si_left_to_right (BE := N) nc uc 1)) [] r2 = Ok (Some (ul 10)).
Proof.
  split; [vm_compute; reflexivity|]. do 2 eexists. split; [vm_compute; reflexivity|]. split; [vm_compute; reflexivity|].
  vm_compute. repeat split.
Qed.
