(** C72, C73: extend and merge of an RDF store over sled by another handle on its own names and
    graph. *)
From Coq Require Import NArith List.
From Verif Require Import Bytes OMap Core IdType Store Mem Spec History Prog Sled SledHistory SledIndex
  SledLazy Rdf RdfSpec RdfSled RdfSledSpec RdfSledLazy RdfSledLazyTop Ex ExSled Prop_RdfSled.
Import ListNotations.

(** ** C72.  A store extended by its own database, read while it is written, after any epochs and
    any tries of the same that failed or died: wherever it stops, the readers list what they
    listed, and every name has the identifier it had.  It fails only because of the storage or
    the serialisers of the properties. *)
Theorem C72_extend_self : forall S NP EP SE BE E (seqb : S -> S -> bool)
  (cs : codec BE S) (cu : codec BE (Id KUlid)) (cn : codec BE NP) (ce : codec BE EP) mn me,
  (forall a b, seqb a b = true <-> a = b) ->
  codec_ok cs -> codec_ok cu -> codec_ok cn -> codec_ok ce -> codec_total cu ->
  forall (es : list (repoch (S := S) (NP := NP) (EP := EP) (SE := SE) (E := E))) (tries : list (rself_try (SE := SE)))
    (h : rhandle) cuts cuts' faults n (eg : egraph S NP EP),
  let d := rs_epochs cs cu cn ce mn me es rdb_new in
  let m := length (ret_of (rs_iter_edges (SE := SE) cs cu ce SPO) [] d) in
  NoDup (flat_map epoch_keys es ++ flat_map (fun f => rself_keys m (rf_handle f)) tries ++ rself_keys m h) -> Forall calm es ->
  rs_shows SE cs cu cn ce d eg ->
  let d1 := rself_tries cs cu cn ce tries d in
  let p := rs_extend_self (SE := SE) cs cu cn ce cuts cuts' h in
  (forall x, x = crash n p faults d1 \/ x = db_of p faults d1 ->
     rs_shows SE cs cu cn ce x eg /\
     (forall s, name_now (SE := SE) cs cu x s = name_now (SE := SE) cs cu d s) /\
     (forall i, id_now (SE := SE) cs cu x i = id_now (SE := SE) cs cu d i)) /\
  match fst (ret_of p faults d1) with
  | Ok _ => True
  | Err (LeftE e) => faulty faults e \/ exists b, e = GraphStorageError (SerializationError b) /\
      ((exists p, ser cn p = Err b) \/ (exists p, ser ce p = Err b))
  | Err (RightE e) => faulty faults e
  end.
Proof. exact @rextend_self_top. Qed.
Print Assumptions C72_extend_self.

(** The store of C49_case with a second edge, extended by itself: stopped by a storage failure,
    by the end of the process, and to its end, leaf by leaf. *)
Definition self_epochs : list xepoch :=
  (r_lives ++ [Alone (RLife (rh 500 50) [RInsertEdge (Triple (nm 5) (nm 2) (nm 1)) 6] [] 50)])%list.
Definition xlist (d : rdb) :=
  (ret_of (rs_iter_vertices (SE := N) nc uc nc) [] d,
   map (fun o => ret_of (rs_iter_edges (SE := N) nc uc nc o) [] d) [SPO; POS; OSP]).

Example C72_case :
  let d := xdb self_epochs in
  let tries := [RSelfTry (SE := N) (rh 600 60) [] [] [None; None; None; None; None; Some 3%N] 50%nat;
                RSelfTry (rh 700 70) [] [] [] 26%nat] in
  let d1 := rself_tries nc uc nc nc tries d in
  let p := rs_extend_self (SE := N) nc uc nc nc [to_be_bytes (ul 12)] [encode_spo (Triple (ul 15) (ul 1) (ul 1))] (rh 800 80) in
  NoDup (flat_map epoch_keys self_epochs ++ flat_map (fun f => rself_keys 2 (rf_handle f)) tries ++ rself_keys 2 (rh 800 80)) /\
  Forall calm self_epochs /\
  xlist d = ([Ok (nm 1, 123); Ok (nm 4, 44); Ok (nm 5, 17); Ok (nm 6, 2)],
     repeat [Ok (Triple (nm 1) (nm 2) (EUlid (ul 7)), 5); Ok (Triple (nm 5) (nm 2) (nm 1), 6)] 3) /\
  xlist d1 = xlist d /\ fst (ret_of p [] d1) = Ok tt /\ xlist (db_of p [] d1) = xlist d /\
  xlist (crash 15 p [] d1) = xlist d /\
  map (fun x => length (t_edge (r_trees x))) [d; d1; db_of p [] d1] = [2; 3; 5]%nat /\
  fst (ret_of p [None; Some 8] d1) = Err (RightE (NameIndexStorageError (ISledError 8))) /\
  fst (ret_of p [Some 8] d1) = Err (RightE (GraphStorageError (SledError 8))) /\
  fst (ret_of p [None; None; Some 8] d1) = Err (LeftE (NameIndexStorageError (ISledError 8))).
Proof.
  split; [apply nodupb_ok; vm_compute; reflexivity|]. split; [repeat constructor|]. vm_compute. repeat split.
Qed.

(** ** C73.  A store merged with its own database, read while it is written: wherever it stops, a
    first part of the vertices, and when those are done a first part of the edges, are merged
    with themselves, each once, and every name has the identifier it had.  When it succeeds
    everything is merged with itself once. *)
Theorem C73_merge_self : forall S NP EP SE BE E (seqb : S -> S -> bool)
  (cs : codec BE S) (cu : codec BE (Id KUlid)) (cn : codec BE NP) (ce : codec BE EP) mn me,
  (forall a b, seqb a b = true <-> a = b) ->
  codec_ok cs -> codec_ok cu -> codec_ok cn -> codec_ok ce -> codec_total cu ->
  forall (es : list (repoch (S := S) (NP := NP) (EP := EP) (SE := SE) (E := E)))
    (h : rhandle) cuts cuts' faults n (eg : egraph S NP EP),
  let d := rs_epochs cs cu cn ce mn me es rdb_new in
  NoDup (flat_map epoch_keys es ++ rself_keys (length (ret_of (rs_iter_edges (SE := SE) cs cu ce SPO) [] d)) h) -> Forall calm es ->
  rs_shows SE cs cu cn ce d eg ->
  let p := rs_merge_self (SE := SE) cs cu cn ce mn me cuts cuts' h in
  exists ns es', ret_of (rs_iter_vertices (SE := SE) cs cu cn) [] d = map Ok ns /\
    ret_of (rs_iter_edges (SE := SE) cs cu ce SPO) [] d = map Ok es' /\
  (forall x, x = crash n p faults d \/ x = db_of p faults d ->
     (forall s, name_now (SE := SE) cs cu x s = name_now (SE := SE) cs cu d s) /\
     (forall i, id_now (SE := SE) cs cu x i = id_now (SE := SE) cs cu d i) /\
     exists ns1 ns2 es1 es2, ns = ns1 ++ ns2 /\ es' = es1 ++ es2 /\ (es1 = [] \/ ns2 = []) /\
       rs_shows SE cs cu cn ce x (e_run (E := E) seqb mn me (by_name (id_now (SE := SE) cs cu d)) []
         (map (fun ip => RMergeNode (fst ip) (snd ip)) ns1 ++ map (fun te => RMergeEdge (fst te) (snd te)) es1) eg)) /\
  match fst (ret_of p faults d) with
  | Ok _ => forall eg' : egraph S NP EP,
      (forall e, e_node eg' e = option_map (fun p => mn p p) (e_node eg e)) ->
      (forall t, e_edge eg' t = option_map (fun p => me p p) (e_edge eg t)) ->
      rs_shows SE cs cu cn ce (db_of p faults d) eg'
  | Err (LeftE e) => faulty faults e \/ exists b, e = GraphStorageError (SerializationError b) /\
      ((exists p, ser cn p = Err b) \/ (exists p, ser ce p = Err b))
  | Err (RightE e) => faulty faults e
  end.
Proof. exact @rmerge_self_top. Qed.
Print Assumptions C73_merge_self.

(** The same store merged with itself: in the end, and when the process dies on the way. *)
Example C73_case :
  let d := xdb self_epochs in
  let p := rs_merge_self (SE := N) nc uc nc nc mg mg [to_be_bytes (ul 12)] [encode_spo (Triple (ul 15) (ul 1) (ul 1))] (rh 800 80) in
  NoDup (flat_map epoch_keys self_epochs ++ rself_keys 2 (rh 800 80)) /\
  fst (ret_of p [] d) = Ok tt /\
  xlist (db_of p [] d) = ([Ok (nm 1, 1353); Ok (nm 4, 484); Ok (nm 5, 187); Ok (nm 6, 22)],
    repeat [Ok (Triple (nm 1) (nm 2) (EUlid (ul 7)), 55); Ok (Triple (nm 5) (nm 2) (nm 1), 66)] 3) /\
  xlist (crash 8 p [] d) = ([Ok (nm 1, 1353); Ok (nm 4, 484); Ok (nm 5, 17); Ok (nm 6, 2)],
    repeat [Ok (Triple (nm 1) (nm 2) (EUlid (ul 7)), 5); Ok (Triple (nm 5) (nm 2) (nm 1), 6)] 3) /\
  xlist (crash 26 p [] d) = ([Ok (nm 1, 1353); Ok (nm 4, 484); Ok (nm 5, 187); Ok (nm 6, 22)],
    repeat [Ok (Triple (nm 1) (nm 2) (EUlid (ul 7)), 55); Ok (Triple (nm 5) (nm 2) (nm 1), 6)] 3).
Proof.
  split; [apply nodupb_ok; vm_compute; reflexivity|]. vm_compute. repeat split.
Qed.
