(** C87: extend and merge of an RDF store over sled by a handle of the same names and graph, others using them. *)
From Coq Require Import Arith NArith List Sorted.
From Verif Require Import Bytes BytesFacts OMap Core IdType Store Mem MemIndex Spec GenSpec Prog Sled SledHistory SledSched SledTables SledLeaf SledLazy
  SledIndex Rdf RdfSpec RdfSled RdfSledSpec RdfSledLazy SledTwo RdfSledTwo RdfSledSelfLive RdfSledSelfLiveTop SledBeside RdfSledLeaf Ex ExSled Prop_SledReader Prop_RdfSled Prop_RdfSledReader.
Import ListNotations.

(** ** C87.  [d] is the database left by processes that may have failed and died, [ts] are the others, who may make
    any calls; every storage step of any of them, and of the call itself, may fail.  No property record key is drawn
    twice; of the call only the keys it has drawn in this run count, and the next one.

    The call, whose iterators may see what it and the others write, names included, does to the database what a call
    by some source fixed beforehand does, at the same time as the others and with the failures that were met.  All
    vertices and edges of that source were listed at some moment during the call and are under what they were called
    then or later; under the names of the end they are in order and none comes twice; its errors are storage
    failures that were met, or MissingPropertyData when one of the others, or the merge itself, rewrites an edge; and if
    the call succeeds the source has all that was there all the time.  C49 and C50 are about such callers. *)
Theorem C87_extend : forall S NP EP SE BE (seqb : S -> S -> bool) (cs : codec BE S) (cu : codec BE (Id KUlid)) (cn : codec BE NP) (ce : codec BE EP) mn me
    (es : list (repoch (S := S) (NP := NP) (EP := EP) (SE := SE) (E := rdf_error S (sled_index_error S (Id KUlid) SE BE) (sled_error SE BE))))
    (ts : list (rhandle * list (rop S NP EP (rdf_error S (sled_index_error S (Id KUlid) SE BE) (sled_error SE BE)))))
    (wcuts : nat -> nat -> cutting) (cuts cuts' : list bytes) (schedule : list (nat * option SE)) (h h' : rhandle) a,
  (forall a b, seqb a b = true <-> a = b) ->
  codec_ok cs -> codec_ok cu -> codec_ok cn -> codec_ok ce -> codec_total cu ->
  NoDup (flat_map epoch_keys es ++ r_drawn_keys h h' ++ callers_keys ts) -> Forall RdfSledSpec.calm es ->
  let d := rs_epochs cs cu cn ce mn me es rdb_new in
  let ps := beside (rs_extend_self cs cu cn ce cuts cuts' h) (rl_callers cs cu cn ce mn me wcuts 1 ts) in
  let ran := interleave schedule ps d in
  has_read (a, h') (fst ran) ->
  exists s, let calls := (h, [RExtend s]) :: ts in
  r_handed2 cs cu cn ce (during schedule ps d) (snd ran) (met schedule) calls s /\
  (a = Ok tt -> r_complete2 cs cu cn ce (during schedule ps d) (snd ran) s) /\
  NoDup (flat_map epoch_keys es ++ callers_keys calls) /\
  exists schedule' qs, fst ran = Ret (inl (a, h')) :: map (fun q => bind q (fun b => Ret (inr b))) qs /\
    (forall i f, In (i, f) schedule' -> In (i, f) schedule) /\
    interleave schedule' (rl_callers cs cu cn ce mn me wcuts 0 calls) d = (Ret ([a], h') :: qs, snd ran).
Proof. exact @r_self_extend_live. Qed.
Print Assumptions C87_extend.

Theorem C87_merge : forall S NP EP SE BE (seqb : S -> S -> bool) (cs : codec BE S) (cu : codec BE (Id KUlid)) (cn : codec BE NP) (ce : codec BE EP) mn me
    (es : list (repoch (S := S) (NP := NP) (EP := EP) (SE := SE) (E := rdf_error S (sled_index_error S (Id KUlid) SE BE) (sled_error SE BE))))
    (ts : list (rhandle * list (rop S NP EP (rdf_error S (sled_index_error S (Id KUlid) SE BE) (sled_error SE BE)))))
    (wcuts : nat -> nat -> cutting) (cuts cuts' : list bytes) (schedule : list (nat * option SE)) (h h' : rhandle) a,
  (forall a b, seqb a b = true <-> a = b) ->
  codec_ok cs -> codec_ok cu -> codec_ok cn -> codec_ok ce -> codec_total cu ->
  NoDup (flat_map epoch_keys es ++ r_drawn_keys h h' ++ callers_keys ts) -> Forall RdfSledSpec.calm es ->
  let d := rs_epochs cs cu cn ce mn me es rdb_new in
  let ps := beside (rs_merge_self cs cu cn ce mn me cuts cuts' h) (rl_callers cs cu cn ce mn me wcuts 1 ts) in
  let ran := interleave schedule ps d in
  has_read (a, h') (fst ran) ->
  exists s, let calls := (h, [RMerge s]) :: ts in
  r_handed2 cs cu cn ce (during schedule ps d) (snd ran) (met schedule) calls s /\
  (a = Ok tt -> r_complete2 cs cu cn ce (during schedule ps d) (snd ran) s) /\
  NoDup (flat_map epoch_keys es ++ callers_keys calls) /\
  exists schedule' qs, fst ran = Ret (inl (a, h')) :: map (fun q => bind q (fun b => Ret (inr b))) qs /\
    (forall i f, In (i, f) schedule' -> In (i, f) schedule) /\
    interleave schedule' (rl_callers cs cu cn ce mn me wcuts 0 calls) d = (Ret ([a], h') :: qs, snd ran).
Proof. exact @r_self_merge_live. Qed.
Print Assumptions C87_merge.

(** ** Examples *)
Notation rerr := (rdf_error N (sled_index_error N (Id KUlid) N N) (sled_error N N)).
Definition v_life : list (repoch (S := N) (NP := N) (EP := N) (SE := N) (E := rerr)) :=
  [ Alone (RLife (rh 100 10) [ RInsertNode (nm 1) 1; RInsertNode (EUlid (ul 20)) 2; RInsertEdge (Triple (EUlid (ul 20)) (nm 1) (EUlid (ul 20))) 3;
      RInsertEdge (Triple (nm 1) (nm 4) (nm 1)) 4 ] [] 90) ].
Definition v_db : rdb := rs_epochs nc uc nc nc mg mg v_life rdb_new.
(** Someone else draws, for a new name, the Ulid of the vertex that had none, as in C63, and puts an edge in. *)
Definition v_ops : list (rop N N N rerr) := [RInsertNode (nm 5) 5; RInsertEdge (Triple (nm 6) (nm 4) (nm 6)) 6].
Definition r_to_self := rs_extend_self (SE := N) (BE := N) nc uc nc nc [to_be_bytes (ul 15)] [] (rh 1000 500).
Definition r_into_self := rs_merge_self (SE := N) (BE := N) nc uc nc nc mg mg [to_be_bytes (ul 15)] [] (rh 1000 500).
Definition r_same_case (copy : prog rdb N (result (lr_error rerr rerr) unit * rhandle)) (schedule : list (nat * option N)) :=
  let '(ps, d') := interleave schedule (beside copy (rl_callers (BE := N) nc uc nc nc mg mg no_cuts 1 [(rh 200 20, v_ops)])) v_db in
  (match nth_error ps 0 with
   | Some (Ret (inl (a, h))) => Some (a, (g_pos (h_gen (rh_graph h)) - g_pos (h_gen (rh_graph (rh 1000 500))))%nat)
   | _ => None
   end, listed d', ret_of (rs_iter_edges (SE := N) nc uc nc SPO) [] d').
Definition v_then (n : nat) : list (nat * option N) := times [(0, n); (1, 40); (0, 90)]%nat.
Definition r_drew (n : nat) (h : rhandle) : rhandle :=
  RHandle (Handle (Gen (g_seq (h_gen (rh_graph h))) (g_pos (h_gen (rh_graph h)) + n)) (h_ulid (rh_graph h))) (rh_ulids h).

Lemma v_calm : Forall RdfSledSpec.calm v_life.
Proof. repeat constructor. Qed.

(** The other calls come between the vertices or between the edges: in the first run the copy writes the new edge
    again as well. *)
Example C87_case :
  NoDup (flat_map epoch_keys v_life ++ r_drawn_keys (rh 1000 500) (r_drew 3 (rh 1000 500)) ++ callers_keys [(rh 200 20, v_ops)]) /\
  Forall RdfSledSpec.calm v_life /\
  r_same_case r_to_self (v_then 3) =
    (Some (Ok tt, 3%nat), [Ok (nm 1, 1); Ok (nm 5, 5)],
     [Ok (Triple (nm 1) (nm 4) (nm 1), 4); Ok (Triple (nm 5) (nm 1) (nm 5), 3); Ok (Triple (nm 6) (nm 4) (nm 6), 6)]) /\
  r_same_case r_into_self (v_then 3) =
    (Some (Ok tt, 3%nat), [Ok (nm 1, 11); Ok (nm 5, 55)],
     [Ok (Triple (nm 1) (nm 4) (nm 1), 44); Ok (Triple (nm 5) (nm 1) (nm 5), 33); Ok (Triple (nm 6) (nm 4) (nm 6), 66)]) /\
  r_same_case r_to_self (v_then 10) =
    (Some (Ok tt, 2%nat), [Ok (nm 1, 1); Ok (nm 5, 5)],
     [Ok (Triple (nm 1) (nm 4) (nm 1), 4); Ok (Triple (nm 5) (nm 1) (nm 5), 3); Ok (Triple (nm 6) (nm 4) (nm 6), 6)]).
Proof. split; [apply nodupb_ok; vm_compute; reflexivity|]. split; [exact v_calm|]. vm_compute. auto. Qed.

(** Failures when reading and when looking a name up to write: nothing has been drawn. *)
Example C87_errors_case :
  NoDup (flat_map epoch_keys v_life ++ r_drawn_keys (rh 1000 500) (rh 1000 500) ++ callers_keys [(rh 200 20, v_ops)]) /\
  fst (fst (r_same_case r_to_self (times [(0, 2)]%nat ++ [(0%nat, Some 13)] ++ v_then 0))) =
    Some (Err (RightE (NameIndexStorageError (ISledError 13))), 0%nat) /\
  fst (fst (r_same_case r_to_self (times [(0, 3)]%nat ++ [(0%nat, Some 13)] ++ v_then 0))) =
    Some (Err (LeftE (NameIndexStorageError (ISledError 13))), 0%nat) /\
  fst (fst (r_same_case r_to_self (times [(0, 6)]%nat ++ [(0%nat, Some 13)] ++ v_then 0))) =
    Some (Err (RightE (GraphStorageError (SledError 13))), 0%nat).
Proof. split; [apply nodupb_ok; vm_compute; reflexivity|]. vm_compute. auto. Qed.
