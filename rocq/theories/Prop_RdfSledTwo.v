(** C82: extend and merge of an RDF store over sled by one on another database, others using both. *)
From Coq Require Import Arith NArith List Sorted.
From Verif Require Import Bytes BytesFacts OMap Core IdType Store Mem MemIndex Spec GenSpec Prog Sled SledHistory SledSched SledTables SledLeaf SledLazy
  SledIndex Rdf RdfSpec RdfSled RdfSledSpec RdfSledMixSpec SledTwo RdfSledTwo RdfSledTwoTop SledBeside RdfSledLeaf Ex ExSled Prop_SledReader Prop_RdfSled Prop_RdfSledReader.
Import ListNotations.

(** ** C82.  [d] is the database that is read, left by processes that may have failed and died, and the one that is
    written, which is any; [ts] are the others on the first one, [ts'] those on the second one; every storage
    step of any of them may fail.

    The call does to the names and the graph of the second database what a call by some source fixed
    beforehand does there, at the same time as the others and with the failures that were met.  Every vertex
    and edge of that source was listed by the first database at some moment during the call and is under what
    it was called then or later, in order and none twice; its errors are storage failures that were met, or
    MissingPropertyData when one of the others on the first database rewrites an edge; and if the call succeeds
    the source has all that was there all the time. *)
Theorem C82_extend : forall S NP EP SE BE BE' E (seqb : S -> S -> bool)
  (cs : codec BE S) (cu : codec BE (Id KUlid)) (cn : codec BE NP) (ce : codec BE EP)
  (cs' : codec BE' S) (cu' : codec BE' (Id KUlid)) (cn' : codec BE' NP) (ce' : codec BE' EP) mn me mn' me',
  (forall a b, seqb a b = true <-> a = b) ->
  codec_ok cs -> codec_ok cu -> codec_ok cn -> codec_ok ce -> codec_total cu ->
  forall (es : list (repoch (S := S) (NP := NP) (EP := EP) (SE := SE) (E := E))) (ts : list (rhandle * list (rop S NP EP E)))
    (ts' : list (rhandle * list (rop S NP EP (rdf_error S (sled_index_error S (Id KUlid) SE BE) (sled_error SE BE)))))
    (wcuts wcuts' : nat -> nat -> cutting) (cuts cuts' : list bytes) (x : rdb)
    (schedule : list (who * option SE)) (h h' : rhandle) a psA psB d',
  NoDup (flat_map epoch_keys es ++ callers_keys ts) -> Forall RdfSledSpec.calm es ->
  let d := (rs_epochs cs cu cn ce mn me es rdb_new, x) in
  let p := rs_extend_both cs cu cn ce cs' cu' cn' ce' cuts cuts' h in
  let writers := rl_callers cs cu cn ce mn me wcuts 0 ts in
  let others := rl_callers cs' cu' cn' ce' mn' me' wcuts' 1 ts' in
  interleave2 schedule p writers others d = (Ret (a, h'), psA, psB, d') ->
  let seen := during2 schedule p writers others d in
  exists s, r_handed2 cs cu cn ce seen (fst d') (fun y => In (Mine, Some y) schedule) ts s /\
    (a = Ok tt -> r_complete2 cs cu cn ce seen (fst d') s) /\
  exists schedule', (forall i f, In (i, f) schedule' -> In (second_of i, f) schedule) /\
    interleave schedule' (rl_callers cs' cu' cn' ce' mn' me' wcuts' 0 ((h, [RExtend s]) :: ts')) x = (Ret ([a], h') :: psB, snd d').
Proof. exact @r_two_extend. Qed.
Print Assumptions C82_extend.

Theorem C82_merge : forall S NP EP SE BE BE' E (seqb : S -> S -> bool)
  (cs : codec BE S) (cu : codec BE (Id KUlid)) (cn : codec BE NP) (ce : codec BE EP)
  (cs' : codec BE' S) (cu' : codec BE' (Id KUlid)) (cn' : codec BE' NP) (ce' : codec BE' EP) mn me mn' me',
  (forall a b, seqb a b = true <-> a = b) ->
  codec_ok cs -> codec_ok cu -> codec_ok cn -> codec_ok ce -> codec_total cu ->
  forall (es : list (repoch (S := S) (NP := NP) (EP := EP) (SE := SE) (E := E))) (ts : list (rhandle * list (rop S NP EP E)))
    (ts' : list (rhandle * list (rop S NP EP (rdf_error S (sled_index_error S (Id KUlid) SE BE) (sled_error SE BE)))))
    (wcuts wcuts' : nat -> nat -> cutting) (cuts cuts' : list bytes) (x : rdb)
    (schedule : list (who * option SE)) (h h' : rhandle) a psA psB d',
  NoDup (flat_map epoch_keys es ++ callers_keys ts) -> Forall RdfSledSpec.calm es ->
  let d := (rs_epochs cs cu cn ce mn me es rdb_new, x) in
  let p := rs_merge_both cs cu cn ce cs' cu' cn' ce' mn' me' cuts cuts' h in
  let writers := rl_callers cs cu cn ce mn me wcuts 0 ts in
  let others := rl_callers cs' cu' cn' ce' mn' me' wcuts' 1 ts' in
  interleave2 schedule p writers others d = (Ret (a, h'), psA, psB, d') ->
  let seen := during2 schedule p writers others d in
  exists s, r_handed2 cs cu cn ce seen (fst d') (fun y => In (Mine, Some y) schedule) ts s /\
    (a = Ok tt -> r_complete2 cs cu cn ce seen (fst d') s) /\
  exists schedule', (forall i f, In (i, f) schedule' -> In (second_of i, f) schedule) /\
    interleave schedule' (rl_callers cs' cu' cn' ce' mn' me' wcuts' 0 ((h, [RMerge s]) :: ts')) x = (Ret ([a], h') :: psB, snd d').
Proof. exact @r_two_merge. Qed.
Print Assumptions C82_merge.

(** From the first processes of both databases to the end, where the others on the second one do not remove:
    its graph is the one that the single calls of all of them produce in some order, those of the copy being the
    ones its source and its answer say; names keep their identifiers. *)
Theorem C82_extend_end : forall S NP EP SE BE BE' E (seqb : S -> S -> bool)
  (cs : codec BE S) (cu : codec BE (Id KUlid)) (cn : codec BE NP) (ce : codec BE EP)
  (cs' : codec BE' S) (cu' : codec BE' (Id KUlid)) (cn' : codec BE' NP) (ce' : codec BE' EP) mn me mn' me',
  (forall a b, seqb a b = true <-> a = b) ->
  codec_ok cs -> codec_ok cu -> codec_ok cn -> codec_ok ce -> codec_total cu ->
  codec_ok cs' -> codec_ok cu' -> codec_ok cn' -> codec_ok ce' -> codec_total cu' ->
  forall (es : list (repoch (S := S) (NP := NP) (EP := EP) (SE := SE) (E := E))) (ts : list (rhandle * list (rop S NP EP E)))
    (es' : list (mepoch (S := S) (NP := NP) (EP := EP) (SE := SE) (E := (rdf_error S (sled_index_error S (Id KUlid) SE BE) (sled_error SE BE)))))
    (ts' : list (rhandle * list (rop S NP EP (rdf_error S (sled_index_error S (Id KUlid) SE BE) (sled_error SE BE)))))
    (wcuts wcuts' : nat -> nat -> cutting) (cuts cuts' : list bytes)
    (schedule : list (who * option SE)) (h h' : rhandle) a psA psB d',
  NoDup (flat_map epoch_keys es ++ callers_keys ts) -> Forall RdfSledSpec.calm es ->
  m_apart (SE := SE) cs' cu' cn' ce' mn' me' es' rdb_new ->
  (forall h l o, In (h, l) ts' -> In o l -> match o with RRemoveNode _ | RRemoveEdge _ => False | _ => True end) ->
  let x := m_epochs cs' cu' cn' ce' mn' me' es' rdb_new in
  let d := (rs_epochs cs cu cn ce mn me es rdb_new, x) in
  let p := rs_extend_both cs cu cn ce cs' cu' cn' ce' cuts cuts' h in
  let writers := rl_callers cs cu cn ce mn me wcuts 0 ts in
  let others := rl_callers cs' cu' cn' ce' mn' me' wcuts' 1 ts' in
  interleave2 schedule p writers others d = (Ret (a, h'), psA, psB, d') ->
  let seen := during2 schedule p writers others d in
  let x' := snd d' in
  let names := id_now (SE := SE) cs' cu' x' in
  exists s, r_handed2 cs cu cn ce seen (fst d') (fun y => In (Mine, Some y) schedule) ts s /\
    (a = Ok tt -> r_complete2 cs cu cn ce seen (fst d') s) /\
  let calls := (h, [RExtend s]) :: ts' in
  let ls := map snd calls in
  (NoDup (flat_map m_keys es' ++ callers_keys calls) ->
   one_to_one (name_now (SE := SE) cs' cu' x') names /\
   (forall n i, name_now (SE := SE) cs' cu' x n = Some i -> name_now (SE := SE) cs' cu' x' n = Some i) /\
   exists known eg known' ss l,
     (forall n, name_now (SE := SE) cs' cu' x n <> None <-> In n known) /\
     (forall n, name_now (SE := SE) cs' cu' x' n <> None <-> In n known') /\
     named (flat_map given (concat ls)) known known' /\
     m_effects (BE := BE') seqb mn' me' (by_name names) es' [] e_empty known eg /\
     Forall2 (r_log_among_so_far (SE := SE) (BE := BE') seqb known known') ls ss /\ shuffle ss l /\
     (exists l0, nth_error ss 0 = Some l0 /\ r_log_among seqb known known' [RExtend s] [a] l0) /\
     (forall i li rs hi, nth_error (map snd ts') i = Some li -> nth_error psB i = Some (Ret (rs, hi)) ->
        exists si, nth_error ss (Datatypes.S i) = Some si /\ r_log_among seqb known known' li rs si) /\
     rs_shows SE cs' cu' cn' ce' x' (e_run seqb mn' me' (by_name names) known' l eg)).
Proof. exact @r_two_extend_end. Qed.
Print Assumptions C82_extend_end.

Theorem C82_merge_end : forall S NP EP SE BE BE' E (seqb : S -> S -> bool)
  (cs : codec BE S) (cu : codec BE (Id KUlid)) (cn : codec BE NP) (ce : codec BE EP)
  (cs' : codec BE' S) (cu' : codec BE' (Id KUlid)) (cn' : codec BE' NP) (ce' : codec BE' EP) mn me mn' me',
  (forall a b, seqb a b = true <-> a = b) ->
  codec_ok cs -> codec_ok cu -> codec_ok cn -> codec_ok ce -> codec_total cu ->
  codec_ok cs' -> codec_ok cu' -> codec_ok cn' -> codec_ok ce' -> codec_total cu' ->
  forall (es : list (repoch (S := S) (NP := NP) (EP := EP) (SE := SE) (E := E))) (ts : list (rhandle * list (rop S NP EP E)))
    (es' : list (mepoch (S := S) (NP := NP) (EP := EP) (SE := SE) (E := (rdf_error S (sled_index_error S (Id KUlid) SE BE) (sled_error SE BE)))))
    (ts' : list (rhandle * list (rop S NP EP (rdf_error S (sled_index_error S (Id KUlid) SE BE) (sled_error SE BE)))))
    (wcuts wcuts' : nat -> nat -> cutting) (cuts cuts' : list bytes)
    (schedule : list (who * option SE)) (h h' : rhandle) a psA psB d',
  NoDup (flat_map epoch_keys es ++ callers_keys ts) -> Forall RdfSledSpec.calm es ->
  m_apart (SE := SE) cs' cu' cn' ce' mn' me' es' rdb_new ->
  (forall h l o, In (h, l) ts' -> In o l -> match o with RRemoveNode _ | RRemoveEdge _ => False | _ => True end) ->
  let x := m_epochs cs' cu' cn' ce' mn' me' es' rdb_new in
  let d := (rs_epochs cs cu cn ce mn me es rdb_new, x) in
  let p := rs_merge_both cs cu cn ce cs' cu' cn' ce' mn' me' cuts cuts' h in
  let writers := rl_callers cs cu cn ce mn me wcuts 0 ts in
  let others := rl_callers cs' cu' cn' ce' mn' me' wcuts' 1 ts' in
  interleave2 schedule p writers others d = (Ret (a, h'), psA, psB, d') ->
  let seen := during2 schedule p writers others d in
  let x' := snd d' in
  let names := id_now (SE := SE) cs' cu' x' in
  exists s, r_handed2 cs cu cn ce seen (fst d') (fun y => In (Mine, Some y) schedule) ts s /\
    (a = Ok tt -> r_complete2 cs cu cn ce seen (fst d') s) /\
  let calls := (h, [RMerge s]) :: ts' in
  let ls := map snd calls in
  (NoDup (flat_map m_keys es' ++ callers_keys calls) ->
   one_to_one (name_now (SE := SE) cs' cu' x') names /\
   (forall n i, name_now (SE := SE) cs' cu' x n = Some i -> name_now (SE := SE) cs' cu' x' n = Some i) /\
   exists known eg known' ss l,
     (forall n, name_now (SE := SE) cs' cu' x n <> None <-> In n known) /\
     (forall n, name_now (SE := SE) cs' cu' x' n <> None <-> In n known') /\
     named (flat_map given (concat ls)) known known' /\
     m_effects (BE := BE') seqb mn' me' (by_name names) es' [] e_empty known eg /\
     Forall2 (r_log_among_so_far (SE := SE) (BE := BE') seqb known known') ls ss /\ shuffle ss l /\
     (exists l0, nth_error ss 0 = Some l0 /\ r_log_among seqb known known' [RMerge s] [a] l0) /\
     (forall i li rs hi, nth_error (map snd ts') i = Some li -> nth_error psB i = Some (Ret (rs, hi)) ->
        exists si, nth_error ss (Datatypes.S i) = Some si /\ r_log_among seqb known known' li rs si) /\
     rs_shows SE cs' cu' cn' ce' x' (e_run seqb mn' me' (by_name names) known' l eg)).
Proof. exact @r_two_merge_end. Qed.
Print Assumptions C82_merge_end.

(** Whatever is done with an item of the first database. *)
Theorem C82_loop : forall S NP EP SE BE BE' E (seqb : S -> S -> bool)
  (cs : codec BE S) (cu : codec BE (Id KUlid)) (cn : codec BE NP) (ce : codec BE EP) mn me
  (fn : entity S -> NP -> rhandle -> prog rdb SE (result (rdf_error S (sled_index_error S (Id KUlid) SE BE') (sled_error SE BE')) unit * rhandle))
  (fe : triple (entity S) -> EP -> rhandle -> prog rdb SE (result (rdf_error S (sled_index_error S (Id KUlid) SE BE') (sled_error SE BE')) unit * rhandle)),
  (forall a b, seqb a b = true <-> a = b) ->
  codec_ok cs -> codec_ok cu -> codec_ok cn -> codec_ok ce -> codec_total cu ->
  forall (es : list (repoch (S := S) (NP := NP) (EP := EP) (SE := SE) (E := E))) (ts : list (rhandle * list (rop S NP EP E)))
    (wcuts : nat -> nat -> cutting) (cuts cuts' : list bytes) Y (others : list (prog rdb SE Y)) (x : rdb)
    (schedule : list (who * option SE)) (h : rhandle) a h' psA psB d',
  NoDup (flat_map epoch_keys es ++ callers_keys ts) -> Forall RdfSledSpec.calm es ->
  let d := (rs_epochs cs cu cn ce mn me es rdb_new, x) in
  let p := r_over_both cs cu cn ce (fun ip => fn (fst ip) (snd ip)) (fun te => fe (fst te) (snd te)) cuts cuts' h in
  let writers := rl_callers cs cu cn ce mn me wcuts 0 ts in
  interleave2 schedule p writers others d = (Ret (a, h'), psA, psB, d') ->
  let seen := during2 schedule p writers others d in
  exists s, r_handed2 cs cu cn ce seen (fst d') (fun y => In (Mine, Some y) schedule) ts s /\
    (a = Ok tt -> r_complete2 cs cu cn ce seen (fst d') s) /\
  exists schedule', (forall i f, In (i, f) schedule' -> In (second_of i, f) schedule) /\
    forall f : _ -> Y, interleave schedule' (bind (rs_bulk fn fe s h) (fun x => Ret (f x)) :: others) x = (Ret (f (a, h')) :: psB, snd d').
Proof. exact @r_both_beside. Qed.
Print Assumptions C82_loop.

(** ** Examples *)
Notation rerr := (rdf_error N (sled_index_error N (Id KUlid) N N) (sled_error N N)).
Definition r_both_case (l' : list (rop N N N rerr)) (copy : prog (rdb * rdb) N (result (lr_error rerr rerr) unit * rhandle))
    (x : rdb) (schedule : list (who * option N)) :=
  let '(p, psA, psB, d') := interleave2 schedule copy (rl_callers (BE := N) nc uc nc nc mg mg no_cuts 0 [(rh 200 20, w_ops)])
    (rl_callers (BE := N) nc uc nc nc mg mg no_cuts 1 [(rh 300 300, l')]) (xdb w_life, x) in
  (match p with Ret (a, _) => Some a | _ => None end, listed (snd d'), ret_of (rs_iter_edges (SE := N) nc uc nc SPO) [] (snd d')).
Definition r_copying := rs_extend_both (SE := N) (BE := N) (BE' := N) nc uc nc nc nc uc nc nc [to_be_bytes (ul 15)] [] (rh 1000 500).
Definition r_joining := rs_merge_both (SE := N) (BE := N) (BE' := N) nc uc nc nc nc uc nc nc mg mg [to_be_bytes (ul 15)] [] (rh 1000 500).
Definition r_old_life : list (mepoch (S := N) (NP := N) (EP := N) (SE := N) (E := rerr)) :=
  [ MAlone (RLife (rh 3000 3000) [ RInsertNode (nm 1) 10; RInsertNode (nm 8) 80 ] [] 90) ].
Definition r_old_db : rdb := m_epochs nc uc nc nc mg mg r_old_life rdb_new.
Definition go (w : who) (n : nat) : list (who * option N) := List.repeat (w, None) n.
Definition r_on_b : list (rop N N N rerr) := [RMergeNode (nm 5) 50; RInsertEdge (Triple (nm 8) (nm 4) (nm 8)) 88].
Definition r_turns n : list (who * option N) := go Mine n ++ go (First 0) 40 ++ concat (List.repeat (go Mine 2 ++ go (Second 0) 1) 80).
Definition r_source : rdf_source N N N rerr :=
  RdfSource [Ok (nm 1, 1); Ok (nm 5, 2)] [Ok (Triple (nm 5) (nm 1) (nm 5), 3); Ok (Triple (nm 6) (nm 4) (nm 6), 6); Ok (Triple (nm 1) (nm 4) (nm 1), 4)].
(** Someone gives the vertex without a name one while the copy is made and puts an edge in; someone else
    merges into the second store and puts an edge there. *)
Example C82_case :
  NoDup (flat_map epoch_keys w_life ++ callers_keys [(rh 200 20, w_ops)]) /\ Forall calm w_life /\
  NoDup (flat_map m_keys r_old_life ++ callers_keys [(rh 1000 500, [RMerge r_source]); (rh 300 300, r_on_b)]) /\
  r_both_case r_on_b r_copying r_old_db (r_turns 10) =
    (Some (Ok tt), [Ok (EUlid (ul 20), 2); Ok (nm 5, 50); Ok (nm 1, 1); Ok (nm 8, 80)],
     [Ok (Triple (nm 5) (nm 1) (nm 5), 3); Ok (Triple (nm 1) (nm 4) (nm 1), 4); Ok (Triple (nm 8) (nm 4) (nm 8), 88)]) /\
  r_both_case r_on_b r_joining r_old_db (r_turns 3) =
    (Some (Ok tt), [Ok (nm 5, 505); Ok (nm 1, 101); Ok (nm 8, 80)],
     [Ok (Triple (nm 5) (nm 1) (nm 5), 3); Ok (Triple (nm 6) (nm 4) (nm 6), 6); Ok (Triple (nm 1) (nm 4) (nm 1), 4); Ok (Triple (nm 8) (nm 4) (nm 8), 88)]).
Proof.
  split; [exact w_keys|]. split; [exact w_calm|]. split; [apply nodupb_ok; vm_compute; reflexivity|]. vm_compute. auto.
Qed.

(** Failures of the store that is read, of its names and of its graph, and of the store that is written. *)
Example C82_errors_case :
  r_both_case r_on_b r_copying r_old_db (go Mine 2 ++ [(Mine, Some 13)] ++ r_turns 0) =
    (Some (Err (RightE (NameIndexStorageError (ISledError 13)))), [Ok (nm 5, 50); Ok (nm 1, 10); Ok (nm 8, 80)], [Ok (Triple (nm 8) (nm 4) (nm 8), 88)]) /\
  r_both_case r_on_b r_copying r_old_db (go Mine 6 ++ [(Mine, Some 13)] ++ r_turns 0) =
    (Some (Err (RightE (GraphStorageError (SledError 13)))), [Ok (nm 5, 50); Ok (nm 1, 1); Ok (nm 8, 80)], [Ok (Triple (nm 8) (nm 4) (nm 8), 88)]) /\
  r_both_case r_on_b r_copying r_old_db (go Mine 3 ++ [(Mine, Some 13)] ++ r_turns 0) =
    (Some (Err (LeftE (NameIndexStorageError (ISledError 13)))), [Ok (nm 5, 50); Ok (nm 1, 10); Ok (nm 8, 80)], [Ok (Triple (nm 8) (nm 4) (nm 8), 88)]).
Proof. vm_compute. auto. Qed.
