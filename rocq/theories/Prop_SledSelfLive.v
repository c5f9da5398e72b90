(** C86: extend and merge of a sled store by a handle of the same database, others using the database. *)
From Coq Require Import Arith NArith List Sorted.
From Verif Require Import Bytes OMap Core IdType IdTypeFacts Store Mem Spec History Prog Sled SledHistory SledTables SledTop
  SledSched SledRun SledCrash SledConcTop SledTornSpec SledMixSpec SledLeaf SledLazy SledTwo SledSelfLive SledSelfLiveTop SledBeside Ex ExSled Prop_SledReader.
Import ListNotations.

(** ** C86.  [d] is the database after any number of earlier lives, [cs] are the others, who may make any calls; every
    storage step of any of them, and of the call itself, may fail.  No property record key is drawn twice, and of
    the call only those count that it has drawn in this run.

    The call, whose iterators may see what it and the others write, does to the database what a call by some
    source fixed beforehand does, at the same time as the others and with the failures that were met.  All
    vertices and edges of that source were listed by the database at some moment during the call, in order
    and none twice; its errors are storage failures that were met, or MissingPropertyData; if the call succeeds the
    source has all that was there all the time; and the call by that source draws the keys that were drawn.  So C32,
    C35, C50 and C62, which are about such callers, hold of it. *)
Theorem C86_extend : forall k NP EP SE BE (cn : codec BE NP) (ce : codec BE EP) mn me
    (ls : list (life (k := k) (NP := NP) (EP := EP) (SE := SE) (E := sled_error SE BE))) (cs : list (handle k * list (op k NP EP (sled_error SE BE))))
    (wcuts : nat -> nat -> cutting) (cuts cuts' : list bytes) (schedule : list (nat * option SE)) (h h' : handle k) a,
  codec_ok cn -> codec_ok ce -> NoDup (life_keys ls ++ drawn_keys h h' ++ session_keys cs) ->
  let d := lives cn ce mn me ls db_new in
  let ps := beside (s_extend_self cn ce cuts cuts' h) (l_callers cn ce mn me wcuts 1 cs) in
  has_read (a, h') (fst (interleave schedule ps d)) ->
  exists s, let calls := (h, [OExtend s]) :: cs in
  handed2 cn ce (during schedule ps d) (met schedule) calls s /\ (a = Ok tt -> complete2 cn ce (during schedule ps d) s) /\
  session_keys calls = drawn_keys h h' ++ session_keys cs /\
  exists schedule' qs, fst (interleave schedule ps d) = Ret (inl (a, h')) :: map (fun q => bind q (fun b => Ret (inr b))) qs /\
    (forall i f, In (i, f) schedule' -> In (i, f) schedule) /\
    interleave schedule' (l_callers cn ce mn me wcuts 0 calls) d = (Ret ([a], h') :: qs, snd (interleave schedule ps d)).
Proof. exact @self_extend_live. Qed.
Print Assumptions C86_extend.

Theorem C86_merge : forall k NP EP SE BE (cn : codec BE NP) (ce : codec BE EP) mn me
    (ls : list (life (k := k) (NP := NP) (EP := EP) (SE := SE) (E := sled_error SE BE))) (cs : list (handle k * list (op k NP EP (sled_error SE BE))))
    (wcuts : nat -> nat -> cutting) (cuts cuts' : list bytes) (schedule : list (nat * option SE)) (h h' : handle k) a,
  codec_ok cn -> codec_ok ce -> NoDup (life_keys ls ++ drawn_keys h h' ++ session_keys cs) ->
  let d := lives cn ce mn me ls db_new in
  let ps := beside (s_merge_self cn ce mn me cuts cuts' h) (l_callers cn ce mn me wcuts 1 cs) in
  has_read (a, h') (fst (interleave schedule ps d)) ->
  exists s, let calls := (h, [OMerge s]) :: cs in
  handed2 cn ce (during schedule ps d) (met schedule) calls s /\ (a = Ok tt -> complete2 cn ce (during schedule ps d) s) /\
  session_keys calls = drawn_keys h h' ++ session_keys cs /\
  exists schedule' qs, fst (interleave schedule ps d) = Ret (inl (a, h')) :: map (fun q => bind q (fun b => Ret (inr b))) qs /\
    (forall i f, In (i, f) schedule' -> In (i, f) schedule) /\
    interleave schedule' (l_callers cn ce mn me wcuts 0 calls) d = (Ret ([a], h') :: qs, snd (interleave schedule ps d)).
Proof. exact @self_merge_live. Qed.
Print Assumptions C86_merge.

(** A merge of a handle into another one, where the others neither extend nor remove and all calls are through: what
    the database shows in the end is what it showed, and the steps of all calls in some order. *)
Theorem C86_merge_end : forall k NP EP SE BE (cn : codec BE NP) (ce : codec BE EP) mn me
    (ls : list (life (k := k) (NP := NP) (EP := EP) (SE := SE) (E := sled_error SE BE))) (cs : list (handle k * list (op k NP EP (sled_error SE BE))))
    (wcuts : nat -> nat -> cutting) (cuts cuts' : list bytes) (schedule : list (nat * option SE)) (h h' : handle k) a,
  codec_ok cn -> codec_ok ce -> NoDup (life_keys ls ++ drawn_keys h h' ++ session_keys cs) ->
  extends_done cn ce mn me ls db_new ->
  (forall h l o, In (h, l) cs -> In o l -> match o with ORemoveNode _ | ORemoveEdge _ | OExtend _ => False | _ => True end) ->
  let d := lives cn ce mn me ls db_new in
  let ps := beside (s_merge_self cn ce mn me cuts cuts' h) (l_callers cn ce mn me wcuts 1 cs) in
  let ran := interleave schedule ps d in
  has_read (a, h') (fst ran) -> (forall q, In q (fst ran) -> exists r, q = Ret r) ->
  exists s, let calls := (h, [OMerge s]) :: cs in
  handed2 cn ce (during schedule ps d) (met schedule) calls s /\ (a = Ok tt -> complete2 cn ce (during schedule ps d) s) /\
  exists qs, fst ran = Ret (inl (a, h')) :: map (fun q => bind q (fun b => Ret (inr b))) qs /\
  exists g g' lgs l, sled_shows SE cn ce d g /\ Forall2 accounts (logs calls (Ret ([a], h') :: qs)) lgs /\ shuffle lgs l /\
    moves mn me l g g' /\ sled_shows SE cn ce (snd ran) g'.
Proof. exact @self_merge_end. Qed.
Print Assumptions C86_merge_end.

(** ** Examples *)
Definition same_life : list (life (k := KU64) (NP := N) (EP := N) (SE := N) (E := sled_error N N)) :=
  [ Life hd1 [ OInsertNode (u 1) 1; OInsertNode (u 2) 2; OInsertEdge (tr 1 5 2) 12; OInsertEdge (tr 2 5 3) 23 ]%N [] 50%nat ].
Definition same_db : db := lives nc nc mg mg same_life db_new.
Definition hd3 : handle KU64 := Handle (counter 1300) (ulids 7000).
Definition node_cut : bytes := to_be_bytes (k := KU64) (u 2).
Definition to_self := s_extend_self (k := KU64) (SE := N) (BE := N) nc nc [node_cut] [cut] hd3.
Definition into_self := s_merge_self (k := KU64) (SE := N) (BE := N) nc nc mg mg [node_cut] [cut] hd3.
Definition same_case (l : list (op KU64 N N (sled_error N N)))
    (copy : prog db N (result (lr_error (sled_error N N) (sled_error N N)) unit * handle KU64)) (schedule : list (nat * option N)) :=
  let '(ps, d') := interleave schedule (beside copy (l_callers (BE := N) nc nc mg mg no_cuts 1 [(hd2, l)])) same_db in
  (match nth_error ps 0 with
   | Some (Ret (inl (a, h))) => Some (a, (g_pos (h_gen h) - g_pos (h_gen hd3), g_pos (h_ulid h) - g_pos (h_ulid hd3))%nat)
   | _ => None
   end,
   now N (s_iter_vertices (k := KU64) (BE := N) nc) d', now N (s_iter_edges (k := KU64) (BE := N) nc SPO) d').
Definition own (n : nat) : list (nat * option N) := List.repeat (0%nat, None) n.
Definition other (n : nat) : list (nat * option N) := List.repeat (1%nat, None) n.
(** While the first vertices are being copied someone removes one, puts one further on and two edges. *)
Definition guest : list (op KU64 N N (sled_error N N)) :=
  [ORemoveNode (u 1); OInsertNode (u 7) 7; OInsertEdge (tr 7 5 1) 71; OInsertEdge (tr 2 5 3) 99]%N.
Definition amid : list (nat * option N) := own 2 ++ other 60 ++ own 80.
(** The handle when so many identifiers have been drawn from its generator, and from Ulid::new(). *)
Definition drew (n m : nat) (h : handle KU64) : handle KU64 :=
  Handle (Gen (g_seq (h_gen h)) (g_pos (h_gen h) + n)) (Gen (g_seq (h_ulid h)) (g_pos (h_ulid h) + m)).
(** The removed vertex has been read before and is back in the end; the new edges are rewritten, or merged with themselves. *)
Example C86_case :
  NoDup (life_keys same_life ++ drawn_keys hd3 (drew 0 2 hd3) ++ session_keys [(hd2, guest)]) /\
  NoDup (life_keys same_life ++ drawn_keys hd3 (drew 2 0 hd3) ++ session_keys [(hd2, guest)]) /\
  same_case guest to_self amid =
    (Some (Ok tt, (0, 2)%nat), [Ok (u 1, 1); Ok (u 2, 2); Ok (u 7, 7)], [Ok (tr 2 5 3, 99); Ok (tr 7 5 1, 71)])%N /\
  same_case guest into_self amid =
    (Some (Ok tt, (2, 0)%nat), [Ok (u 1, 1); Ok (u 2, 22); Ok (u 7, 77)], [Ok (tr 2 5 3, 1089); Ok (tr 7 5 1, 781)])%N.
Proof. split; [apply nodupb_ok; vm_compute; reflexivity|]. split; [apply nodupb_ok; vm_compute; reflexivity|]. vm_compute. auto. Qed.

(** Failures when reading and when writing: nothing has been drawn. *)
Example C86_errors_case :
  same_case guest to_self (own 1 ++ [(0%nat, Some 13%N)] ++ amid) =
    (Some (Err (RightE (SledError 13)), (0, 0)%nat), [Ok (u 2, 2); Ok (u 7, 7)], [Ok (tr 2 5 3, 99); Ok (tr 7 5 1, 71)])%N /\
  same_case guest to_self (own 2 ++ [(0%nat, Some 13%N)] ++ amid) =
    (Some (Err (LeftE (SledError 13)), (0, 0)%nat), [Ok (u 2, 2); Ok (u 7, 7)], [Ok (tr 2 5 3, 99); Ok (tr 7 5 1, 71)])%N.
Proof. vm_compute. auto. Qed.

(** Someone else merges, in between. *)
Definition mergers : list (op KU64 N N (sled_error N N)) := [OMergeNode (u 1) 5; OMergeEdge (tr 1 5 2) 7; OInsertNode (u 9) 90]%N.
Example C86_merge_case :
  NoDup (life_keys same_life ++ drawn_keys hd3 (drew 2 0 hd3) ++ session_keys [(hd2, mergers)]) /\
  same_case mergers into_self (concat (List.repeat (own 2 ++ other 1) 60)) =
    (Some (Ok tt, (2, 0)%nat), [Ok (u 1, 151); Ok (u 2, 22); Ok (u 9, 90)], [Ok (tr 1 5 2, 1397); Ok (tr 2 5 3, 253)])%N.
Proof. split; [apply nodupb_ok; vm_compute; reflexivity|]. vm_compute. auto. Qed.
