(** C81: extend and merge of a sled store by a store on another database, others using both. *)
From Coq Require Import Arith NArith List Sorted.
From Verif Require Import Bytes OMap Core IdType IdTypeFacts Store Mem Spec History Prog Sled SledHistory SledTables SledTop
  SledSched SledRun SledCrash SledConcTop SledTornSpec SledMixSpec SledLeaf SledLazy SledBeside SledTwo SledTwoTop Ex ExSled Prop_SledReader.
Import ListNotations.

(** ** C81.  [d] is the database that is read, after any number of earlier lives, and the one that is written, which
    is any; [cs] are the others on the first one, [cs'] those on the second one; every storage step of any of them
    may fail.

    The call does to the second database what a call by some source fixed beforehand does there, at the same
    time as the others and with the failures that were met.  All vertices and edges of that source were listed
    by the first database at some moment during the call, in order and none twice; its errors are storage
    failures that were met, or MissingPropertyData when one of the others on the first database rewrites an edge;
    and if the call succeeds the source has all that was there all the time.  C32, C35, C50 and C62 are about
    such callers. *)
Theorem C81_extend : forall k NP EP SE BE BE' E (cn : codec BE NP) (ce : codec BE EP) (cn' : codec BE' NP) (ce' : codec BE' EP) mn me mn' me'
    (ls : list (life (k := k) (NP := NP) (EP := EP) (SE := SE) (E := E)))
    (cs : list (handle k * list (op k NP EP E))) (cs' : list (handle k * list (op k NP EP (sled_error SE BE))))
    (wcuts wcuts' : nat -> nat -> cutting) (cuts cuts' : list bytes)
    (schedule : list (who * option SE)) (h h' : handle k) (x : db) a psA psB d',
  codec_ok cn -> codec_ok ce -> NoDup (life_keys ls ++ session_keys cs) ->
  let d := (lives cn ce mn me ls db_new, x) in
  let p := s_extend_both cn ce cn' ce' cuts cuts' h in
  let writers := l_callers cn ce mn me wcuts 0 cs in
  let others := l_callers cn' ce' mn' me' wcuts' 1 cs' in
  interleave2 schedule p writers others d = (Ret (a, h'), psA, psB, d') ->
  let seen := during2 schedule p writers others d in
  exists s, handed2 cn ce seen (fun y => In (Mine, Some y) schedule) cs s /\ (a = Ok tt -> complete2 cn ce seen s) /\
  exists schedule', (forall i f, In (i, f) schedule' -> In (second_of i, f) schedule) /\
    interleave schedule' (l_callers cn' ce' mn' me' wcuts' 0 ((h, [OExtend s]) :: cs')) x = (Ret ([a], h') :: psB, snd d').
Proof. exact @two_extend. Qed.
Print Assumptions C81_extend.

Theorem C81_merge : forall k NP EP SE BE BE' E (cn : codec BE NP) (ce : codec BE EP) (cn' : codec BE' NP) (ce' : codec BE' EP) mn me mn' me'
    (ls : list (life (k := k) (NP := NP) (EP := EP) (SE := SE) (E := E)))
    (cs : list (handle k * list (op k NP EP E))) (cs' : list (handle k * list (op k NP EP (sled_error SE BE))))
    (wcuts wcuts' : nat -> nat -> cutting) (cuts cuts' : list bytes)
    (schedule : list (who * option SE)) (h h' : handle k) (x : db) a psA psB d',
  codec_ok cn -> codec_ok ce -> NoDup (life_keys ls ++ session_keys cs) ->
  let d := (lives cn ce mn me ls db_new, x) in
  let p := s_merge_both cn ce cn' ce' mn' me' cuts cuts' h in
  let writers := l_callers cn ce mn me wcuts 0 cs in
  let others := l_callers cn' ce' mn' me' wcuts' 1 cs' in
  interleave2 schedule p writers others d = (Ret (a, h'), psA, psB, d') ->
  let seen := during2 schedule p writers others d in
  exists s, handed2 cn ce seen (fun y => In (Mine, Some y) schedule) cs s /\ (a = Ok tt -> complete2 cn ce seen s) /\
  exists schedule', (forall i f, In (i, f) schedule' -> In (second_of i, f) schedule) /\
    interleave schedule' (l_callers cn' ce' mn' me' wcuts' 0 ((h, [OMerge s]) :: cs')) x = (Ret ([a], h') :: psB, snd d').
Proof. exact @two_merge. Qed.
Print Assumptions C81_merge.

(** A merge from the first database to the last, where the others on the second one neither extend nor remove:
    what it shows in the end is what it showed, and the steps of all calls in some order. *)
Theorem C81_merge_end : forall k NP EP SE BE BE' E (cn : codec BE NP) (ce : codec BE EP) (cn' : codec BE' NP) (ce' : codec BE' EP) mn me mn' me'
    (ls : list (life (k := k) (NP := NP) (EP := EP) (SE := SE) (E := E)))
    (ls' : list (life (k := k) (NP := NP) (EP := EP) (SE := SE) (E := sled_error SE BE)))
    (cs : list (handle k * list (op k NP EP E))) (cs' : list (handle k * list (op k NP EP (sled_error SE BE))))
    (wcuts wcuts' : nat -> nat -> cutting) (cuts cuts' : list bytes)
    (schedule : list (who * option SE)) (h h' : handle k) a psA psB d',
  codec_ok cn -> codec_ok ce -> codec_ok cn' -> codec_ok ce' -> NoDup (life_keys ls ++ session_keys cs) ->
  extends_done cn' ce' mn' me' ls' db_new ->
  (forall h l o, In (h, l) cs' -> In o l -> match o with ORemoveNode _ | ORemoveEdge _ | OExtend _ => False | _ => True end) ->
  let d := (lives cn ce mn me ls db_new, lives cn' ce' mn' me' ls' db_new) in
  let p := s_merge_both cn ce cn' ce' mn' me' cuts cuts' h in
  let writers := l_callers cn ce mn me wcuts 0 cs in
  let others := l_callers cn' ce' mn' me' wcuts' 1 cs' in
  interleave2 schedule p writers others d = (Ret (a, h'), psA, psB, d') -> (forall q, In q psB -> exists r, q = Ret r) ->
  let seen := during2 schedule p writers others d in
  exists s, handed2 cn ce seen (fun y => In (Mine, Some y) schedule) cs s /\ (a = Ok tt -> complete2 cn ce seen s) /\
  let calls := (h, [OMerge s]) :: cs' in
  (NoDup (life_keys ls' ++ session_keys calls) ->
   exists g g' lgs l, sled_shows SE cn' ce' (snd d) g /\ Forall2 accounts (logs calls (Ret ([a], h') :: psB)) lgs /\ shuffle lgs l /\
     moves mn' me' l g g' /\ sled_shows SE cn' ce' (snd d') g').
Proof. exact @two_merge_end. Qed.
Print Assumptions C81_merge_end.

(** Whatever is done with an item of the first database. *)
Theorem C81_loop : forall k NP EP SE BE BE' E (cn : codec BE NP) (ce : codec BE EP) mn me
    (fn : Id k * NP -> handle k -> prog db SE (result (sled_error SE BE') unit * handle k))
    (fe : triple (Id k) * EP -> handle k -> prog db SE (result (sled_error SE BE') unit * handle k))
    (ls : list (life (k := k) (NP := NP) (EP := EP) (SE := SE) (E := E)))
    (cs : list (handle k * list (op k NP EP E))) (wcuts : nat -> nat -> cutting) (cuts cuts' : list bytes)
    Y (others : list (prog db SE Y)) (dB : db)
    (schedule : list (who * option SE)) (h : handle k) a h' psA' psB' d',
  codec_ok cn -> codec_ok ce -> NoDup (life_keys ls ++ session_keys cs) ->
  let d := (lives cn ce mn me ls db_new, dB) in
  let p := over_both t_node t_spo (fun kv => next (node_read cn kv)) (fun kv => next (edge_read ce kv)) fn fe cuts cuts' h in
  let writers := l_callers cn ce mn me wcuts 0 cs in
  interleave2 schedule p writers others d = (Ret (a, h'), psA', psB', d') ->
  let seen := during2 schedule p writers others d in
  exists s, handed2 cn ce seen (fun y => In (Mine, Some y) schedule) cs s /\ (a = Ok tt -> complete2 cn ce seen s) /\
  exists sB, (forall i f, In (i, f) sB -> In (second_of i, f) schedule) /\
    forall f : _ -> Y, interleave sB (bind (for_nodes_edges fn fe s h) (fun x => Ret (f x)) :: others) dB = (Ret (f (a, h')) :: psB', snd d').
Proof. exact @both_beside. Qed.
Print Assumptions C81_loop.

(** ** Examples *)
Definition both_case (l : list exop) (l' : list (op KU64 N N (sled_error N N)))
    (copy : prog (db * db) N (result (lr_error (sled_error N N) (sled_error N N)) unit * handle KU64))
    (x : db) (schedule : list (who * option N)) :=
  let '(p, psA, psB, d') := interleave2 schedule copy (l_callers (BE := N) nc nc mg mg no_cuts 0 [(hd2, l)])
    (l_callers (BE := N) nc nc mg mg no_cuts 1 [(hd2, l')]) (start_db, x) in
  (match p with Ret (a, _) => Some a | _ => None end,
   now N (s_iter_vertices (k := KU64) (BE := N) nc) (snd d'), now N (s_iter_edges (k := KU64) (BE := N) nc SPO) (snd d')).
Definition old_life : list (life (k := KU64) (NP := N) (EP := N) (SE := N) (E := sled_error N N)) :=
  [ Life (Handle (counter 1300) (ulids 7000)) [ OInsertNode (u 2) 20; OInsertNode (u 8) 80; OInsertEdge (tr 1 5 2) 120 ]%N [] 50%nat ].
Definition old_db : db := lives nc nc mg mg old_life db_new.
Definition copying := s_extend_both (k := KU64) (SE := N) (BE := N) (BE' := N) nc nc nc nc [to_be_bytes (k := KU64) (u 2)] [cut] hd1.
Definition joining := s_merge_both (k := KU64) (SE := N) (BE := N) (BE' := N) nc nc nc nc mg mg [to_be_bytes (k := KU64) (u 2)] [cut] hd1.
Definition go (w : who) (n : nat) : list (who * option N) := List.repeat (w, None) n.
(** Someone puts a vertex and an edge into the first store after its vertices have been read, someone else
    removes from the second one what has just been copied. *)
Definition on_a : list exop := [OInsertNode (u 7) 7; OInsertEdge (tr 7 5 1) 71]%N.
Definition on_b : list (op KU64 N N (sled_error N N)) := [ORemoveNode (u 1); OInsertNode (u 9) 90]%N.
Definition mixed : list (who * option N) := go Mine 8 ++ go (First 0) 20 ++ go (Second 0) 20 ++ go Mine 60.
Example C81_case :
  NoDup (life_keys start_life ++ session_keys [(hd2, on_a)]) /\
  both_case on_a on_b copying old_db mixed =
    (Some (Ok tt), [Ok (u 2, 2); Ok (u 8, 80); Ok (u 9, 90)], [Ok (tr 1 5 2, 12); Ok (tr 2 5 3, 23); Ok (tr 7 5 1, 71)])%N /\
  both_case on_a on_b joining old_db mixed =
    (Some (Ok tt), [Ok (u 2, 202); Ok (u 8, 80); Ok (u 9, 90)], [Ok (tr 1 5 2, 12); Ok (tr 2 5 3, 23); Ok (tr 7 5 1, 71)])%N.
Proof. split; [apply nodupb_ok; vm_compute; reflexivity|]. vm_compute. auto. Qed.

(** A failure of the store that is written, and one of the store that is read. *)
Example C81_errors_case :
  both_case on_a on_b copying old_db (go Mine 2 ++ [(Mine, Some 13%N)] ++ mixed) =
    (Some (Err (LeftE (SledError 13))), [Ok (u 2, 20); Ok (u 8, 80); Ok (u 9, 90)], [])%N /\
  both_case on_a on_b copying old_db (go Mine 1 ++ [(Mine, Some 13%N)] ++ mixed) =
    (Some (Err (RightE (SledError 13))), [Ok (u 2, 20); Ok (u 8, 80); Ok (u 9, 90)], [])%N.
Proof. vm_compute. auto. Qed.

(** Someone else merges into the second store and puts a vertex there. *)
Definition adding : list (op KU64 N N (sled_error N N)) := [OMergeNode (u 1) 5; OMergeEdge (tr 1 5 2) 7; OInsertNode (u 9) 90]%N.
Definition handed_over : source KU64 N N (sled_error N N) :=
  Source [Ok (u 1, 1); Ok (u 2, 2)]%N [Ok (tr 1 5 2, 12); Ok (tr 2 5 3, 23); Ok (tr 7 5 1, 71)]%N.
Definition turns : list (who * option N) := go Mine 8 ++ go (First 0) 20 ++ concat (List.repeat (go Mine 2 ++ go (Second 0) 1) 30)%nat.
Example C81_merge_case :
  NoDup (life_keys start_life ++ session_keys [(hd2, on_a)]) /\
  NoDup (life_keys old_life ++ session_keys [(hd1, [OMerge handed_over]); (hd2, adding)]) /\
  both_case on_a adding joining old_db turns =
    (Some (Ok tt), [Ok (u 1, 15); Ok (u 2, 202); Ok (u 8, 80); Ok (u 9, 90)], [Ok (tr 1 5 2, 12127); Ok (tr 2 5 3, 23); Ok (tr 7 5 1, 71)])%N.
Proof. split; [apply nodupb_ok; vm_compute; reflexivity|]. split; [apply nodupb_ok; vm_compute; reflexivity|]. vm_compute. auto. Qed.
