(** C32 and C62: calls of every kind, extend and merge among them, by several handles of the same
    sled database at the same time. *)
From Coq Require Import NArith List.
From Verif Require Import Bytes OMap Core IdType Store Mem Spec History Prog Sled SledHistory SledSched
  SledRun SledCrash SledLeaf SledConcTop SledTornSpec SledMixSpec SledMixMain Ex ExSled Prop_SledConcRm.
Import ListNotations.

(** ** C32.  Any number of callers, each with its own handle, each making any sequence of calls;
    no caller writes an edge that another one takes away or extends by; the leaves of the trees
    ending anywhere; the storage steps of all of them in any order, any of them failing except
    those of the callers that call extend; on the database any processes that may have failed and died
    have left (extend excepted, unless it ran to its end).  When all are through, the database
    shows, in all three orders, a graph reached from the one shown at first by single insertions, mergings and
    removals in some order that respects each caller's, each doing what it answered.  These are
    the single calls, and the insertions and mergings that extend and merge consist of: all of
    their source before its first error, up to the first one that fails, whose failure is then
    the answer.
    Missing: callers that write an edge another one removes or extends by at the same time, and
    storage failures inside extend, where the claim is false (C62_refuted, C32_remove_edge_refuted,
    C32_remove_node_refuted and C30_refuted). *)
Theorem C32_all_partial : forall k NP EP SE BE E (cn : codec BE NP) (ce : codec BE EP) mn me
    (ls : list (life (k := k) (NP := NP) (EP := EP) (SE := SE) (E := E)))
    (cs : list (handle k * list (op k NP EP E))) (cuts : nat -> nat -> cutting) (schedule : list (nat * option SE)),
  codec_ok cn -> codec_ok ce -> NoDup (life_keys ls ++ session_keys cs) ->
  extends_done cn ce mn me ls db_new -> apart cs -> spared cs schedule ->
  let d := lives cn ce mn me ls db_new in
  let (ps, d') := interleave schedule (l_callers cn ce mn me cuts 0 cs) d in
  (forall p, In p ps -> exists r, p = Ret r) ->
  exists g g' lgs s, sled_shows SE cn ce d g /\ Forall2 accounts (logs cs ps) lgs /\ shuffle lgs s /\
    moves mn me s g g' /\ sled_shows SE cn ce d' g'.
Proof. exact @mix_shows. Qed.
Print Assumptions C32_all_partial.

(** One caller extends by a path over vertices 1, 2 and 4, another one merges a source that ends
    with an error and shares a vertex with it, the third removes vertex 3 of the triangle; the
    storage fails the second once, in its second call. *)
Definition path_source : source KU64 N N N :=
  Source [Ok (u 1, 100); Ok (u 4, 4)]%N [Ok (tr 1 5 2, 120); Ok (tr 2 7 4, 24)]%N.
Definition other_source : source KU64 N N N :=
  Source [Ok (u 1, 7)]%N [Ok (tr 5 5 6, 56); Err 99; Ok (tr 6 5 5, 65)]%N.
Definition three : list (handle KU64 * list exop) :=
  [ (hd2, [OExtend path_source; OInsertNode (u 4) 44%N]);
    (hd3, [OMerge other_source; OMerge other_source]);
    (Handle (counter 1300) (ulids 7000), [ORemoveNode (u 3)]) ].
Definition around : list (nat * option N) :=
  map (fun i => (i, None)) [0; 1; 2; 0; 1; 2]%nat ++ [(1%nat, Some 8%N)] ++
  map (fun i => (i, None)) (concat (repeat [0; 2; 1] 12)%nat).

Lemma three_apart : apart three.
Proof.
  intros i j hi hj li lj o o' a a' t Hne Hi Hj Ho Ho' Ha Ha' He Hw.
  destruct i as [|[|[|i]]]; simpl in Hi; try (now destruct i); injection Hi as <- <-;
    destruct j as [|[|[|j]]]; simpl in Hj; try (now destruct j); try (now elim Hne); injection Hj as <- <-;
    simpl in Ho, Ho'; repeat destruct Ho as [<-|Ho]; try contradiction; repeat destruct Ho' as [<-|Ho']; try contradiction;
    simpl in Ha, Ha'; repeat destruct Ha as [<-|Ha]; try contradiction; repeat destruct Ha' as [<-|Ha']; try contradiction;
    simpl in *; try contradiction; subst; destruct He as [He|He]; try contradiction; try destruct He as [He|He]; try discriminate He; try contradiction;
    repeat match goal with
    | H : exists _, _ |- _ => destruct H
    | H : _ \/ _ |- _ => destruct H
    | H : OInsertNode _ _ = _ |- _ => discriminate H
    | H : OInsertEdge _ _ = _ |- _ => discriminate H
    | H : False |- _ => destruct H
    end.
Qed.

Example C32_all_case :
  NoDup (life_keys triangle_life ++ session_keys three) /\ apart three /\ spared three around /\
  let d := lives nc nc mg mg triangle_life db_new in
  let (ps, d') := interleave around (l_callers (SE := N) nc nc mg mg halves 0 three) d in
  map answers_of ps = [[Ok tt; Ok tt]; [Err (RightE 99%N); Err (LeftE (SledError 8%N))]; [Ok tt]] /\
  now N (s_iter_vertices (k := KU64) (BE := N) nc) d' = [Ok (u 1, 1007); Ok (u 2, 2); Ok (u 4, 44)]%N /\
  now N (s_iter_edges (k := KU64) (BE := N) nc POS) d' = [Ok (tr 1 5 2, 120); Ok (tr 5 5 6, 56); Ok (tr 2 7 4, 24)]%N.
Proof.
  split; [apply nodupb_ok; vm_compute; reflexivity|]. split; [apply three_apart|]. split.
  { intros [|[|[|i]]] h l s e Hi Hin Hs; simpl in Hi; try (now destruct i); injection Hi as <- <-;
      simpl in Hin; repeat destruct Hin as [Hin|Hin]; try discriminate Hin; try contradiction.
    simpl in Hs. repeat destruct Hs as [Hs|Hs]; try discriminate Hs; contradiction. }
  vm_compute. auto.
Qed.

(** ** C62.  The above is about extend and merge as well.  Where extend and the removals do not
    occur nothing is asked of the callers and of the storage but identifiers of their own.
    Missing: extend by an edge another caller writes, where the claim is false (below). *)
Theorem C62_merge_partial : forall k NP EP SE BE E (cn : codec BE NP) (ce : codec BE EP) mn me
    (ls : list (life (k := k) (NP := NP) (EP := EP) (SE := SE) (E := E)))
    (cs : list (handle k * list (op k NP EP E))) (cuts : nat -> nat -> cutting) (schedule : list (nat * option SE)),
  codec_ok cn -> codec_ok ce -> NoDup (life_keys ls ++ session_keys cs) ->
  extends_done cn ce mn me ls db_new ->
  (forall h l o, In (h, l) cs -> In o l ->
     match o with ORemoveNode _ | ORemoveEdge _ | OExtend _ => False | _ => True end) ->
  let d := lives cn ce mn me ls db_new in
  let (ps, d') := interleave schedule (l_callers cn ce mn me cuts 0 cs) d in
  (forall p, In p ps -> exists r, p = Ret r) ->
  exists g g' lgs s, sled_shows SE cn ce d g /\ Forall2 accounts (logs cs ps) lgs /\ shuffle lgs s /\
    moves mn me s g g' /\ sled_shows SE cn ce d' g'.
Proof. exact @mix_merge. Qed.
Print Assumptions C62_merge_partial.

(** Two callers merge the same source at the same time, the storage failing one of them once. *)
Definition both : list (handle KU64 * list exop) :=
  [ (hd2, [OMerge path_source]); (hd3, [OMerge path_source; OMerge path_source]) ].
Definition hurdles : list (nat * option N) :=
  map (fun i => (i, None)) [0; 1; 1; 0]%nat ++ [(1%nat, Some 8%N)] ++ map (fun i => (i, None)) (concat (repeat [0; 1] 6)%nat).
Example C62_merge_case :
  NoDup (life_keys triangle_life ++ session_keys both) /\
  let d := lives nc nc mg mg triangle_life db_new in
  let (ps, d') := interleave hurdles (l_callers (SE := N) nc nc mg mg halves 0 both) d in
  map answers_of ps = [[Ok tt]; [Err (LeftE (SledError 8%N)); Ok tt]] /\
  now N (s_iter_vertices (k := KU64) (BE := N) nc) d' = [Ok (u 1, 12100); Ok (u 2, 2); Ok (u 4, 444)]%N /\
  now N (s_iter_edges (k := KU64) (BE := N) nc POS) d' =
    [Ok (tr 3 5 1, 31); Ok (tr 1 5 2, 2520); Ok (tr 2 5 3, 23); Ok (tr 2 7 4, 264)]%N.
Proof. split; [apply nodupb_ok; vm_compute; reflexivity|]. vm_compute. auto. Qed.

(** ** C62 is false when two callers extend by the same edge: extend puts the entries into
    the three orders in separate storage steps and then removes the record it found in the first
    one (/repo/src/sled/extend.rs:34-62).  The other orders may be left with the removed record,
    with no call failing. *)
Theorem C62_refuted : exists (cs : list (handle KU64 * list exop)) (schedule : list nat),
  NoDup (session_keys cs) /\
  let (ps, d) := interleave (map (fun i => (i, None)) schedule) (l_callers (SE := N) nc nc mg mg (fun _ _ => ([], [])) 0 cs) db_new in
  map answers_of ps = [[Ok tt]; [Ok tt]] /\
  now N (s_iter_edges (k := KU64) (BE := N) nc SPO) d = [Ok (tr 1 5 2, 33%N)] /\
  now N (s_iter_edges (k := KU64) (BE := N) nc POS) d = [Err MissingPropertyData].
Proof.
  exists [(hd1, [OExtend (Source [] [Ok (tr 1 5 2, 12%N)])]); (hd2, [OExtend (Source [] [Ok (tr 1 5 2, 33%N)])])], [0; 0; 1; 1; 1; 1; 1; 0; 0; 0]%nat.
  split; [apply nodupb_ok; vm_compute; reflexivity|]. vm_compute. auto.
Qed.
Print Assumptions C62_refuted.
