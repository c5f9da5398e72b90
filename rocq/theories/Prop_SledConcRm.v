(** C32: removals while other handles of the same sled database are at work. *)
From Coq Require Import NArith List.
From Verif Require Import Bytes OMap Core IdType Store Mem Spec History Prog Sled SledHistory SledSched
  SledRun SledCrash SledLeaf SledConcTop Ex ExSled.
Import ListNotations.

(** ** C32.  Any number of callers, each with its own handle, each making any sequence of single
    calls (everything but extend and merge), such that no caller writes an edge that another one
    removes, by itself or together with a vertex; the leaves of the trees ending anywhere; the storage steps of all of them in any order,
    any of them failing; on the database any processes that may have failed and died have left
    (extend excepted, unless it ran to its end).  At every moment the tables are those of some of
    the calls made one after the other, in an order that respects each caller's; a caller that is
    through has got the answers it gets in that order.
    (In that order the scans are in one piece; by C47 this makes no difference.)
    Missing: callers that write an edge another one removes at the same time, where the claim is
    false (below); extend and merge (C32_all_partial). *)
Theorem C32_serial_partial : forall k NP EP SE BE E (cn : codec BE NP) (ce : codec BE EP) mn me
    (ls : list (life (k := k) (NP := NP) (EP := EP) (SE := SE) (E := E)))
    (cs : list (handle k * list (op k NP EP E))) (cuts : nat -> nat -> cutting) (schedule : list (nat * option SE)),
  codec_ok cn -> codec_ok ce -> NoDup (life_keys ls ++ session_keys cs) ->
  extends_done cn ce mn me ls db_new ->
  Forall (fun hl => Forall one_call (snd hl)) cs -> independent cs ->
  let d := lives cn ce mn me ls db_new in
  let (ps, d') := interleave schedule (l_callers cn ce mn me cuts 0 cs) d in
  exists order ts,
    one_at_a_time cn ce mn me order (map start cs) d = (ts, d') /\
    (forall i r, nth_error ps i = Some (Ret r) -> exists t,
       nth_error ts i = Some t /\ th_todo t = [] /\ r = (th_done t, th_handle t)) /\
    (forall i fs e, In (i, fs) order -> In (Some e) fs -> In (i, Some e) schedule).
Proof. exact @mixed_serial. Qed.
Print Assumptions C32_serial_partial.

(** When all are through, the database shows, in all three orders, a graph reached from the one
    shown at first by the calls in some order that respects each caller's, each doing what it
    answered. *)
Theorem C32_shows_partial : forall k NP EP SE BE E (cn : codec BE NP) (ce : codec BE EP) mn me
    (ls : list (life (k := k) (NP := NP) (EP := EP) (SE := SE) (E := E)))
    (cs : list (handle k * list (op k NP EP E))) (cuts : nat -> nat -> cutting) (schedule : list (nat * option SE)),
  codec_ok cn -> codec_ok ce -> NoDup (life_keys ls ++ session_keys cs) ->
  extends_done cn ce mn me ls db_new ->
  Forall (fun hl => Forall one_call (snd hl)) cs -> independent cs ->
  let d := lives cn ce mn me ls db_new in
  let (ps, d') := interleave schedule (l_callers cn ce mn me cuts 0 cs) d in
  (forall p, In p ps -> exists r, p = Ret r) ->
  exists g g' s, sled_shows SE cn ce d g /\ shuffle (logs cs ps) s /\ moves mn me s g g' /\
    sled_shows SE cn ce d' g'.
Proof. exact @mixed_shows. Qed.
Print Assumptions C32_shows_partial.

(** Both callers remove vertex 2 of a triangle while the second also writes elsewhere; the scans
    of the two removals overlap. *)
Definition triangle : list exop :=
  [ OInsertNode (u 1) 1; OInsertNode (u 2) 2; OInsertEdge (tr 1 5 2) 12; OInsertEdge (tr 2 5 3) 23;
    OInsertEdge (tr 3 5 1) 31 ]%N.
Definition triangle_life : list (life (k := KU64) (NP := N) (EP := N) (SE := N) (E := N)) :=
  [ Life hd1 triangle [] 5%nat ].
Definition hd3 : handle KU64 := Handle (counter 900) (ulids 5000).
Definition removers : list (handle KU64 * list exop) :=
  [ (hd2, [ORemoveNode (u 2)]);
    (hd3, [ORemoveNode (u 2); OInsertEdge (tr 3 6 4) 34%N; ORemoveEdge (tr 3 5 1)]) ].
Definition overlap : list (nat * option N) :=
  map (fun i => (i, None)) [0; 1; 0; 1; 1; 1; 1; 1; 1; 1; 0; 0; 0; 0; 0; 1; 1; 1; 1; 1; 1]%nat.
(** The scans of the edges from and to vertex 2 meet two leaves each. *)
Definition halves (i j : nat) : cutting :=
  ([encode_spo (k := KU64) (tr 2 5 3)], [encode_osp (k := KU64) (tr 1 6 2)]).

Lemma removers_independent : independent removers.
Proof.
  intros [|[|i]] [|[|j]] hi hj li lj o o' t Hne Hi Hj Ho Ho' He Hw; simpl in Hi, Hj;
    try (now destruct i); try (now destruct j); try (now elim Hne); injection Hi as <- <-; injection Hj as <- <-;
    simpl in Ho, Ho'; repeat destruct Ho as [<-|Ho]; repeat destruct Ho' as [<-|Ho']; simpl in *; try contradiction; subst;
    destruct He as [He|He]; discriminate He.
Qed.

Example C32_case :
  NoDup (life_keys triangle_life ++ session_keys removers) /\ independent removers /\
  let d := lives nc nc mg mg triangle_life db_new in
  let (ps, d') := interleave overlap (l_callers (SE := N) nc nc mg mg halves 0 removers) d in
  length (now N (s_iter_edges (k := KU64) (BE := N) nc OSP) d) = 3%nat /\
  map answers_of ps = [[Ok tt]; [Ok tt; Ok tt; Ok tt]] /\
  now N (s_iter_vertices (k := KU64) (BE := N) nc) d' = [Ok (u 1, 1)]%N /\
  now N (s_iter_edges (k := KU64) (BE := N) nc POS) d' = [Ok (tr 3 6 4, 34)]%N.
Proof.
  split; [apply nodupb_ok; vm_compute; reflexivity|]. split; [apply removers_independent|]. vm_compute. auto.
Qed.

(** ** C32 is false: remove_edge takes the entries out of the three orders in three storage
    steps after its transaction (/repo/src/sled/remove.rs:72-98).  An edge inserted in between
    stays in one order only, with no call failing. *)
Theorem C32_remove_edge_refuted : exists (cs : list (handle KU64 * list exop)) (schedule : list nat),
  NoDup (session_keys cs) /\ Forall (fun hl => Forall one_call (snd hl)) cs /\
  let (ps, d) := interleave (map (fun i => (i, None)) schedule) (l_callers (SE := N) nc nc mg mg (fun _ _ => ([], [])) 0 cs) db_new in
  map answers_of ps = [[Ok tt]; [Ok tt]] /\
  now N (s_iter_edges (k := KU64) (BE := N) nc SPO) d = [Ok (tr 1 5 2, 33%N)] /\
  now N (s_iter_edges (k := KU64) (BE := N) nc POS) d = [].
Proof.
  exists [(hd1, [ORemoveEdge (tr 1 5 2)]); (hd2, [OInsertEdge (tr 1 5 2) 33%N])], [0; 0; 1; 0; 0]%nat.
  split; [apply nodupb_ok; vm_compute; reflexivity|]. split; [repeat constructor|]. vm_compute. auto.
Qed.
Print Assumptions C32_remove_edge_refuted.

(** remove_node collects the edges before its transaction (/repo/src/sled/remove.rs:14-66).
    What another caller inserts in between is partly removed and partly kept, as in no order of
    the calls. *)
Theorem C32_remove_node_refuted : exists (cs : list (handle KU64 * list exop)) (schedule : list nat),
  NoDup (session_keys cs) /\ Forall (fun hl => Forall one_call (snd hl)) cs /\
  let (ps, d) := interleave (map (fun i => (i, None)) schedule) (l_callers (SE := N) nc nc mg mg (fun _ _ => ([], [])) 0 cs) db_new in
  map answers_of ps = [[Ok tt]; [Ok tt; Ok tt]] /\
  forall s, shuffle (map snd cs) s -> ~ sled_shows N nc nc d (spec_history mg mg s g_empty).
Proof.
  exists [(hd1, [ORemoveNode (u 1)]); (hd2, [OInsertEdge (tr 1 5 2) 33%N; OInsertNode (u 1) 7%N])], [0; 0; 1; 1; 0]%nat.
  split; [apply nodupb_ok; vm_compute; reflexivity|]. split; [repeat constructor|].
  match goal with |- let (_, _) := ?r in _ => remember r as rd eqn:E end.
  assert (map answers_of (fst rd) = [[Ok tt]; [Ok tt; Ok tt]] /\
    now N (s_iter_vertices (k := KU64) (BE := N) nc) (snd rd) = [] /\
    now N (s_iter_edges (k := KU64) (BE := N) nc SPO) (snd rd) = [Ok (tr 1 5 2, 33%N)]) as (H1 & H2 & H3).
  { rewrite E. vm_compute. auto. }
  clear E. destruct rd as [ps d]. cbn [fst snd] in H1, H2, H3.
  split; auto. intros s Hs [Hn He].
  assert (g_node (spec_history mg mg s g_empty) (u 1) = None) as Hv.
  { destruct Hn as (xs & Hx & _ & Hl). rewrite H2 in Hx. destruct xs; [|discriminate].
    destruct (g_node (spec_history mg mg s g_empty) (u 1)) as [p|] eqn:Ep; auto. now apply Hl in Ep. }
  assert (g_edge (spec_history mg mg s g_empty) (tr 1 5 2) = Some 33%N) as Hw.
  { destruct (He SPO) as (xs & Hx & _ & Hl). rewrite H3 in Hx. destruct xs as [|[t p] [|]]; try discriminate.
    injection Hx as <- <-. apply Hl. simpl. auto. }
  assert (forall (P : list exop -> Prop), P [ORemoveNode (u 1); OInsertEdge (tr 1 5 2) 33%N; OInsertNode (u 1) 7%N] ->
    P [OInsertEdge (tr 1 5 2) 33%N; ORemoveNode (u 1); OInsertNode (u 1) 7%N] ->
    P [OInsertEdge (tr 1 5 2) 33%N; OInsertNode (u 1) 7%N; ORemoveNode (u 1)] -> P s) as Hall.
  { clear -Hs. simpl in Hs. intros P P1 P2 P3.
    generalize dependent (ORemoveNode (NP := N) (EP := N) (E := N) (u 1)). intros a Hs.
    generalize dependent (OInsertEdge (NP := N) (E := N) (tr 1 5 2) 33%N). intros b Hs.
    generalize dependent (OInsertNode (EP := N) (E := N) (u 1) 7%N). intros c Hs P1 P2 P3.
    repeat match goal with
    | H : nth_error _ ?i = Some _ |- _ => destruct i as [|[|i]]; simpl in H; try discriminate H; try (now destruct i);
        injection H as ? ?; subst; simpl in *
    | H : Forall _ (_ :: _) |- _ => inversion H; clear H; subst
    | H : _ :: _ = [] |- _ => discriminate H
    | H : shuffle _ _ |- _ => inversion H; clear H; subst
    end; auto. }
  revert Hv Hw. apply Hall; vm_compute; discriminate.
Qed.
Print Assumptions C32_remove_node_refuted.
