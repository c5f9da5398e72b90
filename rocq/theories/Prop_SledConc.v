(** C31: several handles on one sled database at the same time. *)
From Coq Require Import NArith List.
From Verif Require Import Bytes OMap Core IdType Store Mem Spec History Prog Sled SledHistory SledSched
  SledConc Ex ExSled.
Import ListNotations.

(** ** C31.  Any number of callers, each with its own handle, each making any sequence of
    insert_node, insert_edge, merge_node and merge_edge; the storage steps of all of them in any
    order, any of them failing, on any database (whatever its tables contain).  At every moment
    the tables are those of some calls made one after the other, in an order that respects each
    caller's; a caller that is through has got the answers it gets in that order.  A storage step
    fails in that order only if the schedule made a step of that caller fail so. *)
Theorem C31_serial : forall k NP EP SE BE E (cn : codec BE NP) (ce : codec BE EP) mn me
    (cs : list (handle k * list (op k NP EP E))) (schedule : list (nat * option SE)) d,
  Forall (fun hl => Forall transactional (snd hl)) cs ->
  let (ps, d') := interleave schedule (callers cn ce mn me cs) d in
  exists order ts,
    one_at_a_time cn ce mn me order (map start cs) d = (ts, d') /\
    (forall i r, nth_error ps i = Some (Ret r) -> exists t,
       nth_error ts i = Some t /\ th_todo t = [] /\ r = (th_done t, th_handle t)) /\
    (forall i fs e, In (i, fs) order -> In (Some e) fs -> In (i, Some e) schedule).
Proof. exact @concurrent_serial. Qed.
Print Assumptions C31_serial.

(** When all are through, a new database shows, in all three orders, the graph of the calls that
    reported no failure, in some order that respects each caller's: no merge is lost. *)
Theorem C31_shows : forall k NP EP SE BE E (cn : codec BE NP) (ce : codec BE EP) mn me
    (cs : list (handle k * list (op k NP EP E))) (schedule : list (nat * option SE)),
  codec_ok cn -> codec_ok ce -> NoDup (session_keys cs) ->
  Forall (fun hl => Forall transactional (snd hl)) cs ->
  let (ps, d) := interleave schedule (callers cn ce mn me cs) db_new in
  (forall p, In p ps -> exists r, p = Ret r) ->
  exists s, shuffle (logs cs ps) s /\
    Forall (fun x => succeeded (snd x) = true -> snd x = expected (fst x)) s /\
    sled_shows SE cn ce d (spec_history mn me (map fst (filter (fun x => succeeded (snd x)) s)) g_empty).
Proof. exact @concurrent_shows. Qed.
Print Assumptions C31_shows.

(** Two callers merge the same vertex and the same edge by turns; one step of the second fails. *)
Definition two : list (handle KU64 * list exop) :=
  [ (hd1, [OMergeNode (u 1) 5; OMergeEdge (tr 1 2 1) 40; OMergeEdge (tr 1 2 1) 3; OInsertNode (u 2) 6]%N);
    (hd2, [OMergeNode (u 1) 70; OMergeEdge (tr 1 2 1) 90; OMergeNode (u 1) 800; OInsertEdge (tr 2 2 1) 9]%N) ].
Definition turns : list (nat * option N) :=
  [(0, None); (1, None); (0, None); (1, None); (1, Some 4%N); (0, None); (1, None); (0, None)]%nat.

Example C31_case :
  NoDup (session_keys two) /\
  let (ps, d) := interleave turns (callers (SE := N) nc nc mg mg two) db_new in
  map answers_of ps = [[Ok tt; Ok tt; Ok tt; Ok tt]; [Ok tt; Ok tt; Err (LeftE (SledError 4%N)); Ok tt]] /\
  now N (s_iter_vertices (k := KU64) (BE := N) nc) d = [Ok (u 1, 120); Ok (u 2, 6)]%N /\
  now N (s_iter_edges (k := KU64) (BE := N) nc POS) d = [Ok (tr 1 2 1, 4903); Ok (tr 2 2 1, 9)]%N.
Proof. split; [apply nodupb_ok; vm_compute; reflexivity|]. vm_compute. auto. Qed.
