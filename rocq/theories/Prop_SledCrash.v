(** C29, C30, C33: crashes and failures of the sled-backed store. *)
From Coq Require Import NArith List.
From Verif Require Import Bytes OMap Core IdType Store Mem Spec History Prog Sled SledHistory
  SledRun SledMain SledCrash Ex ExSled.
Import ListNotations.

(** ** C29.  On any contents, whatever storage calls fail, a process that dies after any number
    of storage steps of one call leaves the tables as before or as after the call. *)
Theorem C29_atomic : forall k NP EP SE BE E (cn : codec BE NP) (ce : codec BE EP) mn me
    (o : op k NP EP E) h,
  match o with OExtend _ | OMerge _ => False | _ => True end ->
  forall n (faults : list (option SE)) d,
  let p := sled_apply cn ce mn me o h in
  crash n p faults d = d \/ crash n p faults d = db_of p faults d.
Proof. exact @one_call_atomic. Qed.
Print Assumptions C29_atomic.

(** A process that makes single calls and dies leaves a database that shows the graph after
    some first part of the calls. *)
Theorem C29_history : forall k NP EP SE BE E (cn : codec BE NP) (ce : codec BE EP) mn me
    (h : handle k) (l : list (op k NP EP E)) n,
  codec_ok cn -> codec_ok ce -> codec_total cn -> codec_total ce ->
  NoDup (history_keys h l) -> Forall one_call l ->
  exists c, sled_shows SE cn ce (crash n (sled_history (SE := SE) cn ce mn me l h) [] db_new)
    (spec_history mn me (firstn c l) g_empty).
Proof. exact @crash_single. Qed.
Print Assumptions C29_history.

(** Any number of processes, one after the other, with storage failures, failing serialisation
    and crashes anywhere (extend excepted, unless it ran to its end): the readers always list a
    graph reached by performing the calls, each completely or, after a failure or a crash, a first
    part of its steps; the three orders agree. *)
Theorem C29_lives : forall k NP EP SE BE E (cn : codec BE NP) (ce : codec BE EP) mn me
    (ls : list (life (k := k) (NP := NP) (EP := EP) (SE := SE) (E := E))),
  codec_ok cn -> codec_ok ce -> NoDup (life_keys ls) ->
  extends_done cn ce mn me ls db_new ->
  exists g, moments (SE := SE) (BE := BE) mn me (map lf_ops ls) g_empty g /\
    sled_shows SE cn ce (lives cn ce mn me ls db_new) g.
Proof. exact @lives_show. Qed.
Print Assumptions C29_lives.

(** Removing node 2 of the example database takes 5 storage steps: two entries starting there,
    two ending there, and the transaction.  After four nothing has happened yet. *)
Example C29_case :
  let p := sled_apply (SE := N) (E := N) nc nc mg mg (ORemoveNode (u 2)) hd2 in
  let show d := now N (s_iter_edges (k := KU64) (BE := N) nc OSP) d in
  crash 4 p [] ex_db = ex_db /\ crash 5 p [] ex_db = db_of p [] ex_db /\
  length (show ex_db) = 5%nat /\
  show (crash 5 p [] ex_db) = [Ok (tr 1 5 3, 153); Ok (tr 1 (2 ^ 64 - 1) (2 ^ 64 - 1), 9)]%N.
Proof. vm_compute. auto. Qed.

(** The second process extends by a source, and comes to its end. *)
Example C29_case_lives :
  let h := Handle (counter 1000) (ulids 2000) : handle KU64 in
  let ls := [Life hd1 ex_ops [None; Some 5%N] 7; Life h [ORemoveEdge (tr 1 5 2); OExtend ex_source] [] 50;
             Life hd2 [OMerge ex_source; ORemoveEdge (tr 1 5 2)] [None; None; None; Some 6%N] 9] in
  NoDup (life_keys ls) /\ extends_done nc nc mg mg ls db_new /\
  now N (s_iter_edges (k := KU64) (BE := N) nc SPO) (lives nc nc mg mg ls db_new) =
    [Ok (tr 1 5 2, 363); Ok (tr 1 5 3, 153); Ok (tr 1 (2 ^ 64 - 1) (2 ^ 64 - 1), 9); Ok (tr 2 5 2, 252)]%N.
Proof.
  split; [apply nodupb_ok; vm_compute; reflexivity|]. split; [|vm_compute; reflexivity].
  split; [left; repeat constructor|]. split; [right|].
  - split; [vm_compute; reflexivity|].
    intros r H. vm_compute in H. repeat (destruct H as [<-|H]; [intros []|]). destruct H.
  - split; [left; repeat constructor|exact Logic.I].
Qed.

(** ** C30 *)

(** True of merge, and of everything but extend: a crash at any moment leaves the graph after
    a first part of the elementary steps of the calls. *)
Theorem C30_merge_partial : forall k NP EP SE BE E (cn : codec BE NP) (ce : codec BE EP) mn me
    (h : handle k) (l : list (op k NP EP E)) n,
  codec_ok cn -> codec_ok ce -> codec_total cn -> codec_total ce ->
  NoDup (history_keys h l) ->
  Forall (fun o => match o with OExtend _ => False | _ => True end) l ->
  exists c, sled_shows SE cn ce (crash n (sled_history (SE := SE) cn ce mn me l h) [] db_new)
    (run_steps (firstn c (flat_map (op_steps mn me) l)) g_empty).
Proof. exact @crash_prefix. Qed.
Print Assumptions C30_merge_partial.

(** With extend as well: the vertices are those after a first part of the steps, and each order
    lists the edges after that part or after one more step, without errors. *)
Theorem C30_extend_partial : forall k NP EP SE BE E (cn : codec BE NP) (ce : codec BE EP) mn me
    (h : handle k) (l : list (op k NP EP E)) n,
  codec_ok cn -> codec_ok ce -> codec_total cn -> codec_total ce -> NoDup (history_keys h l) ->
  let d := crash n (sled_history (SE := SE) cn ce mn me l h) [] db_new in
  let after c := run_steps (firstn c (flat_map (op_steps mn me) l)) g_empty in
  exists c, lists_nodes (now SE (s_iter_vertices cn) d) (g_node (after c)) /\
    forall o, exists c', (c' = c \/ c' = S c) /\
      lists_edges o (now SE (s_iter_edges ce o) d) (g_edge (after c')).
Proof. exact @crash_orders. Qed.
Print Assumptions C30_extend_partial.

(** merge of a source of two nodes and one edge takes three storage steps; extend of it two for
    the nodes, then one for the record and one for each order. *)
Example C30_case :
  let vs n o := length (now N (s_iter_vertices (k := KU64) (BE := N) nc) (crash n (sh [o] hd1) [] db_new)) in
  let es n o x := length (now N (s_iter_edges (k := KU64) (BE := N) nc x) (crash n (sh [o] hd1) [] db_new)) in
  map (fun n => (vs n (OMerge ex_source), es n (OMerge ex_source) SPO)) (seq 0 4) =
    [(0, 0); (1, 0); (2, 0); (2, 1)]%nat /\
  map (fun n => (vs n (OExtend ex_source), map (es n (OExtend ex_source)) [SPO; POS; OSP])) (seq 2 5) =
    [(2, [0; 0; 0]); (2, [0; 0; 0]); (2, [1; 0; 0]); (2, [1; 1; 0]); (2, [1; 1; 1])]%nat.
Proof. vm_compute. auto. Qed.

(** False as stated: extend writes the three orders in separate steps. *)
Theorem C30_refuted : exists (s : source KU64 N N N) n,
  let d := crash n (sled_history (SE := N) nc nc mg mg [OExtend s] hd1) [] db_new in
  now N (s_iter_edges (k := KU64) (BE := N) nc SPO) d = [Ok (tr 1 5 2, 33%N)] /\
  now N (s_iter_edges (k := KU64) (BE := N) nc POS) d = [].
Proof.
  exists (Source [] [Ok (tr 1 5 2, 33%N)]), 2%nat. vm_compute. auto.
Qed.
Print Assumptions C30_refuted.

(** ** C33 *)

(** True of all but remove_edge.  On any contents: either a storage call failed, it was the
    last one made, its error is reported and nothing has changed; or no storage call failed and
    the call does what it does with a working storage ([rest] are the failures left for later
    calls).  And whatever failure is reported, nothing has changed. *)
Theorem C33_single_partial : forall k NP EP SE BE E (cn : codec BE NP) (ce : codec BE EP) mn me
    (o : op k NP EP E) (h : handle k) (faults : list (option SE)) d,
  match o with
  | OInsertNode _ _ | OInsertEdge _ _ | ORemoveNode _ | OMergeNode _ _ | OMergeEdge _ _ => True
  | _ => False
  end ->
  let p := sled_apply cn ce mn me o h in
  let '(rh, d', rest) := exec p faults d in
  ((exists n x, faults = repeat None n ++ Some x :: rest /\ fst rh = Err (LeftE (SledError x)) /\ d' = d) \/
   (exists n, faults = repeat None n ++ rest /\ exec p [] d = (rh, d', []))) /\
  (failed (fst rh) -> d' = d).
Proof. exact @single_reports. Qed.
Print Assumptions C33_single_partial.

(** remove_edge: a failure of the first storage call changes nothing; a failure of a later one
    is reported although the edge has been removed. *)
Theorem C33_remove_edge_partial : forall k NP EP SE BE E (cn : codec BE NP) (ce : codec BE EP) mn me
    t (h : handle k) (faults : list (option SE)) d,
  let p := sled_apply (E := E) cn ce mn me (ORemoveEdge t) h in
  let '(rh, d', rest) := exec p faults d in
  (exists n x, faults = repeat None n ++ Some x :: rest /\ fst rh = Err (LeftE (SledError x)) /\
     match n with 0%nat => d' = d | S _ => exec p [] d = (Ok tt, h, d', []) end) \/
  (exists n, faults = repeat None n ++ rest /\ fst rh = Ok tt /\ exec p [] d = (rh, d', [])).
Proof. exact @remove_edge_outcome. Qed.
Print Assumptions C33_remove_edge_partial.

(** The serialiser: when it is used and fails, its error is reported; otherwise the call succeeds. *)
Theorem C33_serialiser : forall k NP EP SE BE E (cn : codec BE NP) (ce : codec BE EP) mn me
    (o : op k NP EP E) (h : handle k) d,
  match o with OInsertNode _ _ | OInsertEdge _ _ | OMergeNode _ _ | OMergeEdge _ _ => True | _ => False end ->
  let r := fst (ret_of (sled_apply (SE := SE) cn ce mn me o h) [] d) in
  (forall b, serialiser_fails cn ce mn me o d b -> r = Err (LeftE (SerializationError b))) /\
  (r = Ok tt \/ exists b, serialiser_fails cn ce mn me o d b /\ r = Err (LeftE (SerializationError b))).
Proof. exact @serialiser_reports. Qed.
Print Assumptions C33_serialiser.

Example C33_case :
  let p := sled_apply (SE := N) (E := N) small small mg mg (OMergeEdge (tr 2 5 2) 999%N) hd2 in
  fst (ret_of p [] ex_db) = Err (LeftE (SerializationError 26239%N)) /\ db_of p [] ex_db = ex_db /\
  let q := sled_apply (SE := N) (E := N) small small mg mg (ORemoveNode (u 2)) hd2 in
  fst (ret_of q [None; None; Some 8%N; None] ex_db) = Err (LeftE (SledError 8%N)) /\
  db_of q [None; None; Some 8%N; None] ex_db = ex_db.
Proof. vm_compute. auto. Qed.

(** False as stated. *)
Theorem C33_refuted : exists (t : triple (Id KU64)) (d : db) (faults : list (option N)) x,
  let p := sled_apply (E := N) (BE := N) nc nc mg mg (ORemoveEdge t) hd1 in
  fst (ret_of p faults d) = Err (LeftE (SledError x)) /\
  now N (s_iter_edges (k := KU64) (BE := N) nc SPO) d = [Ok (t, 7%N)] /\
  now N (s_iter_edges (k := KU64) (BE := N) nc SPO) (db_of p faults d) = [].
Proof.
  exists (tr 1 2 3), (db_of (sh [OInsertEdge (tr 1 2 3) 7%N] hd1) [] db_new), [None; Some 5%N], 5%N.
  vm_compute. auto.
Qed.
Print Assumptions C33_refuted.
