(** C35: property records of the sled-backed store. *)
From Coq Require Import NArith List.
From Verif Require Import Bytes OMap Core IdType Store Mem Spec History Prog Sled SledHistory
  SledLeak SledLeakAny Ex ExSled.
Import ListNotations.

(** ** C35, sled store.  insert_edge does not remove the record of an edge it replaces
    (insert.rs:41-56), so that two calls leave two records for one edge. *)
Theorem C35_sled_refuted : exists (t : triple (Id KU64)) e,
  let d := db_of (sh [OInsertEdge t e; OInsertEdge t e] hd1) [] db_new in
  length (t_edge d) = 2%nat /\ now N (s_iter_edges (k := KU64) (BE := N) nc SPO) d = [Ok (t, e)].
Proof. exists (tr 1 2 3), 7%N. vm_compute. auto. Qed.
Print Assumptions C35_sled_refuted.

(** Nothing else leaks: the records are those of the edges, and one for each call of insert_edge
    that met an edge.  Missing from C35: those should not be there. *)
Theorem C35_sled_partial : forall k NP EP SE BE E (cn : codec BE NP) (ce : codec BE EP) mn me
    (h : handle k) (l : list (op k NP EP E)) (faults : list (option SE)) o,
  codec_ok cn -> codec_ok ce -> NoDup (history_keys h l) ->
  (forall r, In r (fst (ret_of (sled_history cn ce mn me l h) faults db_new)) -> ~ failed r) ->
  let d := db_of (sled_history cn ce mn me l h) faults db_new in
  length (t_edge d) = (length (now SE (s_iter_edges (k := k) ce o) d) + replacements mn me l g_empty)%nat.
Proof. exact @history_leak. Qed.
Print Assumptions C35_sled_partial.

Example C35_sled_case :
  NoDup (history_keys hd1 s_ops) /\
  length (t_edge ex_db) = 6%nat /\
  length (now N (s_iter_edges (k := KU64) (BE := N) nc POS) ex_db) = 5%nat /\
  replacements mg mg s_ops g_empty = 1%nat /\
  replacements (E := N) mg mg
    [OInsertEdge (tr 1 2 3) 4; OMergeEdge (tr 1 2 3) 5; OInsertEdge (tr 1 2 3) 6; ORemoveNode (u 3);
     OInsertEdge (tr 1 2 3) 7; OInsertEdge (tr 1 2 3) 8]%N g_empty = 2%nat.
Proof. split; [exact s_ops_keys|]. vm_compute. auto. Qed.

(** Whatever fails and whenever the processes that use the database die: every edge of the SPO order
    has its record, and beside these at most one is left for every call of insert_edge and of extend. *)
Theorem C35_sled_lives_partial : forall k NP EP SE BE E (cn : codec BE NP) (ce : codec BE EP) mn me
    (ls : list (life (k := k) (NP := NP) (EP := EP) (SE := SE) (E := E))),
  codec_ok cn -> codec_ok ce -> NoDup (life_keys ls) ->
  let d := lives cn ce mn me ls db_new in
  let n := length (now SE (s_iter_edges (k := k) ce SPO) d) in
  (n <= length (t_edge d) <= n + sum (map (fun o => match o with OInsertEdge _ _ | OExtend _ => 1 | _ => 0 end)
                                       (flat_map lf_ops ls)))%nat.
Proof. exact @lives_leak. Qed.
Print Assumptions C35_sled_lives_partial.

(** When the calls return, an extend has left a record only if it reports a failure of the storage or
    of the serialiser. *)
Theorem C35_sled_failures_partial : forall k NP EP SE BE E (cn : codec BE NP) (ce : codec BE EP) mn me
    (h : handle k) (l : list (op k NP EP E)) (faults : list (option SE)),
  codec_ok cn -> codec_ok ce -> NoDup (history_keys h l) ->
  let rs := fst (ret_of (sled_history cn ce mn me l h) faults db_new) in
  let d := db_of (sled_history cn ce mn me l h) faults db_new in
  let n := length (now SE (s_iter_edges (k := k) ce SPO) d) in
  (n <= length (t_edge d) <= n + sum (map (fun c => match c with
                                                   | (OInsertEdge _ _, _) | (OExtend _, Err (LeftE _)) => 1
                                                   | _ => 0 end) (combine l rs)))%nat.
Proof. exact @history_leak_any. Qed.
Print Assumptions C35_sled_failures_partial.

(** Two records are left: by the second insertion of the edge, and by the extend that dies after it has
    written the SPO order. *)
Example C35_sled_lives_case :
  let ls := [Life (SE := N) hd1 [OInsertEdge (tr 1 2 3) 4; OInsertEdge (tr 1 2 3) 5;
                                 OExtend (Source [] [Ok (tr 1 2 3, 6)] : source KU64 N N N)]%N [] 5%nat;
             Life (SE := N) hd2 [ORemoveNode (u 3); OMergeEdge (tr 1 2 3) 8; OExtend ex_source]%N [Some 3%N] 30%nat] in
  let d := lives nc nc mg mg ls db_new in
  NoDup (life_keys ls) /\ length (t_edge d) = 4%nat /\
  length (now N (s_iter_edges (k := KU64) (BE := N) nc SPO) d) = 2%nat.
Proof. split; [apply nodupb_ok; vm_compute; reflexivity|]. vm_compute. auto. Qed.

Example C35_sled_failures_case :
  let l := [OInsertEdge (tr 1 2 3) 4; OExtend (Source [] [Ok (tr 1 2 3, 6)]); OExtend (Source [] [Ok (tr 1 2 3, 7)])]%N : list exop in
  let p := sh l hd1 in let f := [None; None; None; None; None; Some 8%N] in
  fst (ret_of p f db_new) = [Ok tt; Err (LeftE (SledError 8%N)); Ok tt] /\
  length (t_edge (db_of p f db_new)) = 2%nat /\
  length (now N (s_iter_edges (k := KU64) (BE := N) nc SPO) (db_of p f db_new)) = 1%nat.
Proof. vm_compute. auto. Qed.
