(** C47: where sled's leaves end makes no difference to a caller that is alone. *)
From Coq Require Import NArith List.
From Verif Require Import Bytes OMap OMapFacts Core IdType Store Mem Spec History Prog Sled SledHistory SledLeaf SledLeafFacts Ex ExSled.
Import ListNotations.

(** ** C47.  On any database whose trees are sorted by key, with any storage failures: whatever the
    cuts, every sequence of calls gives the same answers, leaves the same handle and the same tables
    as with scans in one piece, also when the process dies after any number of storage operations. *)
Theorem C47_history : forall k NP EP SE BE E (cn : codec BE NP) (ce : codec BE EP) mn me
    (cuts : nat -> cutting) (l : list (op k NP EP E)) (h : handle k) (d : db) (faults : list (option SE)),
  (forall x, om_sorted bytes_cmp (tbl x d)) ->
  exec (l_history (BE := BE) cn ce mn me cuts 0 l h) faults d = exec (sled_history cn ce mn me l h) faults d /\
  forall n, crash n (l_history (BE := BE) cn ce mn me cuts 0 l h) faults d = crash n (sled_history cn ce mn me l h) faults d.
Proof. exact @leaf_history. Qed.
Print Assumptions C47_history.

(** The same for the iterations and the queries. *)
Theorem C47_readers : forall k NP EP SE BE (cn : codec BE NP) (ce : codec BE EP) (d : db) (faults : list (option SE)),
  (forall x, om_sorted bytes_cmp (tbl x d)) ->
  (forall cuts, exec (l_vertices (k := k) (BE := BE) cuts) faults d = exec s_vertices faults d) /\
  (forall cuts, exec (l_iter_vertices (k := k) cn cuts) faults d = exec (s_iter_vertices cn) faults d) /\
  (forall cuts o, exec (l_iter_edges (k := k) ce cuts o) faults d = exec (s_iter_edges ce o) faults d) /\
  (forall cuts o, exec (l_iter_edges_with_props (k := k) cn ce cuts o) faults d = exec (s_iter_edges_with_props cn ce o) faults d) /\
  (forall cuts g q, exec (l_run (k := k) cn ce cuts g q) faults d = exec (s_run cn ce g q) faults d).
Proof. exact @leaf_readers. Qed.
Print Assumptions C47_readers.

(** A vertex with edges on both sides of the cuts, the third scanned entry failing at first. *)
Definition star : list exop :=
  [ OInsertNode (u 1) 1; OInsertEdge (tr 1 5 2) 12; OInsertEdge (tr 1 5 3) 13; OInsertEdge (tr 1 6 4) 14; OInsertEdge (tr 4 6 1) 41;
    ORemoveNode (u 1); ORemoveNode (u 1) ]%N.
Definition star_cuts (j : nat) : cutting :=
  ([encode_spo (k := KU64) (tr 1 5 3); encode_spo (k := KU64) (tr 1 6 0)], [encode_osp (k := KU64) (tr 4 6 1)]).
Definition star_faults : list (option N) := List.repeat None 7 ++ [Some 77%N].
Example C47_case :
  let p := exec (l_history (BE := N) nc nc mg mg star_cuts 0 star hd1) star_faults db_new in
  fst (fst (fst p)) = fst (fst (fst (exec (sled_history nc nc mg mg star hd1) star_faults db_new))) /\
  nth_error (fst (fst (fst p))) 5 = Some (Err (LeftE (SledError 77%N))) /\
  nth_error (fst (fst (fst p))) 6 = Some (Ok tt) /\
  now N (s_iter_edges (k := KU64) (BE := N) nc SPO) (snd (fst p)) = [].
Proof. vm_compute. auto. Qed.
