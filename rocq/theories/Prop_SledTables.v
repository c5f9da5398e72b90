(** C28, C34: orphaned edges, and tables of any contents. *)
From Coq.Init Require Import Byte.
From Coq Require Import NArith List.
From Verif Require Import Bytes BytesFacts OMap OMapFacts Core IdType Store Mem Spec History Prog Sled
  SledHistory SledRun SledMain SledTables SledAny Ex ExSled.
Import ListNotations.

(** ** C28 *)

(** Every edge is listed; one without both endpoints as MissingPropertyData. *)
Theorem C28_partial : forall k NP EP SE BE E (cn : codec BE NP) (ce : codec BE EP) mn me
    (h : handle k) (l : list (op k NP EP E)) (faults : list (option SE)) o,
  codec_ok cn -> codec_ok ce -> NoDup (history_keys h l) ->
  let p := sled_history cn ce mn me l h in
  (forall r, In r (fst (ret_of p faults db_new)) -> ~ failed r) ->
  let g := spec_history mn me l g_empty in
  exists es, now SE (s_iter_edges ce o) (db_of p faults db_new) = map Ok es /\
    now SE (s_iter_edges_with_props cn ce o) (db_of p faults db_new) =
    map (fun te => match g_node g (sub (fst te)), g_node g (obj (fst te)) with
                   | Some s, Some b => Ok (PropsTriple (sub (fst te), s) (pred (fst te), snd te) (obj (fst te), b))
                   | _, _ => Err MissingPropertyData
                   end) es.
Proof. exact @history_props. Qed.
Print Assumptions C28_partial.

(** After the same calls, what remains when the errors are left out is what the memory backend
    lists, and no other error occurs. *)
Theorem C28_backends_partial : forall k NP EP SE BE E (cn : codec BE NP) (ce : codec BE EP) mn me
    (gm : gen k) (h : handle k) (l : list (op k NP EP E)) (faults : list (option SE)) o,
  codec_ok cn -> codec_ok ce -> NoDup (history_keys h l) ->
  let p := sled_history cn ce mn me l h in
  (forall r, In r (fst (ret_of p faults db_new)) -> ~ failed r) ->
  drawn_distinct (id_generator (mem_history mn me l (mem_new gm))) ->
  let listed := now SE (s_iter_edges_with_props (k := k) cn ce o) (db_of p faults db_new) in
  iter_edges_with_props o (mem_history mn me l (mem_new gm)) = map Ok (ok_items listed) /\
  forall e, In (Err e) listed -> e = MissingPropertyData.
Proof. exact @backends_props. Qed.
Print Assumptions C28_backends_partial.

(** False as stated. *)
Theorem C28_refuted : exists (t : triple (Id KU64)) e,
  let d := db_of (sh [OInsertEdge t e] hd1) [] db_new in
  now N (s_iter_edges_with_props (k := KU64) (BE := N) nc nc SPO) d = [Err MissingPropertyData] /\
  iter_edges_with_props SPO (insert_edge t e (mem_new (counter 0) : mem KU64 N N)) = [].
Proof. exists (tr 1 2 3), 7%N. vm_compute. auto. Qed.
Print Assumptions C28_refuted.

Example C28_case :
  let l := [OInsertNode (u 1) 10; OInsertNode (u 2) 20; OInsertEdge (tr 1 5 2) 152;
            OInsertEdge (tr 1 6 3) 163; OInsertEdge (tr 4 7 2) 472]%N in
  now N (s_iter_edges_with_props (k := KU64) (BE := N) nc nc SPO) (db_of (sh l hd1) [] db_new) =
    [Ok (PropsTriple (u 1, 10) (u 5, 152) (u 2, 20)); Err MissingPropertyData; Err MissingPropertyData]%N.
Proof. vm_compute. reflexivity. Qed.

(** ** C34.  Any contents whatsoever, any storage failures; the database is not changed. *)

(** Every entry of the table gives one item; well-formed ones are decoded, malformed ones give
    the error that says what is wrong with them. *)
Theorem C34_vertices : forall k NP SE BE (cn : codec BE NP) (faults : list (option SE)) d,
  let p := s_iter_vertices (k := k) cn in
  db_of p faults d = d /\
  Forall2 (fun (kv : bytes * bytes) (r : result (sled_error SE BE) _) =>
    match r with
    | Ok (i, v) => fst kv = to_be_bytes i /\ de cn (snd kv) = Ok v
    | Err KeySizeError => length (fst kv) <> width k
    | Err (SerializationError b) => length (fst kv) = width k /\ de cn (snd kv) = Err b
    | Err (SledError x) => In (Some x) faults
    | Err MissingPropertyData => False
    end) (t_node d) (ret_of p faults d).
Proof. exact @vertices_read. Qed.
Print Assumptions C34_vertices.

Theorem C34_edges : forall k EP SE BE (ce : codec BE EP) (faults : list (option SE)) d o,
  let p := s_iter_edges (k := k) ce o in
  db_of p faults d = d /\
  Forall2 (fun (kv : bytes * bytes) (r : result (sled_error SE BE) _) =>
    match r with
    | Ok (t, e) => fst kv = encode o t /\ exists b, bget (snd kv) (t_edge d) = Some b /\ de ce b = Ok e
    | Err KeySizeError => length (fst kv) <> (3 * width k)%nat
    | Err (SerializationError x) =>
        length (fst kv) = (3 * width k)%nat /\ exists b, bget (snd kv) (t_edge d) = Some b /\ de ce b = Err x
    | Err MissingPropertyData => length (fst kv) = (3 * width k)%nat /\ bget (snd kv) (t_edge d) = None
    | Err (SledError x) => In (Some x) faults
    end) (order_table o d) (ret_of p faults d).
Proof. exact @edges_read. Qed.
Print Assumptions C34_edges.

Theorem C34_edges_with_props : forall k NP EP SE BE (cn : codec BE NP) (ce : codec BE EP)
    (faults : list (option SE)) d o,
  let p := s_iter_edges_with_props (k := k) cn ce o in
  db_of p faults d = d /\ Forall2 (props_reads cn ce faults d o) (order_table o d) (ret_of p faults d).
Proof. exact @props_read. Qed.
Print Assumptions C34_edges_with_props.

(** vertices() gives all identifiers, or KeySizeError if some key has the wrong length. *)
Theorem C34_vertices_set : forall k SE BE d,
  match now SE (s_vertices (k := k) (BE := BE)) d with
  | Ok ids => map fst (t_node d) = map to_be_bytes ids
  | Err e => e = KeySizeError /\ exists kv, In kv (t_node d) /\ length (fst kv) <> width k
  end.
Proof. exact @vertices_answer. Qed.
Print Assumptions C34_vertices_set.

(** A query fails exactly if something it visits is malformed (or the storage fails); otherwise
    it gives the selected part of what can be read. *)
Theorem C34_run : forall k NP EP SE BE (cn : codec BE NP) (ce : codec BE EP) (gn : gen k) q
    (faults : list (option SE)) d,
  sorted_tables d ->
  let p := s_run cn ce gn q in
  db_of p faults d = d /\
  match ret_of p faults d with
  | Ok m => (forall e : sled_error SE BE, ~ unreadable cn ce q d e) /\
      exists g g', readable cn ce (order_of q) d g /\ answers q g g' /\
        (drawn_distinct (id_generator m) -> shows m g')
  | Err (SledError x) => In (Some x) faults
  | Err e => unreadable cn ce q d e
  end.
Proof. exact @run_any. Qed.
Print Assumptions C34_run.

(** A node table with a key of 2 bytes and an undecodable value; an index with a short key. *)
Definition broken : db :=
  let k8 i := to_be_bytes (u i) in
  let t3 a b c := @encode_spo KU64 (tr a b c) in
  Db [(k8 1%N, [x02]); (k8 2%N, [x09]); ([x00; x01], [x02])]
     [(k8 5%N, [x02]); (k8 6%N, [x09])]
     [(t3 1 1 1, k8 5); (k8 1 ++ [x01], k8 5); (t3 2 1 1, k8 6); (t3 3 1 1, k8 5); (t3 4 1 1, k8 9)]%N [] [].

Example C34_case :
  let q l := match now N (s_run (k := KU64) (BE := N) nc nc (counter 0) (QS (map u l))) broken with
             | Ok m => Ok (iter_edges SPO m) | Err e => Err e end in
  now N (s_iter_vertices (k := KU64) (BE := N) nc) broken =
    [Ok (u 1, 0); Err (SerializationError 1); Err KeySizeError]%N /\
  now N (s_iter_edges (k := KU64) (BE := N) nc SPO) broken =
    [Ok (tr 1 1 1, 0); Err KeySizeError; Err (SerializationError 1); Ok (tr 3 1 1, 0);
     Err MissingPropertyData]%N /\
  now N (s_vertices (k := KU64) (BE := N)) broken = Err KeySizeError /\
  q [1]%N = Err KeySizeError /\ q [3; 4]%N = Ok [Ok (tr 3 1 1, 0)]%N /\
  q [3; 2; 1]%N = Err (SerializationError 1%N).
Proof. vm_compute. repeat split. Qed.

Example C34_case_sorted : sorted_tables broken.
Proof.
  split; [|intros []]; unfold om_sorted, order_table, broken; cbn [t_node t_spo t_pos t_osp];
    repeat first [apply Sorted.SSorted_nil | apply Sorted.SSorted_cons | apply Forall_nil | apply Forall_cons];
    vm_compute; reflexivity.
Qed.
