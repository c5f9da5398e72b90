(** C21, C26, C27, C36: the sled-backed store under whole histories. *)
From Coq Require Import NArith List.
From Verif Require Import Bytes OMap Core IdType Store Mem Spec History Prog Sled SledHistory
  SledMain Ex ExSled.
Import ListNotations.

(** ** C21, sled store.  The programs behave alike on any contents and whatever storage calls fail. *)
Theorem C21_sled : forall k NP EP SE BE (cn : codec BE NP) (ce : codec BE EP) o,
  (forall (faults : list (option SE)) d,
     exec (s_into_iter_nodes (k := k) cn ce o) faults d = exec (s_iter_nodes cn ce o) faults d) /\
  (forall (faults : list (option SE)) d,
     exec (s_into_iter_vertices (k := k) cn) faults d = exec (s_iter_vertices cn) faults d) /\
  (forall (faults : list (option SE)) d,
     exec (s_into_iter_edges (k := k) ce o) faults d = exec (s_iter_edges ce o) faults d) /\
  (forall (faults : list (option SE)) d,
     exec (s_into_iter_edges_with_props (k := k) cn ce o) faults d = exec (s_iter_edges_with_props cn ce o) faults d).
Proof. exact @into_iter_sled. Qed.
Print Assumptions C21_sled.

(** iter_nodes pairs the two iterators. *)
Theorem C21_sled_nodes : forall k NP EP SE BE (cn : codec BE NP) (ce : codec BE EP) o d,
  now SE (s_iter_nodes (k := k) cn ce o) d = (now SE (s_iter_vertices cn) d, now SE (s_iter_edges ce o) d).
Proof. exact @iter_nodes_sled. Qed.
Print Assumptions C21_sled_nodes.

(** vertices() lists the identifiers of iter_vertices. *)
Theorem C21_sled_vertices : forall k NP SE BE (cn : codec BE NP) d ns,
  now SE (s_iter_vertices (k := k) cn) d = map Ok ns -> now SE (s_vertices (BE := BE)) d = Ok (map fst ns).
Proof. exact @vertices_sled. Qed.
Print Assumptions C21_sled_vertices.

Example C21_sled_case :
  now N (s_into_iter_edges (k := KU64) nc OSP) ex_db = now N (s_iter_edges nc OSP) ex_db /\
  length (now N (s_iter_edges (k := KU64) nc OSP) ex_db) = 5%nat /\
  now N (s_vertices (k := KU64) (BE := N)) ex_db = Ok [u 1; u 2; u 9].
Proof. vm_compute. auto. Qed.

(** ** C26.  If no call reported a failure of the storage or of the serialiser, every call
    answered what it should and the readers list the graph obtained on two plain maps. *)
Theorem C26_history : forall k NP EP SE BE E (cn : codec BE NP) (ce : codec BE EP) mn me
    (h : handle k) (l : list (op k NP EP E)) (faults : list (option SE)),
  codec_ok cn -> codec_ok ce -> NoDup (history_keys h l) ->
  let p := sled_history cn ce mn me l h in
  (forall r, In r (fst (ret_of p faults db_new)) -> ~ failed r) ->
  fst (ret_of p faults db_new) = map expected l /\
  sled_shows SE cn ce (db_of p faults db_new) (spec_history mn me l g_empty).
Proof. exact @history_shows. Qed.
Print Assumptions C26_history.

(** Queries answer the selected part. *)
Theorem C26_run : forall k NP EP SE BE E (cn : codec BE NP) (ce : codec BE EP) mn me
    (h : handle k) (l : list (op k NP EP E)) (faults : list (option SE)) gn q,
  codec_ok cn -> codec_ok ce -> NoDup (history_keys h l) ->
  let p := sled_history cn ce mn me l h in
  (forall r, In r (fst (ret_of p faults db_new)) -> ~ failed r) ->
  exists r g', now SE (s_run cn ce gn q) (db_of p faults db_new) = Ok r /\
    answers q (spec_history mn me l g_empty) g' /\ (drawn_distinct (id_generator r) -> shows r g').
Proof. exact @history_run. Qed.
Print Assumptions C26_run.

(** No call fails when the storage works and everything can be serialised. *)
Theorem C26_works : forall k NP EP SE BE E (cn : codec BE NP) (ce : codec BE EP) mn me
    (h : handle k) (l : list (op k NP EP E)) r,
  codec_ok cn -> codec_ok ce -> codec_total cn -> codec_total ce -> NoDup (history_keys h l) ->
  In r (fst (ret_of (sled_history (SE := SE) cn ce mn me l h) [] db_new)) -> ~ failed r.
Proof. exact @history_works. Qed.
Print Assumptions C26_works.

(** Every failure a call reports was one of the storage or of the serialiser; a store that was
    only written by this code never answers KeySizeError or MissingPropertyData. *)
Theorem C26_caused : forall k NP EP SE BE E (cn : codec BE NP) (ce : codec BE EP) mn me
    (h : handle k) (l : list (op k NP EP E)) (faults : list (option SE)) r,
  codec_ok cn -> codec_ok ce -> NoDup (history_keys h l) ->
  In r (fst (ret_of (sled_history cn ce mn me l h) faults db_new)) -> caused cn ce faults r.
Proof. exact @history_caused. Qed.
Print Assumptions C26_caused.

Example C26_case :
  codec_ok nc /\ codec_total nc /\ NoDup (history_keys hd1 s_ops) /\
  now N (s_iter_vertices (k := KU64) (BE := N) nc) ex_db = [Ok (u 1, 11); Ok (u 2, 55); Ok (u 9, 66)]%N /\
  now N (s_iter_edges (k := KU64) (BE := N) nc POS) ex_db =
    [Ok (tr 2 1 1, 211); Ok (tr 1 5 2, 363); Ok (tr 2 5 2, 2524); Ok (tr 1 5 3, 153);
     Ok (tr 1 (2 ^ 64 - 1) (2 ^ 64 - 1), 9)]%N.
Proof.
  split; [exact nc_ok|]. split; [exact nc_total|]. split; [exact s_ops_keys|]. vm_compute. auto.
Qed.

(** With a serialiser that refuses some values and a storage that fails. *)
Example C26_case_failures :
  fst (ret_of (sled_history (SE := N) small small mg mg
    [OInsertNode (u 1) 5; OInsertNode (u 1) 1000; OInsertEdge (tr 1 1 1) 6; ORemoveNode (u 1)]%N hd1)
    [None; Some 77%N] db_new) =
  [Ok tt; Err (LeftE (SerializationError 1000%N)); Err (LeftE (SledError 77%N)); Ok tt : outcome (E := N)].
Proof. vm_compute. reflexivity. Qed.

(** ** C27.  The same history on both backends, with any generators. *)
Theorem C27_backends : forall k NP EP SE BE E (cn : codec BE NP) (ce : codec BE EP) mn me
    (neqb : NP -> NP -> bool) (eeqb : EP -> EP -> bool) (gm : gen k) (h : handle k)
    (l : list (op k NP EP E)) (faults : list (option SE)),
  codec_ok cn -> codec_ok ce -> NoDup (history_keys h l) ->
  (forall r, In r (fst (ret_of (sled_history cn ce mn me l h) faults db_new)) -> ~ failed r) ->
  drawn_distinct (id_generator (mem_history mn me l (mem_new gm))) ->
  (forall p, neqb p p = true) -> (forall p, eeqb p p = true) ->
  let m := mem_history mn me l (mem_new gm) in
  let d := db_of (sled_history cn ce mn me l h) faults db_new in
  (exists ns, iter_vertices m = map Ok ns /\ now SE (s_iter_vertices cn) d = map Ok ns) /\
  (forall o, exists es, iter_edges o m = map Ok es /\ now SE (s_iter_edges ce o) d = map Ok es) /\
  try_eq id_eqb neqb eeqb (iter_vertices m) (iter_edges SPO m)
    (now SE (s_iter_vertices cn) d) (now SE (s_iter_edges ce SPO) d) = Ok true /\
  try_eq id_eqb neqb eeqb (now SE (s_iter_vertices cn) d) (now SE (s_iter_edges ce SPO) d)
    (iter_vertices m) (iter_edges SPO m) = Ok true /\
  forall gq gq' q, exists r, now SE (s_run cn ce gq' q) d = Ok r /\
    (drawn_distinct (id_generator r) -> drawn_distinct (id_generator (run gq q m)) ->
     iter_vertices r = iter_vertices (run gq q m) /\ forall o, iter_edges o r = iter_edges o (run gq q m)).
Proof. exact @backends_agree. Qed.
Print Assumptions C27_backends.

Example C27_case :
  try_eq id_eqb N.eqb N.eqb
    (iter_vertices (mem_history mg mg s_ops (mem_new (counter 3))))
    (iter_edges SPO (mem_history mg mg s_ops (mem_new (counter 3))))
    (now N (s_iter_vertices (BE := N) nc) ex_db) (now N (s_iter_edges nc SPO) ex_db) = Ok true.
Proof. vm_compute. reflexivity. Qed.

(** ** C36.  One handle after the other, if no property record key is drawn twice. *)
Theorem C36_sessions_partial : forall k NP EP SE BE E (cn : codec BE NP) (ce : codec BE EP) mn me
    (ss : list (handle k * list (op k NP EP E))) (faults : list (option SE)),
  codec_ok cn -> codec_ok ce -> NoDup (session_keys ss) ->
  let p := sled_sessions cn ce mn me ss in
  (forall rs r, In rs (ret_of p faults db_new) -> In r rs -> ~ failed r) ->
  ret_of p faults db_new = map (fun hl => map expected (snd hl)) ss /\
  sled_shows SE cn ce (db_of p faults db_new) (spec_history mn me (flat_map snd ss) g_empty).
Proof. exact @sessions_show. Qed.
Print Assumptions C36_sessions_partial.

Theorem C36_run_partial : forall k NP EP SE BE E (cn : codec BE NP) (ce : codec BE EP) mn me
    (ss : list (handle k * list (op k NP EP E))) (faults : list (option SE)) gn q,
  codec_ok cn -> codec_ok ce -> NoDup (session_keys ss) ->
  let p := sled_sessions cn ce mn me ss in
  (forall rs r, In rs (ret_of p faults db_new) -> In r rs -> ~ failed r) ->
  exists r g', now SE (s_run cn ce gn q) (db_of p faults db_new) = Ok r /\
    answers q (spec_history mn me (flat_map snd ss) g_empty) g' /\ (drawn_distinct (id_generator r) -> shows r g').
Proof. exact @sessions_run. Qed.
Print Assumptions C36_run_partial.

Definition ex_sessions : list (handle KU64 * list exop) :=
  [ (hd1, ex_ops); (hd2, [OInsertEdge (tr 1 5 3) 7; ORemoveNode (u 2)]%N) ].
Example C36_case :
  NoDup (session_keys ex_sessions) /\
  now N (s_iter_edges (k := KU64) (BE := N) nc SPO) (db_of (sled_sessions (SE := N) nc nc mg mg ex_sessions) [] db_new) =
    [Ok (tr 1 5 3, 7); Ok (tr 1 (2 ^ 64 - 1) (2 ^ 64 - 1), 9)]%N.
Proof. split; [apply nodupb_ok; vm_compute; reflexivity | vm_compute; reflexivity]. Qed.

(** False as stated: U64IdGenerator starts at the same number in every process, so the first
    insertion of a second session overwrites the properties of an edge of the first. *)
Theorem C36_refuted : exists (h : handle KU64) (t t' : triple (Id KU64)) (e e' : N),
  NoDup (history_keys (E := N) (NP := N) h [OInsertEdge t e; OInsertEdge t' e']) /\ t <> t' /\ e <> e' /\
  ret_of (sled_sessions (SE := N) (E := N) nc nc mg mg [(h, [OInsertEdge t e]); (h, [OInsertEdge t' e'])]) [] db_new =
    [[Ok tt]; [Ok tt]] /\
  now N (s_iter_edges (k := KU64) (BE := N) nc SPO)
    (db_of (sled_sessions (SE := N) (E := N) nc nc mg mg [(h, [OInsertEdge t e]); (h, [OInsertEdge t' e'])]) [] db_new) =
    [Ok (t, e'); Ok (t', e')].
Proof.
  exists (Handle (counter 0) (ulids 7)), (tr 1 2 3), (tr 4 5 6), 10%N, 20%N.
  split; [apply nodupb_ok; vm_compute; reflexivity|].
  split; [discriminate|]. split; [discriminate|]. vm_compute. auto.
Qed.
Print Assumptions C36_refuted.
