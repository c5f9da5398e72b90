(** The project's own tests, run in the model.

    These are no properties: they check the model against the behaviour the project's authors
    expect of the code.  Every test of /repo/src/conformance/*.rs is run on the memory store and on
    the sled store, as in /repo/src/mem/*.rs and /repo/src/sled/*.rs; then the tests of the codec
    (/repo/src/id/ulid.rs:120-298), the RDF store (/repo/src/rdf.rs:158-211) and the documentation
    (/repo/README.md, /repo/src/lib.rs, /repo/src/mem.rs, /repo/src/sled.rs).  The sets that some
    tests compare are compared here as lists in the order of the keys, which is a stronger test.
    The tests of the set operations exist for the memory store only. *)
From Coq Require Import NArith List String.
From Coq.Init Require Import Byte.
From Verif Require Import Bytes OMap Core IdType Store Mem MemIndex Spec History Prog Sled SledHistory Rdf Ex ExSled.
Import ListNotations.
Open Scope string_scope.
Open Scope list_scope.
Open Scope N_scope.

(** ** The stores of the tests: Ulid identifiers, strings as properties. *)
Notation T := (triple (Id KUlid)).
Notation sop := (op KUlid string string N).

Definition str : codec N string :=
  Codec (fun s => Ok (list_byte_of_string s)) (fun b => Ok (string_of_list_byte b)).
Definition last_wins (a b : string) : string := b.
Definition ut (s p o : N) : T := Triple (ul s) (ul p) (ul o).

Definition m_of (l : list sop) : mem KUlid string string :=
  mem_history last_wins last_wins l (mem_new (ulids 1000)).
Definition s_prog (l : list sop) := sled_history (SE := N) str str last_wins last_wins l (Handle (ulids 1000) (ulids 5000)).
Definition s_of (l : list sop) : db := db_of (s_prog l) [] db_new.

(** [expect("success")] after every call: the memory store cannot fail. *)
Definition succeeds (l : list sop) : Prop := fst (ret_of (s_prog l) [] db_new) = map (fun _ => Ok tt) l.

Definition vertices_are (l : list sop) (xs : list (Id KUlid * string)) : Prop :=
  iter_vertices (m_of l) = map Ok xs /\ now N (s_iter_vertices str) (s_of l) = map Ok xs.
Definition edges_are o (l : list sop) (xs : list (T * string)) : Prop :=
  iter_edges o (m_of l) = map Ok xs /\ now N (s_iter_edges str o) (s_of l) = map Ok xs.
Definition props_are o (l : list sop) (xs : list (props_triple (Id KUlid) string string)) : Prop :=
  iter_edges_with_props o (m_of l) = map Ok xs /\ now N (s_iter_edges_with_props str str o) (s_of l) = map Ok xs.
Definition nodes_are o (l : list sop) (xs : list (Id KUlid * string)) (ys : list (T * string)) : Prop :=
  iter_nodes o (m_of l) = (map Ok xs, map Ok ys) /\ now N (s_iter_nodes str str o) (s_of l) = (map Ok xs, map Ok ys).

(** ** /repo/src/conformance/extend.rs: the Ulids are random; node_4 is node_1. *)
Definition extend_left : list sop :=
  [ OInsertNode (ul 1) "a"; OInsertNode (ul 2) "b"; OInsertEdge (ut 1 9 2) "1" ].
Definition extend_right : list sop :=
  [ OInsertNode (ul 3) "c"; OInsertNode (ul 1) "d"; OInsertEdge (ut 3 9 1) "2" ].
Definition no_error {A} (l : list (result unit A)) : list (result N A) :=
  map (fun x => match x with Ok a => Ok a | Err _ => Err 0 end) l.
Definition taken (m : mem KUlid string string) : source KUlid string string N :=
  Source (no_error (src_nodes (mem_source m))) (no_error (src_edges (mem_source m))).
Example test_extend : let l := extend_left ++ [OExtend (taken (m_of extend_right))] in
  succeeds l /\
  vertices_are l [(ul 1, "d"); (ul 2, "b"); (ul 3, "c")] /\
  edges_are SPO l [(ut 1 9 2, "1"); (ut 3 9 1, "2")].
Proof. vm_compute. auto. Qed.

(** ** /repo/src/conformance/insert.rs *)
Definition four : list sop :=
  [ OInsertNode (ul 1) "foo"; OInsertNode (ul 2) "bar"; OInsertNode (ul 3) "baz"; OInsertNode (ul 4) "quz" ].
Example test_insert_node :
  succeeds (four ++ [OInsertNode (ul 4) "quz2"]) /\
  nodes_are SPO four [(ul 1, "foo"); (ul 2, "bar"); (ul 3, "baz"); (ul 4, "quz")] [] /\
  nodes_are SPO (four ++ [OInsertNode (ul 4) "quz2"]) [(ul 1, "foo"); (ul 2, "bar"); (ul 3, "baz"); (ul 4, "quz2")] [].
Proof. vm_compute. auto. Qed.

Definition chain : list sop :=
  four ++ [ OInsertEdge (ut 1 10 2) "-1->"; OInsertEdge (ut 2 11 3) "-2->"; OInsertEdge (ut 3 12 4) "-3->" ].
Example test_insert_edge : let l := chain ++ [OInsertEdge (ut 3 12 4) "-4->"] in
  succeeds l /\
  nodes_are SPO l [(ul 1, "foo"); (ul 2, "bar"); (ul 3, "baz"); (ul 4, "quz")]
    [(ut 1 10 2, "-1->"); (ut 2 11 3, "-2->"); (ut 3 12 4, "-4->")].
Proof. vm_compute. auto. Qed.

(** ** /repo/src/conformance/remove.rs *)
Example test_remove_node : let l := chain ++ [ORemoveNode (ul 1); ORemoveNode (ul 4)] in
  succeeds l /\
  vertices_are l [(ul 2, "bar"); (ul 3, "baz")] /\
  edges_are SPO l [(ut 2 11 3, "-2->")] /\
  props_are SPO l [PropsTriple (ul 2, "bar") (ul 11, "-2->") (ul 3, "baz")].
Proof. vm_compute. auto. Qed.
Example test_remove_edge : let l := chain ++ [ORemoveEdge (ut 1 10 2); ORemoveEdge (ut 3 12 4)] in
  succeeds l /\
  vertices_are l [(ul 1, "foo"); (ul 2, "bar"); (ul 3, "baz"); (ul 4, "quz")] /\
  edges_are SPO l [(ut 2 11 3, "-2->")] /\
  props_are SPO l [PropsTriple (ul 2, "bar") (ul 11, "-2->") (ul 3, "baz")].
Proof. vm_compute. auto. Qed.

(** ** /repo/src/conformance/set.rs *)
Definition e_l1_l2 : T * string := (ut 1 7 2, "g").
Definition e_m1_m2 : T * string := (ut 3 7 4, "h").
Definition e_r1_r2 : T * string := (ut 5 7 6, "i").
Definition e_r2_m2 : T * string := (ut 6 8 4, "j").
Definition e_m2_l2 : T * string := (ut 4 8 2, "k").
Definition e_l1_m1 : T * string := (ut 1 9 3, "l").
Definition e_m1_r1 : T * string := (ut 3 9 5, "m").
Definition add_edges (l : list (T * string)) : list sop := map (fun te => OInsertEdge (fst te) (snd te)) l.
Definition set_left : list sop :=
  [ OInsertNode (ul 1) "a"; OInsertNode (ul 2) "b"; OInsertNode (ul 3) "c"; OInsertNode (ul 4) "d" ]
  ++ add_edges [e_l1_l2; e_l1_m1; e_m1_m2; e_m2_l2].
Definition set_right : list sop :=
  [ OInsertNode (ul 5) "e"; OInsertNode (ul 6) "f"; OInsertNode (ul 3) "c"; OInsertNode (ul 4) "d" ]
  ++ add_edges [e_r1_r2; e_m1_r1; e_m1_m2; e_r2_m2].
Definition content {E} (r : result E (mem KUlid string string)) :=
  match r with Ok m => Some (into_iter_nodes SPO m) | Err _ => None end.
Definition set_op (f : gen KUlid -> source KUlid string string N -> mem KUlid string string ->
    result (set_error unit N unit) (mem KUlid string string)) :=
  content (f (ulids 2000) (taken (m_of set_right)) (m_of set_left)).

Example test_union : set_op union =
  Some (map Ok [(ul 1, "a"); (ul 2, "b"); (ul 3, "c"); (ul 4, "d"); (ul 5, "e"); (ul 6, "f")],
        map Ok [e_l1_l2; e_l1_m1; e_m1_m2; e_m1_r1; e_m2_l2; e_r1_r2; e_r2_m2]).
Proof. vm_compute. reflexivity. Qed.
Example test_intersection : set_op intersection = Some (map Ok [(ul 3, "c"); (ul 4, "d")], map Ok [e_m1_m2]).
Proof. vm_compute. reflexivity. Qed.
Example test_difference : set_op difference = Some (map Ok [(ul 1, "a"); (ul 2, "b")], map Ok [e_l1_l2]).
Proof. vm_compute. reflexivity. Qed.

(** ** /repo/src/conformance/iter.rs: node_1 < node_4 < node_2 < node_3 < edge_1 < edge_3 < edge_2 *)
Definition iter_graph : list sop :=
  [ OInsertNode (ul 1) "a"; OInsertNode (ul 3) "c"; OInsertNode (ul 4) "e"; OInsertNode (ul 2) "g";
    OInsertEdge (ut 1 5 3) "b"; OInsertEdge (ut 3 7 4) "d"; OInsertEdge (ut 4 6 2) "f" ].
Definition ie1 : T * string := (ut 1 5 3, "b").
Definition ie2 : T * string := (ut 3 7 4, "d").
Definition ie3 : T * string := (ut 4 6 2, "f").
Definition ip1 := PropsTriple (ul 1, "a") (ul 5, "b") (ul 3, "c").
Definition ip2 := PropsTriple (ul 3, "c") (ul 7, "d") (ul 4, "e").
Definition ip3 := PropsTriple (ul 4, "e") (ul 6, "f") (ul 2, "g").
Example test_iter :
  succeeds iter_graph /\
  props_are SPO iter_graph [ip1; ip2; ip3] /\
  props_are POS iter_graph [ip1; ip3; ip2] /\
  props_are OSP iter_graph [ip3; ip1; ip2].
Proof. vm_compute. auto. Qed.
Example test_iter_edge :
  edges_are SPO iter_graph [ie1; ie2; ie3] /\
  edges_are POS iter_graph [ie1; ie3; ie2] /\
  edges_are OSP iter_graph [ie3; ie1; ie2].
Proof. vm_compute. auto. Qed.
Example test_iter_node : vertices_are iter_graph [(ul 1, "a"); (ul 2, "g"); (ul 3, "c"); (ul 4, "e")].
Proof. vm_compute. auto. Qed.
Example test_into_iter :
  map (fun o => into_iter_edges_with_props o (m_of iter_graph)) [SPO; POS; OSP] =
    map (map Ok) [[ip1; ip2; ip3]; [ip1; ip3; ip2]; [ip3; ip1; ip2]] /\
  map (fun o => now N (s_into_iter_edges_with_props str str o) (s_of iter_graph)) [SPO; POS; OSP] =
    map (map Ok) [[ip1; ip2; ip3]; [ip1; ip3; ip2]; [ip3; ip1; ip2]] /\
  map (fun o => into_iter_edges o (m_of iter_graph)) [SPO; POS; OSP] =
    map (map Ok) [[ie1; ie2; ie3]; [ie1; ie3; ie2]; [ie3; ie1; ie2]] /\
  map (fun o => now N (s_into_iter_edges str o) (s_of iter_graph)) [SPO; POS; OSP] =
    map (map Ok) [[ie1; ie2; ie3]; [ie1; ie3; ie2]; [ie3; ie1; ie2]] /\
  into_iter_vertices (m_of iter_graph) = map Ok [(ul 1, "a"); (ul 2, "g"); (ul 3, "c"); (ul 4, "e")] /\
  now N (s_into_iter_vertices str) (s_of iter_graph) = map Ok [(ul 1, "a"); (ul 2, "g"); (ul 3, "c"); (ul 4, "e")].
Proof. vm_compute. auto 10. Qed.

(** ** /repo/src/conformance/query.rs: node_0 < node_1 < node_4 < node_2 < node_3 < edge_1 < edge_2 *)
Definition query_graph : list sop :=
  [ OInsertNode (ul 1) "a"; OInsertNode (ul 2) "b"; OInsertNode (ul 4) "c"; OInsertNode (ul 5) "e"; OInsertNode (ul 3) "g";
    OInsertEdge (ut 1 6 2) "e_a_b"; OInsertEdge (ut 1 7 4) "e_a_c"; OInsertEdge (ut 2 6 4) "e_b_c";
    OInsertEdge (ut 4 7 3) "e_c_g"; OInsertEdge (ut 5 7 3) "e_e_g" ].
Definition found {E} o (r : result E (mem KUlid string string)) :=
  match r with Ok m => Some (iter_vertices m, iter_edges o m) | Err _ => None end.
Definition query_is o (q : query (Id KUlid)) (xs : list (Id KUlid * string)) (ys : list (T * string)) : Prop :=
  found (E := unit) o (Ok (run (ulids 3000) q (m_of query_graph))) = Some (map Ok xs, map Ok ys) /\
  found o (now N (s_run str str (ulids 3000) q) (s_of query_graph)) = Some (map Ok xs, map Ok ys).
Example test_query_node_props : query_is SPO (QNodeProps [ul 2; ul 4]) [(ul 2, "b"); (ul 4, "c")] [].
Proof. vm_compute. auto. Qed.
Example test_query_edge_props :
  query_is SPO (QSPO [(ul 2, ul 6, ul 4); (ul 4, ul 7, ul 3)]) [] [(ut 2 6 4, "e_b_c"); (ut 4 7 3, "e_c_g")].
Proof. vm_compute. auto. Qed.
Example test_query_s : query_is SPO (QS [ul 2; ul 5]) [] [(ut 2 6 4, "e_b_c"); (ut 5 7 3, "e_e_g")].
Proof. vm_compute. auto. Qed.
Example test_query_sp : query_is SPO (QSP [(ul 1, ul 6)]) [] [(ut 1 6 2, "e_a_b")].
Proof. vm_compute. auto. Qed.
Example test_query_p : query_is POS (QP [ul 6]) [] [(ut 1 6 2, "e_a_b"); (ut 2 6 4, "e_b_c")].
Proof. vm_compute. auto. Qed.
Example test_query_po : query_is POS (QPO [(ul 6, ul 4)]) [] [(ut 2 6 4, "e_b_c")].
Proof. vm_compute. auto. Qed.
Example test_query_o : query_is OSP (QO [ul 3]) [] [(ut 4 7 3, "e_c_g"); (ut 5 7 3, "e_e_g")].
Proof. vm_compute. auto. Qed.
Example test_query_os : query_is OSP (QSO [(ul 4, ul 3)]) [] [(ut 4 7 3, "e_c_g")].
Proof. vm_compute. auto. Qed.

(** ** /repo/src/conformance/merge.rs, with the TestMergeable of /repo/src/conformance.rs:14-34 *)
Notation mergeable := (option string * option string)%type.
Notation mop := (op KUlid mergeable mergeable N).
Definition over {A} (a b : option A) : option A := match b with Some _ => b | None => a end.
Definition tm_merge (x y : mergeable) : mergeable := (over (fst x) (fst y), over (snd x) (snd y)).
Definition opt_bytes (o : option string) : bytes :=
  match o with None => [x00] | Some s => x01 :: list_byte_of_string s ++ [x00] end.
Fixpoint until_zero (b : bytes) : bytes * bytes :=
  match b with [] => ([], []) | x00 :: b' => ([], b') | x :: b' => let (u, v) := until_zero b' in (x :: u, v) end.
Definition bytes_opt (b : bytes) : option string * bytes :=
  match b with x01 :: b' => (Some (string_of_list_byte (fst (until_zero b'))), snd (until_zero b')) | _ :: b' => (None, b') | [] => (None, []) end.
Definition tmc : codec N mergeable :=
  Codec (fun x => Ok (opt_bytes (fst x) ++ opt_bytes (snd x)))
    (fun b => let (x, b') := bytes_opt b in Ok (x, fst (bytes_opt b'))).
Definition str_eqb (x y : mergeable) : bool :=
  match x, y with (a, b), (c, d) =>
    let e u v := match u, v with None, None => true | Some u, Some v => String.eqb u v | _, _ => false end in (e a c && e b d)%bool
  end.
Definition mm_of (l : list mop) : mem KUlid mergeable mergeable := mem_history tm_merge tm_merge l (mem_new (ulids 1000)).
Definition ms_of (l : list mop) : db :=
  db_of (sled_history (SE := N) tmc tmc tm_merge tm_merge l (Handle (ulids 1000) (ulids 5000))) [] db_new.
Definition mm_taken (m : mem KUlid mergeable mergeable) : source KUlid mergeable mergeable N :=
  Source (map (fun x => match x with Ok a => Ok a | Err _ => Err 0 end) (src_nodes (mem_source m)))
    (map (fun x => match x with Ok a => Ok a | Err _ => Err 0 end) (src_edges (mem_source m))).
(** [assert!(a.try_eq(&b).expect("ok"))] with both on the same backend *)
Definition same (l l' : list mop) : Prop :=
  (let (na, ea) := iter_nodes SPO (mm_of l) in let (nb, eb) := iter_nodes SPO (mm_of l') in
   try_eq (id_eqb (k := KUlid)) str_eqb str_eqb na ea nb eb = Ok true) /\
  (let (na, ea) := now N (s_iter_nodes tmc tmc SPO) (ms_of l) in let (nb, eb) := now N (s_iter_nodes tmc tmc SPO) (ms_of l') in
   try_eq (id_eqb (k := KUlid)) str_eqb str_eqb na ea nb eb = Ok true).

Definition dflt : mergeable := (None, None).
Definition merge_graph (n1 n2 e3 : mergeable) : list mop :=
  [ OInsertNode (ul 1) n1; OInsertNode (ul 2) n2; OInsertNode (ul 3) dflt; OInsertNode (ul 4) dflt;
    OInsertEdge (ut 1 5 3) dflt; OInsertEdge (ut 1 6 3) dflt; OInsertEdge (ut 3 7 4) e3 ].
Definition bar_bar : mergeable := (Some "bar", Some "bar").
Definition foo_none : mergeable := (Some "foo", None).
Definition foo_bar : mergeable := (Some "foo", Some "bar").
Definition baz_none : mergeable := (Some "baz", None).
Definition graph_1 := merge_graph dflt bar_bar bar_bar.
Definition graph_2 := merge_graph dflt foo_none foo_none.
Example test_merge :
  same (graph_1 ++ [OMerge (mm_taken (mm_of graph_2))]) (merge_graph dflt foo_bar foo_bar) /\
  same (graph_2 ++ [OMerge (mm_taken (mm_of graph_1))]) (merge_graph dflt bar_bar bar_bar).
Proof. vm_compute. auto. Qed.
Example test_merge_node :
  same (merge_graph dflt bar_bar dflt ++ [OMergeNode (ul 1) baz_none; OMergeNode (ul 2) baz_none])
    (merge_graph baz_none (Some "baz", Some "bar") dflt).
Proof. vm_compute. auto. Qed.
Definition edge_graph : list mop :=
  [ OInsertNode (ul 1) dflt; OInsertNode (ul 2) dflt; OInsertNode (ul 3) dflt; OInsertEdge (ut 1 4 2) foo_none ].
Example test_merge_edge :
  same (edge_graph ++ [OMergeEdge (ut 1 4 2) (None, Some "bar"); OMergeEdge (ut 2 4 3) (Some "baz", Some "baz")])
    (edge_graph ++ [OInsertEdge (ut 1 4 2) foo_bar; OInsertEdge (ut 2 4 3) (Some "baz", Some "baz")]).
Proof. vm_compute. auto. Qed.

(** ** /repo/src/id/ulid.rs:120-298 *)
Definition id_a := ul 0x000102030405060708090A0B0C0D0E0F.
Definition id_b := ul 0x101112131415161718191A1B1C1D1E1F.
Definition id_c := ul 0x202122232425262728292A2B2C2D2E2F.
Definition data_a : bytes := [x00; x01; x02; x03; x04; x05; x06; x07; x08; x09; x0a; x0b; x0c; x0d; x0e; x0f].
Definition data_b : bytes := [x10; x11; x12; x13; x14; x15; x16; x17; x18; x19; x1a; x1b; x1c; x1d; x1e; x1f].
Definition data_c : bytes := [x20; x21; x22; x23; x24; x25; x26; x27; x28; x29; x2a; x2b; x2c; x2d; x2e; x2f].
Definition make_data : bytes := data_a ++ data_b ++ data_c.
Definition make_triple : T := Triple id_a id_b id_c.
Example test_encode :
  encode_spo (k := KUlid) make_triple = data_a ++ data_b ++ data_c /\
  encode_pos (k := KUlid) make_triple = data_b ++ data_c ++ data_a /\
  encode_osp (k := KUlid) make_triple = data_c ++ data_a ++ data_b.
Proof. vm_compute. auto. Qed.
Example test_decode :
  decode_spo (k := KUlid) make_data = Triple id_a id_b id_c /\
  decode_pos (k := KUlid) make_data = Triple id_c id_a id_b /\
  decode_osp (k := KUlid) make_data = Triple id_b id_c id_a.
Proof. vm_compute. auto. Qed.
Definition id_1 := ul 0xDEADBEEFDEADBEEFDEADBEEFDEADBEEF.
Definition id_2 := ul 0xCAFEBABECAFEBABECAFEBABECAFEBABE.
Definition four_times (b : bytes) : bytes := b ++ b ++ b ++ b.
Definition deadbeef : bytes := four_times [xde; xad; xbe; xef].
Definition cafebabe : bytes := four_times [xca; xfe; xba; xbe].
Example test_key_bounds :
  key_bounds_1 (k := KUlid) id_1 = (deadbeef ++ repeat x00 32, deadbeef ++ repeat xff 32) /\
  key_bounds_2 (k := KUlid) id_1 id_2 = (deadbeef ++ cafebabe ++ repeat x00 16, deadbeef ++ cafebabe ++ repeat xff 16).
Proof. vm_compute. auto. Qed.

(** ** /repo/src/rdf.rs:158-211 *)
Notation rsop := (rop string N N N).
Definition node_3 : entity string := EUlid (ul 777).
Definition rdf_test : list rsop :=
  [ RInsertNode (EString "foo") 1; RInsertNode (EString "bar") 2; RInsertNode node_3 3;
    RInsertEdge (Triple (EString "foo") (EString "knows") (EString "bar")) 123;
    RInsertEdge (Triple (EString "bar") (EString "knows") node_3) 456 ].
Example test_new :
  let (xs, r) := rdf_history String.eqb mg mg rdf_test (rdf_new (ulids 1000) (ulids 2000)) in
  xs = map (fun _ => Ok tt) rdf_test /\
  rdf_iter_edges_with_props SPO r = map Ok
    [ PropsTriple (EString "foo", 1) (EString "knows", 123) (EString "bar", 2);
      PropsTriple (EString "bar", 2) (EString "knows", 456) (node_3, 3) ].
Proof. vm_compute. auto. Qed.

(** ** The example of the documentation (/repo/README.md:33-82, /repo/src/mem.rs:22-110,
    /repo/src/sled.rs:36-) and of the query! macro (/repo/src/lib.rs:161-310) *)
Definition doc : list sop :=
  [ OInsertNode (ul 123) "foo"; OInsertNode (ul 456) "bar"; OInsertNode (ul 789) "baz";
    OInsertEdge (ut 123 999 456) "1,2,3"; OInsertEdge (ut 123 999 789) "4,5,6" ].
Definition doc_query (m : macro_input (Id KUlid)) (ys : list (T * string)) : Prop :=
  match query_macro m with
  | Some q => found (E := unit) SPO (Ok (run (ulids 3000) q (m_of doc))) = Some ([], map Ok ys) /\
      found SPO (now N (s_run str str (ulids 3000) q) (s_of doc)) = Some ([], map Ok ys)
  | None => False
  end.
Example test_doc :
  succeeds doc /\
  vertices_are doc [(ul 123, "foo"); (ul 456, "bar"); (ul 789, "baz")] /\
  props_are SPO doc [ PropsTriple (ul 123, "foo") (ul 999, "1,2,3") (ul 456, "bar");
                      PropsTriple (ul 123, "foo") (ul 999, "4,5,6") (ul 789, "baz") ].
Proof. vm_compute. auto. Qed.
Example test_doc_query :
  doc_query (MArrow Any Any (Ids [ul 789])) [(ut 123 999 789, "4,5,6")] /\
  doc_query (MArrow Any (Ids [ul 999]) Any) [(ut 123 999 456, "1,2,3"); (ut 123 999 789, "4,5,6")].
Proof. vm_compute. auto. Qed.
Example test_doc_macro : forall I (a b c d e f : I),
  query_macro (MNodeProps [a; b]) = Some (QNodeProps [a; b]) /\
  query_macro (MArrow (Ids [a; b]) Any Any) = Some (QS [a; b]) /\
  query_macro (MArrow Any (Ids [b; c]) Any) = Some (QP [b; c]) /\
  query_macro (MArrow Any (Ids [a; b]) (Ids [c; d])) = Some (QPO [(a, c); (a, d); (b, c); (b, d)]) /\
  query_macro (MArrow (Ids [a; b]) Any (Ids [c; d])) = Some (QSO [(a, c); (a, d); (b, c); (b, d)]) /\
  query_macro (MArrow Any Any (Ids [a; b])) = Some (QO [a; b]) /\
  query_macro (MArrow (Ids [a; b]) (Ids [c; d]) Any) = Some (QSP [(a, c); (a, d); (b, c); (b, d)]) /\
  query_macro (MArrow (Ids [a; b]) (Ids [c; d]) (Ids [e; f])) =
    Some (QSPO [(a, c, e); (a, c, f); (a, d, e); (a, d, f); (b, c, e); (b, c, f); (b, d, e); (b, d, f)]).
Proof. intros. cbn. auto 10. Qed.
