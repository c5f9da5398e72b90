(** C17 - C21: queries and iterators of the memory store. *)
From Coq Require Import NArith List Sorted.
From Verif Require Import Bytes Core IdType IdTypeFacts Store Mem Spec History MemTop Ex.
Import ListNotations.

(** ** C17 and C18: the result shows a graph iff that graph is the selected part. *)
Theorem C17_run : forall k NP EP E mn me gn q (m : mem k NP EP) g g',
  reachable E mn me m -> shows m g -> drawn_distinct (id_generator (run gn q m)) ->
  (shows (run gn q m) g' <->
   (forall n p, g_node g' n = Some p <-> selects_node q n /\ g_node g n = Some p) /\
   (forall t e, g_edge g' t = Some e <-> selects q t /\ g_edge g t = Some e)).
Proof. exact @shows_run_iff. Qed.
Print Assumptions C17_run.

Example C17_case :
  drawn_distinct (id_generator (run (counter 3) (QPO [(u 5, u 2); (u 9, u 9)]) ex_mem)) /\
  iter_edges SPO (run (counter 3) (QPO [(u 5, u 2); (u 9, u 9)]) ex_mem) =
    [Ok (tr 1 5 2, 152); Ok (tr 2 5 2, 252)]%N /\
  iter_edges SPO (run (counter 3) (QSP [(u 1, u (2 ^ 64 - 1))]) ex_mem) =
    [Ok (tr 1 (2 ^ 64 - 1) (2 ^ 64 - 1), 9)]%N /\
  iter_edges SPO (run (counter 3) (QSO [(u 1, u 3)]) ex_mem) = [Ok (tr 1 5 3, 153)]%N /\
  iter_edges SPO (run (counter 3) (QS [u 2]) ex_mem) = [Ok (tr 2 1 1, 211); Ok (tr 2 5 2, 252)]%N.
Proof. split; [apply drawn_distinct_check; vm_compute; reflexivity | vm_compute; auto]. Qed.

(** A node query returns no edges, an edge query no vertices. *)
Theorem C18_disjoint : forall k NP EP E mn me gn q (m : mem k NP EP),
  reachable E mn me m ->
  match q with
  | QNodeProps _ => forall o, iter_edges o (run gn q m) = []
  | _ => iter_vertices (run gn q m) = []
  end.
Proof. exact @run_disjoint. Qed.
Print Assumptions C18_disjoint.

Theorem C18_nodes : forall k NP EP E mn me gn ids (m : mem k NP EP) g,
  reachable E mn me m -> shows m g ->
  lists_nodes (iter_vertices (run gn (QNodeProps ids) m))
    (fun i => if in_dec id_eq_dec i ids then g_node g i else None).
Proof. exact @run_nodes. Qed.
Print Assumptions C18_nodes.

Example C18_case :
  iter_vertices (run (counter 3) (QNodeProps [u 9; u 2]) ex_mem) = [Ok (u 2, 223%N)] /\
  iter_edges SPO (run (counter 3) (QNodeProps [u 9; u 2]) ex_mem) = [].
Proof. vm_compute. auto. Qed.

(** ** C19 *)
Theorem C19_order : forall k NP EP E mn me gn gn' q q' (m : mem k NP EP) g,
  reachable E mn me m -> same_items q q' ->
  drawn_distinct (id_generator (run gn q m)) -> drawn_distinct (id_generator (run gn' q' m)) ->
  (shows (run gn q m) g <-> shows (run gn' q' m) g).
Proof. exact @run_same_items. Qed.
Print Assumptions C19_order.

Theorem C19_idempotent : forall k NP EP E mn me gn gn' q (m : mem k NP EP) g,
  reachable E mn me m ->
  drawn_distinct (id_generator (run gn q m)) ->
  drawn_distinct (id_generator (run gn' q (run gn q m))) ->
  shows (run gn q m) g -> shows (run gn' q (run gn q m)) g.
Proof. exact @run_again. Qed.
Print Assumptions C19_idempotent.

Example C19_case :
  same_items (QO [u 2; u 3]) (QO [u 3; u 2]) /\
  iter_edges POS (run (counter 3) (QO [u 2; u 3]) ex_mem) =
    [Ok (tr 1 5 2, 152); Ok (tr 2 5 2, 252); Ok (tr 1 5 3, 153)]%N /\
  iter_edges POS (run (counter 3) (QO [u 3; u 2]) ex_mem) =
    [Ok (tr 1 5 2, 152); Ok (tr 2 5 2, 252); Ok (tr 1 5 3, 153)]%N.
Proof. split; [simpl; tauto | vm_compute; auto]. Qed.

(** ** C20 *)
Theorem C20_with_props : forall k NP EP E mn me o (m : mem k NP EP) g,
  reachable E mn me m -> shows m g ->
  exists items, iter_edges_with_props o m = map Ok items /\
    StronglySorted (fun x y =>
      edge_lt o (Triple (fst (p_sub x)) (fst (p_pred x)) (fst (p_obj x)))
                (Triple (fst (p_sub y)) (fst (p_pred y)) (fst (p_obj y)))) items /\
    forall s sp p ep b op,
      In (PropsTriple (s, sp) (p, ep) (b, op)) items <->
      g_node g s = Some sp /\ g_edge g (Triple s p b) = Some ep /\ g_node g b = Some op.
Proof. exact @top_with_props. Qed.
Print Assumptions C20_with_props.

Example C20_case :
  iter_edges_with_props POS ex_mem =
    [Ok (PropsTriple (u 2, 223) (u 1, 211) (u 1, 11)); Ok (PropsTriple (u 1, 11) (u 5, 152) (u 2, 223));
     Ok (PropsTriple (u 2, 223) (u 5, 252) (u 2, 223))]%N.
Proof. vm_compute. reflexivity. Qed.

(** ** C21, memory store *)
Theorem C21_mem : forall k NP EP o (m : mem k NP EP),
  into_iter_nodes o m = iter_nodes o m /\ into_iter_vertices m = iter_vertices m /\
  into_iter_edges o m = iter_edges o m /\ into_iter_edges_with_props o m = iter_edges_with_props o m /\
  map Ok (vertices m) = map (res_map (E := unit) fst) (iter_vertices m) /\
  iter_nodes o m = (iter_vertices m, iter_edges o m).
Proof. exact @into_iter_eq. Qed.
Print Assumptions C21_mem.

Example C21_mem_case :
  into_iter_edges OSP ex_mem = iter_edges OSP ex_mem /\ length (iter_edges OSP ex_mem) = 5%nat /\
  vertices ex_mem = [u 1; u 2].
Proof. vm_compute. auto. Qed.
