(** C06 - C13 and C35: the in-memory store under its mutating operations.
    [reachable E mn me m]: [m] is any store a program can hold (History.v).
    [shows m g]: the iterators of [m] list exactly the graph [g] (History.v, Spec.v).
    [drawn_distinct]: the identifiers the generator has handed out are pairwise different. *)
From Coq Require Import NArith List Permutation.
From Verif Require Import Bytes Core IdType IdTypeFacts Store Mem Spec History MemTop Ex.
Import ListNotations.

(** Every reachable store shows exactly one graph, so "shows" can be used as a function. *)
Theorem C06_shows_total : forall k NP EP E mn me (m : mem k NP EP),
  reachable E mn me m -> exists g, shows m g.
Proof. exact @top_shows. Qed.
Print Assumptions C06_shows_total.

Theorem C06_shows_unique : forall k NP EP (m : mem k NP EP) g g', shows m g -> shows m g' -> g_equiv g g'.
Proof. exact @MemSim.shows_fun. Qed.
Print Assumptions C06_shows_unique.

Theorem C06_history : forall k NP EP E mn me (gn : gen k) (l : list (op k NP EP E)),
  drawn_distinct (id_generator (mem_history mn me l (mem_new gn))) ->
  shows (mem_history mn me l (mem_new gn)) (spec_history mn me l g_empty).
Proof. exact @top_history. Qed.
Print Assumptions C06_history.

Example C06_case :
  drawn_distinct (id_generator ex_mem) /\
  iter_vertices ex_mem = [Ok (u 1, 11); Ok (u 2, 223)]%N /\
  iter_edges OSP ex_mem =
    [Ok (tr 2 1 1, 211); Ok (tr 1 5 2, 152); Ok (tr 2 5 2, 252); Ok (tr 1 5 3, 153);
     Ok (tr 1 (2 ^ 64 - 1) (2 ^ 64 - 1), 9)]%N.
Proof. split; [exact ex_mem_distinct | vm_compute; auto]. Qed.

(** ** C07: no hypothesis about the generator. *)
Theorem C07_orders : forall k NP EP E mn me (m : mem k NP EP),
  reachable E mn me m -> exists f, forall o, lists_edges o (iter_edges o m) f.
Proof. exact @top_orders. Qed.
Print Assumptions C07_orders.

Theorem C07_permutation : forall k NP EP E mn me (m : mem k NP EP) o o',
  reachable E mn me m -> Permutation (iter_edges o m) (iter_edges o' m).
Proof. exact @top_orders_perm. Qed.
Print Assumptions C07_permutation.

(** A generator that always returns the same identifier: the two edges share one record. *)
Definition stuck : gen KU64 := Gen (fun _ => u 1) 0.
Example C07_case :
  let m := insert_edge (tr 1 2 3) 6%N (insert_edge (tr 3 1 1) 5%N (mem_new stuck : store)) in
  reachable N mg mg m /\
  iter_edges SPO m = [Ok (tr 1 2 3, 6); Ok (tr 3 1 1, 6)]%N /\
  iter_edges POS m = [Ok (tr 3 1 1, 6); Ok (tr 1 2 3, 6)]%N.
Proof.
  split; [|vm_compute; auto].
  apply (R_op _ _ (OInsertEdge _ _)), (R_op _ _ (OInsertEdge _ _)), R_new.
Qed.

(** ** C08 *)
Theorem C08_insert_node : forall k NP EP E mn me (m : mem k NP EP) g n p,
  reachable E mn me m -> shows m g -> shows (insert_node n p m) (g_put_node n p g).
Proof. exact @shows_insert_node. Qed.
Print Assumptions C08_insert_node.

Theorem C08_insert_edge : forall k NP EP E mn me (m : mem k NP EP) g t e,
  reachable E mn me m -> shows m g -> drawn_distinct (id_generator (insert_edge t e m)) ->
  shows (insert_edge t e m) (g_put_edge t e g).
Proof. exact @shows_insert_edge. Qed.
Print Assumptions C08_insert_edge.

Theorem C08_insert_node_twice : forall k NP EP E mn me (m : mem k NP EP) n p,
  reachable E mn me m -> insert_node n p (insert_node n p m) = insert_node n p m.
Proof. exact @insert_node_twice. Qed.
Print Assumptions C08_insert_node_twice.

Theorem C08_insert_edge_twice : forall k NP EP E mn me (m : mem k NP EP) g t e,
  reachable E mn me m -> shows m g ->
  drawn_distinct (id_generator (insert_edge t e (insert_edge t e m))) ->
  shows (insert_edge t e (insert_edge t e m)) (g_put_edge t e g).
Proof. exact @insert_edge_twice. Qed.
Print Assumptions C08_insert_edge_twice.

Example C08_case :
  drawn_distinct (id_generator (insert_edge (tr 1 5 2) 1%N (insert_edge (tr 1 5 2) 1%N ex_mem))) /\
  iter_edges SPO (insert_edge (tr 1 5 2) 1%N ex_mem) =
    [Ok (tr 1 5 2, 1); Ok (tr 1 5 3, 153); Ok (tr 1 (2 ^ 64 - 1) (2 ^ 64 - 1), 9);
     Ok (tr 2 1 1, 211); Ok (tr 2 5 2, 252)]%N.
Proof. split; [apply drawn_distinct_check; vm_compute; reflexivity | vm_compute; auto]. Qed.

(** ** C09 *)
Theorem C09_remove_node : forall k NP EP E mn me (m : mem k NP EP) g n,
  reachable E mn me m -> drawn_distinct (id_generator m) -> shows m g ->
  shows (remove_node n m) (g_del_node n g).
Proof. exact @shows_remove_node. Qed.
Print Assumptions C09_remove_node.

(** Removing an absent vertex without edges leaves the very same store. *)
Theorem C09_absent : forall k NP EP E mn me (m : mem k NP EP) g n,
  reachable E mn me m -> drawn_distinct (id_generator m) -> shows m g ->
  g_node g n = None -> (forall t, sub t = n \/ obj t = n -> g_edge g t = None) ->
  remove_node n m = m.
Proof. exact @remove_node_noop. Qed.
Print Assumptions C09_absent.

Example C09_case :
  iter_edges SPO (remove_node (u 2) ex_mem) =
    [Ok (tr 1 5 3, 153); Ok (tr 1 (2 ^ 64 - 1) (2 ^ 64 - 1), 9)]%N /\
  iter_vertices (remove_node (u 2) ex_mem) = [Ok (u 1, 11%N)] /\
  iter_edges SPO (remove_node (u 5) ex_mem) = iter_edges SPO ex_mem /\
  edge_props (remove_node (u 5) ex_mem) = edge_props ex_mem.
Proof. vm_compute. auto. Qed.

(** ** C10 *)
Theorem C10_remove_edge : forall k NP EP E mn me (m : mem k NP EP) g t,
  reachable E mn me m -> drawn_distinct (id_generator m) -> shows m g ->
  shows (remove_edge t m) (g_del_edge t g).
Proof. exact @shows_remove_edge. Qed.
Print Assumptions C10_remove_edge.

Theorem C10_absent : forall k NP EP E mn me (m : mem k NP EP) g t,
  reachable E mn me m -> drawn_distinct (id_generator m) -> shows m g ->
  g_edge g t = None -> remove_edge t m = m.
Proof. exact @remove_edge_noop. Qed.
Print Assumptions C10_absent.

(** The next two hold whatever the generator does. *)
Theorem C10_twice : forall k NP EP (m : mem k NP EP) t, remove_edge t (remove_edge t m) = remove_edge t m.
Proof. exact @remove_edge_twice. Qed.
Print Assumptions C10_twice.

Theorem C10_gone : forall k NP EP E mn me (m : mem k NP EP) t e o,
  reachable E mn me m -> ~ In (Ok (t, e)) (iter_edges o (remove_edge t m)).
Proof. exact @remove_edge_unlisted. Qed.
Print Assumptions C10_gone.

(** No query on the store finds the edge either. *)
Theorem C10_queries : forall k NP EP E mn me (m : mem k NP EP) t e gn q o,
  reachable E mn me m -> ~ In (Ok (t, e)) (iter_edges o (run gn q (remove_edge t m))).
Proof. exact @remove_edge_unqueried. Qed.
Print Assumptions C10_queries.

Example C10_case :
  iter_edges POS (remove_edge (tr 1 5 2) ex_mem) =
    [Ok (tr 2 1 1, 211); Ok (tr 2 5 2, 252); Ok (tr 1 5 3, 153);
     Ok (tr 1 (2 ^ 64 - 1) (2 ^ 64 - 1), 9)]%N /\
  iter_edges SPO (remove_edge (tr 2 5 1) ex_mem) = iter_edges SPO ex_mem /\
  edge_props (remove_edge (tr 2 5 1) ex_mem) = edge_props ex_mem.
Proof. vm_compute. auto. Qed.

(** ** C11 *)
Theorem C11_merge_node : forall k NP EP E mn me (m : mem k NP EP) g n p,
  reachable E mn me m -> shows m g -> shows (merge_node mn n p m) (g_merge_node mn n p g).
Proof. exact @shows_merge_node. Qed.
Print Assumptions C11_merge_node.

Theorem C11_merge_edge : forall k NP EP E mn me (m : mem k NP EP) g t e,
  reachable E mn me m -> shows m g -> drawn_distinct (id_generator (merge_edge me t e m)) ->
  shows (merge_edge me t e m) (g_merge_edge me t e g).
Proof. exact @shows_merge_edge. Qed.
Print Assumptions C11_merge_edge.

Example C11_case :
  drawn_distinct (id_generator (merge_edge mg (tr 7 7 7) 4%N (merge_edge mg (tr 1 5 3) 8%N ex_mem))) /\
  iter_edges SPO (merge_edge mg (tr 7 7 7) 4%N (merge_edge mg (tr 1 5 3) 8%N ex_mem)) =
    [Ok (tr 1 5 2, 152); Ok (tr 1 5 3, 1538); Ok (tr 1 (2 ^ 64 - 1) (2 ^ 64 - 1), 9);
     Ok (tr 2 1 1, 211); Ok (tr 2 5 2, 252); Ok (tr 7 7 7, 4)]%N /\
  iter_vertices (merge_node mg (u 1) 5%N ex_mem) = [Ok (u 1, 115); Ok (u 2, 223)]%N.
Proof. split; [apply drawn_distinct_check; vm_compute; reflexivity | vm_compute; auto]. Qed.

(** ** C12 *)
Theorem C12_extend : forall k NP EP E mn me (s : source k NP EP E) (m : mem k NP EP) g,
  reachable E mn me m -> shows m g -> drawn_distinct (id_generator (snd (extend s m))) ->
  fst (extend s m) = (match bulk_error s with Some e => Err (RightE e) | None => Ok tt end) /\
  shows (snd (extend s m)) (g_bulk g_put_node g_put_edge s g).
Proof. exact @extend_spec. Qed.
Print Assumptions C12_extend.

Theorem C12_store : forall k NP EP E mn me (s : source k NP EP E) (m : mem k NP EP) a b,
  reachable E mn me m -> shows m a -> delivers s b ->
  drawn_distinct (id_generator (snd (extend s m))) ->
  fst (extend s m) = Ok tt /\ shows (snd (extend s m)) (g_union a b).
Proof. exact @shows_extend_store. Qed.
Print Assumptions C12_store.

Example C12_case :
  drawn_distinct (id_generator (snd (extend ex_source ex_mem))) /\
  fst (extend ex_source ex_mem) = Err (RightE 404%N) /\
  iter_vertices (snd (extend ex_source ex_mem)) = [Ok (u 1, 11); Ok (u 2, 5); Ok (u 9, 6)]%N /\
  iter_edges SPO (snd (extend ex_source ex_mem)) =
    [Ok (tr 1 5 2, 33); Ok (tr 1 5 3, 153); Ok (tr 1 (2 ^ 64 - 1) (2 ^ 64 - 1), 9);
     Ok (tr 2 1 1, 211); Ok (tr 2 5 2, 252)]%N.
Proof. split; [apply drawn_distinct_check; vm_compute; reflexivity | vm_compute; auto]. Qed.

(** ** C13 *)
Theorem C13_merge : forall k NP EP E mn me (s : source k NP EP E) (m : mem k NP EP) g,
  reachable E mn me m -> shows m g -> drawn_distinct (id_generator (snd (merge mn me s m))) ->
  fst (merge mn me s m) = (match bulk_error s with Some e => Err (RightE e) | None => Ok tt end) /\
  shows (snd (merge mn me s m)) (g_bulk (g_merge_node mn) (g_merge_edge me) s g).
Proof. exact @merge_spec. Qed.
Print Assumptions C13_merge.

Theorem C13_store : forall k NP EP E mn me (s : source k NP EP E) (m : mem k NP EP) a b,
  reachable E mn me m -> shows m a -> delivers s b ->
  drawn_distinct (id_generator (snd (merge mn me s m))) ->
  fst (merge mn me s m) = Ok tt /\ shows (snd (merge mn me s m)) (g_merged mn me a b).
Proof. exact @shows_merge_store. Qed.
Print Assumptions C13_store.

Example C13_case :
  drawn_distinct (id_generator (snd (merge mg mg (mem_source ex_other) ex_mem))) /\
  iter_vertices (snd (merge mg mg (mem_source ex_other) ex_mem)) =
    [Ok (u 1, 11); Ok (u 2, 2307); Ok (u 4, 44)]%N /\
  iter_edges SPO (snd (merge mg mg (mem_source ex_other) ex_mem)) =
    [Ok (tr 1 5 2, 1590); Ok (tr 1 5 3, 153); Ok (tr 1 (2 ^ 64 - 1) (2 ^ 64 - 1), 9);
     Ok (tr 2 1 1, 211); Ok (tr 2 5 2, 252); Ok (tr 4 5 1, 71)]%N.
Proof. split; [apply drawn_distinct_check; vm_compute; reflexivity | vm_compute; auto]. Qed.

(** ** C35, memory store *)
Theorem C35_mem : forall k NP EP E mn me (m : mem k NP EP) o,
  reachable E mn me m -> drawn_distinct (id_generator m) ->
  length (edge_props m) = length (iter_edges o m).
Proof. exact @top_no_leak. Qed.
Print Assumptions C35_mem.

Example C35_mem_case :
  length (edge_props ex_mem) = 5%nat /\ length (edge_props (remove_node (u 2) ex_mem)) = 2%nat.
Proof. vm_compute. auto. Qed.
