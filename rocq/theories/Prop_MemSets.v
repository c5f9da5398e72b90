(** C14 - C16: union, intersection and difference of stores.
    [delivers s b]: the other store, consumed by into_iter_nodes(SPO), lists graph [b]. *)
From Coq Require Import NArith List.
From Verif Require Import Bytes Core IdType IdTypeFacts Store Mem Spec History MemSetFacts MemTop Ex MemCases.
Import ListNotations.

(** ** C14 *)
Theorem C14_union : forall k NP EP E mn me gn (s : source k NP EP E) (m : mem k NP EP) a b,
  reachable E mn me m -> shows m a -> delivers s b ->
  exists r, union gn s m = Ok r /\ (drawn_distinct (id_generator r) -> shows r (g_union a b)).
Proof. exact @shows_union. Qed.
Print Assumptions C14_union.

(** If the other store fails, union reports its first error as Right. *)
Theorem C14_errors : forall k NP EP E gn (s : source k NP EP E) (m : mem k NP EP),
  match bulk_error s with
  | Some e => union gn s m = Err (SetRight e)
  | None => exists r, union gn s m = Ok r
  end.
Proof. exact @union_errors. Qed.
Print Assumptions C14_errors.

(** Another memory store as right operand delivers the graph it shows. *)
Theorem C14_mem_operand : forall k NP EP E mn me (m : mem k NP EP) g,
  reachable E mn me m -> shows m g -> delivers (mem_source m) g.
Proof. exact @mem_source_shows. Qed.
Print Assumptions C14_mem_operand.

Definition ex_union := result_of ex_mem (union (counter 50) (mem_source ex_other) ex_mem).
Definition ex_inter := result_of ex_mem (intersection (counter 50) (mem_source ex_other) ex_mem).
Definition ex_diff := result_of ex_mem (difference (counter 50) (mem_source ex_other) ex_mem).

Example C14_case :
  union (counter 50) (mem_source ex_other) ex_mem = Ok ex_union /\
  drawn_distinct (id_generator ex_union) /\
  iter_vertices ex_union = [Ok (u 1, 11); Ok (u 2, 77); Ok (u 4, 44)]%N /\
  iter_edges SPO ex_union =
    [Ok (tr 1 5 2, 70); Ok (tr 1 5 3, 153); Ok (tr 1 (2 ^ 64 - 1) (2 ^ 64 - 1), 9);
     Ok (tr 2 1 1, 211); Ok (tr 2 5 2, 252); Ok (tr 4 5 1, 71)]%N.
Proof.
  split; [apply ok_result; vm_compute; reflexivity|]. split; [apply drawn_distinct_check|]; vm_compute; auto.
Qed.

(** ** C15 *)
Theorem C15_intersection : forall k NP EP E mn me gn (s : source k NP EP E) (m : mem k NP EP) a b,
  reachable E mn me m -> shows m a -> delivers s b ->
  exists r, intersection gn s m = Ok r /\ (drawn_distinct (id_generator r) -> shows r (g_inter a b)).
Proof. exact @shows_intersection. Qed.
Print Assumptions C15_intersection.

Theorem C15_errors : forall k NP EP E gn (s : source k NP EP E) (m : mem k NP EP) e,
  intersection gn s m = Err e ->
  exists e', e = SetRight e' /\ (In (Err e') (src_nodes s) \/ In (Err e') (src_edges s)).
Proof. exact @intersection_err. Qed.
Print Assumptions C15_errors.

Example C15_case :
  intersection (counter 50) (mem_source ex_other) ex_mem = Ok ex_inter /\
  drawn_distinct (id_generator ex_inter) /\
  iter_vertices ex_inter = [Ok (u 2, 223%N)] /\ iter_edges SPO ex_inter = [Ok (tr 1 5 2, 152%N)].
Proof.
  split; [apply ok_result; vm_compute; reflexivity|]. split; [apply drawn_distinct_check|]; vm_compute; auto.
Qed.

(** ** C16 is false of the code.
    The result keeps an edge of a vertex that was subtracted: after the last edge of the
    other store the remaining edges are copied without looking at [removed_nodes]. *)

Theorem C16_refuted : exists (a b r : store) t e,
  reachable N mg mg a /\ reachable N mg mg b /\
  drawn_distinct (id_generator a) /\ drawn_distinct (id_generator b) /\ drawn_distinct (id_generator r) /\
  difference (counter 50) (mem_source b) a = Ok r /\
  In (Ok (t, e)) (iter_edges SPO r) /\
  (exists p, In (Ok (sub t, p)) (iter_vertices b)) /\ (forall p, ~ In (Ok (sub t, p)) (iter_vertices r)).
Proof. exact difference_keeps_dangling_edge. Qed.
Print Assumptions C16_refuted.

(** Nor is it plain set difference: an edge only the first store has is dropped. *)
Theorem C16_plain_refuted : exists (a b r : store) t e,
  reachable N mg mg a /\ reachable N mg mg b /\
  drawn_distinct (id_generator a) /\ drawn_distinct (id_generator b) /\ drawn_distinct (id_generator r) /\
  difference (counter 50) (mem_source b) a = Ok r /\
  In (Ok (t, e)) (iter_edges SPO a) /\
  (forall e', ~ In (Ok (t, e')) (iter_edges SPO b)) /\ (forall e', ~ In (Ok (t, e')) (iter_edges SPO r)).
Proof. exact difference_drops_edge. Qed.
Print Assumptions C16_plain_refuted.

(** What it does compute.  Vertices: exact set difference.  Edges: those of [a] not in [b]
    which either come after every edge of [b], or touch no vertex of [b] that is at most the
    largest vertex of [a].
    Missing for C16: the edges of the first kind that touch a vertex of [b]. *)
Theorem C16_exact_partial : forall k NP EP E mn me gn (s : source k NP EP E) (m : mem k NP EP) a b,
  reachable E mn me m -> shows m a -> delivers s b ->
  exists r, difference gn s m = Ok r /\
    (drawn_distinct (id_generator r) ->
     exists c, shows r c /\
       (forall i, g_node c i = g_minus_nodes a b i) /\
       (forall t e, g_edge c t = Some e <->
          g_edge a t = Some e /\ g_edge b t = None /\
          let hidden i := g_node b i <> None /\ exists j, g_node a j <> None /\ (i = j \/ id_lt i j) in
          ((forall v, g_edge b v <> None -> edge_lt SPO v t) \/ (~ hidden (sub t) /\ ~ hidden (obj t))))).
Proof. exact @shows_difference. Qed.
Print Assumptions C16_exact_partial.

Theorem C16_errors : forall k NP EP E gn (s : source k NP EP E) (m : mem k NP EP) e,
  difference gn s m = Err e ->
  exists e', e = SetRight e' /\ (In (Err e') (src_nodes s) \/ In (Err e') (src_edges s)).
Proof. exact @difference_err. Qed.
Print Assumptions C16_errors.

(** When the two stores have no vertex in common and no edge of [a] touches a vertex of
    [b], difference is set difference on edges as well. *)
Theorem C16_untouched_partial : forall k NP EP E mn me gn (s : source k NP EP E) (m : mem k NP EP) a b,
  reachable E mn me m -> shows m a -> delivers s b ->
  (forall t, g_edge a t <> None -> g_node b (sub t) = None /\ g_node b (obj t) = None) ->
  exists r, difference gn s m = Ok r /\
    (drawn_distinct (id_generator r) ->
     shows r (Graph (g_minus_nodes a b)
                    (fun t => match g_edge b t with Some _ => None | None => g_edge a t end))).
Proof. exact @difference_untouched. Qed.
Print Assumptions C16_untouched_partial.

Example C16_case :
  difference (counter 50) (mem_source ex_other) ex_mem = Ok ex_diff /\
  iter_vertices ex_diff = [Ok (u 1, 11%N)] /\
  iter_edges SPO ex_diff =
    [Ok (tr 1 5 3, 153); Ok (tr 1 (2 ^ 64 - 1) (2 ^ 64 - 1), 9)]%N.
Proof. split; [apply ok_result; vm_compute; reflexivity|]. vm_compute. auto. Qed.

Definition ex_apart : store :=
  mem_history mg mg ([OInsertNode (u 6) 1; OInsertEdge (tr 2 5 2) 1] : list exop)%N (mem_new (counter 9)).
Example C16_untouched_case :
  option_map (iter_edges SPO)
    (match difference (counter 50) (mem_source ex_apart) ex_mem with Ok r => Some r | Err _ => None end) =
  Some [Ok (tr 1 5 2, 152); Ok (tr 1 5 3, 153); Ok (tr 1 (2 ^ 64 - 1) (2 ^ 64 - 1), 9);
        Ok (tr 2 1 1, 211)]%N.
Proof. vm_compute. reflexivity. Qed.
