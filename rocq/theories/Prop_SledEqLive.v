(** C79: try_eq of a memory store and a sled store that others are writing to. *)
From Coq Require Import Arith NArith List Sorted.
From Verif Require Import Bytes OMap Core IdType IdTypeFacts Store Mem Spec History MemTop Prog Sled SledHistory SledTables
  SledLeaf SledLazy SledBeside SledCopy SledSetLive SledEqLive SledEqLiveFacts SledEqLiveTop Ex ExSled Prop_SledReader Prop_SledCopy.
Import ListNotations.

(** ** C79.  Any number of other callers are using the sled store, which has been through any number of earlier
    lives; the storage steps of all of them in any order, any of them failing, the leaves of the trees
    ending anywhere.

    [Ok true]: every vertex and edge of the memory store was in the sled store at some moment with equal
    properties, and whatever the memory store does not have was missing in the sled store at some moment.
    [Ok false]: some vertex or edge was at some moment in one store only, or had properties that differ.
    Otherwise a storage failure was met, or MissingPropertyData because another caller rewrites an edge,
    and that is reported, or [Ok false] is answered when the memory store had no more items. *)
Theorem C79_mem : forall k NP EP SE BE E (cn : codec BE NP) (ce : codec BE EP) mn me (neqb : NP -> NP -> bool) (eeqb : EP -> EP -> bool)
    (ls : list (life (k := k) (NP := NP) (EP := EP) (SE := SE) (E := E)))
    (cs : list (handle k * list (op k NP EP E))) (wcuts : nat -> nat -> cutting) (cuts cuts' : list bytes)
    (schedule : list (nat * option SE)) (m : mem k NP EP) g a,
  codec_ok cn -> codec_ok ce -> NoDup (life_keys ls ++ session_keys cs) ->
  let d := lives cn ce mn me ls db_new in
  let ps := beside (mem_eq_live cn ce neqb eeqb cuts cuts' m) (l_callers cn ce mn me wcuts 0 cs) in
  has_read a (fst (interleave schedule ps d)) ->
  reachable (sled_error SE BE) mn me m -> shows m g ->
  (exists x, (a = Err (RightE x) \/ a = Ok false) /\
     ((exists y, met schedule y /\ x = SledError y) \/ (x = MissingPropertyData /\ exists t, rewritten cs t))) \/
  (a = Ok true /\
    (forall i p, g_node g i = Some p -> exists q, node_was cn schedule ps d i q /\ neqb p q = true) /\
    (forall i, g_node g i = None -> node_missing cn schedule ps d i) /\
    (forall t e, g_edge g t = Some e -> exists q, edge_was ce schedule ps d t q /\ eeqb e q = true) /\
    (forall t, g_edge g t = None -> edge_missing ce schedule ps d t)) \/
  (a = Ok false /\
    ((exists i p, g_node g i = Some p /\
        (node_missing cn schedule ps d i \/ exists q, node_was cn schedule ps d i q /\ neqb p q = false)) \/
     (exists i q, g_node g i = None /\ node_was cn schedule ps d i q) \/
     (exists t e, g_edge g t = Some e /\
        (edge_missing ce schedule ps d t \/ exists q, edge_was ce schedule ps d t q /\ eeqb e q = false)) \/
     (exists t q, g_edge g t = None /\ edge_was ce schedule ps d t q))).
Proof. exact @mem_eq_beside. Qed.
Print Assumptions C79_mem.

(** The sled store is [self]: the comparisons and the error have changed sides. *)
Theorem C79_sled : forall k NP EP SE BE E (cn : codec BE NP) (ce : codec BE EP) mn me (neqb : NP -> NP -> bool) (eeqb : EP -> EP -> bool)
    (ls : list (life (k := k) (NP := NP) (EP := EP) (SE := SE) (E := E)))
    (cs : list (handle k * list (op k NP EP E))) (wcuts : nat -> nat -> cutting) (cuts cuts' : list bytes)
    (schedule : list (nat * option SE)) (m : mem k NP EP) g a,
  codec_ok cn -> codec_ok ce -> NoDup (life_keys ls ++ session_keys cs) ->
  let d := lives cn ce mn me ls db_new in
  let ps := beside (sled_eq_live cn ce neqb eeqb cuts cuts' m) (l_callers cn ce mn me wcuts 0 cs) in
  has_read a (fst (interleave schedule ps d)) ->
  reachable (sled_error SE BE) mn me m -> shows m g ->
  (exists x, (a = Err (LeftE x) \/ a = Ok false) /\
     ((exists y, met schedule y /\ x = SledError y) \/ (x = MissingPropertyData /\ exists t, rewritten cs t))) \/
  (a = Ok true /\
    (forall i p, g_node g i = Some p -> exists q, node_was cn schedule ps d i q /\ neqb q p = true) /\
    (forall i, g_node g i = None -> node_missing cn schedule ps d i) /\
    (forall t e, g_edge g t = Some e -> exists q, edge_was ce schedule ps d t q /\ eeqb q e = true) /\
    (forall t, g_edge g t = None -> edge_missing ce schedule ps d t)) \/
  (a = Ok false /\
    ((exists i p, g_node g i = Some p /\
        (node_missing cn schedule ps d i \/ exists q, node_was cn schedule ps d i q /\ neqb q p = false)) \/
     (exists i q, g_node g i = None /\ node_was cn schedule ps d i q) \/
     (exists t e, g_edge g t = Some e /\
        (edge_missing ce schedule ps d t \/ exists q, edge_was ce schedule ps d t q /\ eeqb q e = false)) \/
     (exists t q, g_edge g t = None /\ edge_was ce schedule ps d t q))).
Proof. exact @sled_eq_beside. Qed.
Print Assumptions C79_sled.

(** The loop, on items that are read beforehand, is the one of C23. *)
Theorem C79_loop : forall A R (eqb : A -> A -> bool) (xs : list (result R A)) ls,
  zip_longest_eq (L := unit) eqb (map Ok ls) xs =
  match same_items (feed (EL := unit) (ER := R) (same_item eqb) xs ls) with Ok b => Ok b | Err e => Err (RightE e) end.
Proof. exact @same_items_zip. Qed.
Print Assumptions C79_loop.

(** ** Examples *)
Definition equal_to : mem KU64 N N := mem_history (E := N) mg mg
  [OInsertNode (u 2) 2; OInsertNode (u 1) 1; OInsertEdge (tr 1 5 2) 12; OInsertEdge (tr 2 5 3) 23; OInsertEdge (tr 7 5 1) 71]%N (mem_new (counter 0)).
Definition eq_live_case (m : mem KU64 N N) schedule := nth_error (fst (interleave schedule
  (next_to (mem_eq_live (SE := N) (BE := N) nc nc N.eqb N.eqb [to_be_bytes (k := KU64) (u 2)] [cut] m) new_vertex) start_db)) 0.
Definition eq_live_case' (m : mem KU64 N N) schedule := nth_error (fst (interleave schedule
  (next_to (sled_eq_live (SE := N) (BE := N) nc nc N.eqb N.eqb [to_be_bytes (k := KU64) (u 2)] [cut] m) new_vertex) start_db)) 0.
Definition all_after : list nat := (List.repeat 0 30 ++ List.repeat 1 20)%nat.
(** A vertex and an edge from it are inserted between the vertices and the edges, or afterwards. *)
Example C79_case :
  NoDup (life_keys start_life ++ session_keys [(hd2, new_vertex)]) /\
  eq_live_case equal_to (steps nodes_first) = Some (Ret (inl (Ok true))) /\
  eq_live_case equal_to (steps all_after) = Some (Ret (inl (Ok false))) /\
  eq_live_case (remove_edge (tr 7 5 1) equal_to) (steps all_after) = Some (Ret (inl (Ok true))) /\
  eq_live_case' equal_to (steps nodes_first) = Some (Ret (inl (Ok true))).
Proof. split; [apply nodupb_ok; vm_compute; reflexivity|]. vm_compute. auto. Qed.

(** A failure is reported, on the side of the sled store; but not when the memory store has no more vertices. *)
Example C79_errors_case :
  let schedule := steps (List.repeat 0 3)%nat ++ [(0%nat, Some 13%N)] ++ steps all_after in
  eq_live_case equal_to schedule = Some (Ret (inl (Err (RightE (SledError 13%N))))) /\
  eq_live_case' equal_to schedule = Some (Ret (inl (Err (LeftE (SledError 13%N))))) /\
  eq_live_case (insert_node (u 1) 1%N (mem_new (counter 0))) schedule = Some (Ret (inl (Ok false))).
Proof. vm_compute. auto. Qed.

(** ** [Ok true] does not say that the stores were equal at any moment. *)
Theorem C79_moment_refuted : exists (m : mem KU64 N N) (l : list exop) (schedule : list (nat * option N)),
  let ps := next_to (mem_eq_live (SE := N) (BE := N) nc nc N.eqb N.eqb [to_be_bytes (k := KU64) (u 2)] [cut] m) l in
  NoDup (life_keys start_life ++ session_keys [(hd2, l)]) /\ Forall adds_only l /\
  has_read (Ok true) (fst (interleave schedule ps start_db)) /\
  forall d1, during schedule ps start_db d1 ->
    try_eq id_eqb N.eqb N.eqb (iter_vertices m) (iter_edges SPO m)
      (now N (s_iter_vertices (BE := N) nc) d1) (now N (s_iter_edges (BE := N) nc SPO) d1) = Ok false.
Proof.
  exists equal_to, new_vertex, (steps nodes_first). cbv zeta.
  split; [apply nodupb_ok; vm_compute; reflexivity|]. split; [repeat constructor|]. split; [vm_compute; reflexivity|].
  apply (check_during (fun d1 => try_eq id_eqb N.eqb N.eqb (iter_vertices equal_to) (iter_edges SPO equal_to)
      (now N (s_iter_vertices (BE := N) nc) d1) (now N (s_iter_edges (BE := N) nc SPO) d1)) (fun x => x = Ok false)). run_through.
  repeat (apply Forall_cons || apply Forall_nil); reflexivity.
Qed.
Print Assumptions C79_moment_refuted.
