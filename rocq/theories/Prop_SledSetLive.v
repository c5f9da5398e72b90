(** C77: union, intersection and difference of a memory store with a sled store that others are writing to. *)
From Coq Require Import Arith NArith List Sorted.
From Verif Require Import Bytes OMap Core IdType IdTypeFacts Store Mem Spec History MemTop Prog Sled SledHistory SledTables
  SledLeaf SledLazy SledBeside SledCopy SledSetLive SledSetLiveTop Ex ExSled Prop_SledReader.
Import ListNotations.

(** ** C77.  [self] is any memory store, [other] a handle on a database that has been through any number of
    earlier lives and that any number of other callers are using.

    An operation fails only with a storage failure that it met or, when one of the other callers rewrites
    an edge, with MissingPropertyData, as an error of [other].  Otherwise its result is right for each
    vertex and each edge at some moment during the call.

    Union: what the result has was in [other] at some moment with these properties, or is from [self]
    and was missing in [other] at some moment; what it does not have is not in [self] and was missing
    in [other] at some moment. *)
Theorem C77_union : forall k NP EP SE BE E (cn : codec BE NP) (ce : codec BE EP) mn me
    (ls : list (life (k := k) (NP := NP) (EP := EP) (SE := SE) (E := E)))
    (cs : list (handle k * list (op k NP EP E))) (wcuts : nat -> nat -> cutting) (cuts cuts' : list bytes)
    (schedule : list (nat * option SE)) gn (m : mem k NP EP) g (a : result (set_error unit (sled_error SE BE) unit) (mem k NP EP)),
  codec_ok cn -> codec_ok ce -> NoDup (life_keys ls ++ session_keys cs) ->
  let d := lives cn ce mn me ls db_new in
  let ps := beside (union_live cn ce gn cuts cuts' m) (l_callers cn ce mn me wcuts 0 cs) in
  has_read a (fst (interleave schedule ps d)) ->
  reachable (sled_error SE BE) mn me m -> shows m g ->
  (exists x, a = Err (SetRight x) /\ ((exists y, met schedule y /\ x = SledError y) \/ (x = MissingPropertyData /\ exists t, rewritten cs t))) \/
  exists r, a = Ok r /\ (drawn_distinct (id_generator r) -> exists c, shows r c /\
    (forall i p, g_node c i = Some p -> node_was cn schedule ps d i p \/ (g_node g i = Some p /\ node_missing cn schedule ps d i)) /\
    (forall i, g_node c i = None -> g_node g i = None /\ node_missing cn schedule ps d i) /\
    (forall t e, g_edge c t = Some e -> edge_was ce schedule ps d t e \/ (g_edge g t = Some e /\ edge_missing ce schedule ps d t)) /\
    (forall t, g_edge c t = None -> g_edge g t = None /\ edge_missing ce schedule ps d t)).
Proof. exact @union_beside. Qed.
Print Assumptions C77_union.

(** Intersection: what the result has is from [self], with the properties there, and was in [other] at some
    moment; what it lacks of [self] was missing in [other] at some moment. *)
Theorem C77_intersection : forall k NP EP SE BE E (cn : codec BE NP) (ce : codec BE EP) mn me
    (ls : list (life (k := k) (NP := NP) (EP := EP) (SE := SE) (E := E)))
    (cs : list (handle k * list (op k NP EP E))) (wcuts : nat -> nat -> cutting) (cuts cuts' : list bytes)
    (schedule : list (nat * option SE)) gn (m : mem k NP EP) g (a : result (set_error unit (sled_error SE BE) unit) (mem k NP EP)),
  codec_ok cn -> codec_ok ce -> NoDup (life_keys ls ++ session_keys cs) ->
  let d := lives cn ce mn me ls db_new in
  let ps := beside (intersection_live cn ce gn cuts cuts' m) (l_callers cn ce mn me wcuts 0 cs) in
  has_read a (fst (interleave schedule ps d)) ->
  reachable (sled_error SE BE) mn me m -> shows m g ->
  (exists x, a = Err (SetRight x) /\ ((exists y, met schedule y /\ x = SledError y) \/ (x = MissingPropertyData /\ exists t, rewritten cs t))) \/
  exists r, a = Ok r /\ (drawn_distinct (id_generator r) -> exists c, shows r c /\
    (forall i p, g_node c i = Some p -> g_node g i = Some p /\ exists q, node_was cn schedule ps d i q) /\
    (forall i, g_node g i <> None -> g_node c i = None -> node_missing cn schedule ps d i) /\
    (forall t e, g_edge c t = Some e -> g_edge g t = Some e /\ exists q, edge_was ce schedule ps d t q) /\
    (forall t, g_edge g t <> None -> g_edge c t = None -> edge_missing ce schedule ps d t)).
Proof. exact @intersection_beside. Qed.
Print Assumptions C77_intersection.

(** Difference, which is not set difference on edges (C16): what the result has is from [self] and was
    missing in [other] at some moment.  If an end of an edge of the result is at most the largest vertex of
    [self], it was missing in [other] at some moment, or each edge after this one was.  A vertex it lacks of
    [self] was in [other] at some moment; an edge it lacks was in [other] at some moment, or one of its ends
    was, and an edge after it. *)
Theorem C77_difference : forall k NP EP SE BE E (cn : codec BE NP) (ce : codec BE EP) mn me
    (ls : list (life (k := k) (NP := NP) (EP := EP) (SE := SE) (E := E)))
    (cs : list (handle k * list (op k NP EP E))) (wcuts : nat -> nat -> cutting) (cuts cuts' : list bytes)
    (schedule : list (nat * option SE)) gn (m : mem k NP EP) g (a : result (set_error unit (sled_error SE BE) unit) (mem k NP EP)),
  codec_ok cn -> codec_ok ce -> NoDup (life_keys ls ++ session_keys cs) ->
  let d := lives cn ce mn me ls db_new in
  let ps := beside (difference_live cn ce gn cuts cuts' m) (l_callers cn ce mn me wcuts 0 cs) in
  has_read a (fst (interleave schedule ps d)) ->
  reachable (sled_error SE BE) mn me m -> shows m g ->
  (exists x, a = Err (SetRight x) /\ ((exists y, met schedule y /\ x = SledError y) \/ (x = MissingPropertyData /\ exists t, rewritten cs t))) \/
  exists r, a = Ok r /\ (drawn_distinct (id_generator r) -> exists c, shows r c /\
    (forall i p, g_node c i = Some p -> g_node g i = Some p /\ node_missing cn schedule ps d i) /\
    (forall i, g_node g i <> None -> g_node c i = None -> exists q, node_was cn schedule ps d i q) /\
    (forall t e, g_edge c t = Some e -> g_edge g t = Some e /\ edge_missing ce schedule ps d t /\
       forall v, v = sub t \/ v = obj t -> (exists j, g_node g j <> None /\ (v = j \/ id_lt v j)) ->
         node_missing cn schedule ps d v \/ forall u, edge_lt SPO t u -> edge_missing ce schedule ps d u) /\
    (forall t, g_edge g t <> None -> g_edge c t = None -> (exists q, edge_was ce schedule ps d t q) \/
       exists v q u e, (v = sub t \/ v = obj t) /\ (exists j, g_node g j <> None /\ (v = j \/ id_lt v j)) /\
         node_was cn schedule ps d v q /\ edge_lt SPO t u /\ edge_was ce schedule ps d u e)).
Proof. exact @difference_beside. Qed.
Print Assumptions C77_difference.

(** ** Examples *)
Definition made {A B : Type} (p : option (prog db N (result A (mem KU64 N N) + B))) :
    option (result A (list (result unit (Id KU64 * N)) * list (result unit (triple (Id KU64) * N)))) :=
  match p with
  | Some (Ret (inl (Ok m))) => Some (Ok (iter_vertices m, iter_edges SPO m))
  | Some (Ret (inl (Err e))) => Some (Err e)
  | _ => None
  end.
Definition mine : mem KU64 N N := mem_history (E := N) mg mg
  [OInsertNode (u 2) 20; OInsertNode (u 7) 70; OInsertNode (u 8) 80;
   OInsertEdge (tr 1 5 2) 120; OInsertEdge (tr 7 5 1) 710; OInsertEdge (tr 8 5 8) 880]%N (mem_new (counter 0)).
Definition ncut : bytes := to_be_bytes (k := KU64) (u 2).
Definition set_case (p : prog db N (result (set_error unit (sled_error N N) unit) (mem KU64 N N))) l schedule :=
  made (nth_error (fst (interleave schedule (next_to p l) start_db)) 0).
Definition later_edges : list nat := (List.repeat 0 6 ++ List.repeat 1 20 ++ List.repeat 0 20)%nat.
Definition newcomer : list exop := [OInsertNode (u 7) 7; OInsertEdge (tr 7 5 1) 71]%N.

(** Another caller inserts a vertex and an edge after the vertices have been read. *)
Example C77_case :
  NoDup (life_keys start_life ++ session_keys [(hd2, newcomer)]) /\
  set_case (union_live nc nc (counter 50) [ncut] [cut] mine) newcomer (steps later_edges) =
    Some (Ok ([Ok (u 1, 1); Ok (u 2, 2); Ok (u 7, 70); Ok (u 8, 80)],
      [Ok (tr 1 5 2, 12); Ok (tr 2 5 3, 23); Ok (tr 7 5 1, 71); Ok (tr 8 5 8, 880)]))%N /\
  set_case (intersection_live nc nc (counter 50) [ncut] [cut] mine) newcomer (steps later_edges) =
    Some (Ok ([Ok (u 2, 20)], [Ok (tr 1 5 2, 120); Ok (tr 7 5 1, 710)]))%N /\
  set_case (difference_live nc nc (counter 50) [ncut] [cut] mine) newcomer (steps later_edges) =
    Some (Ok ([Ok (u 7, 70); Ok (u 8, 80)], [Ok (tr 8 5 8, 880)]))%N.
Proof. split; [apply nodupb_ok; vm_compute; reflexivity|]. vm_compute. auto. Qed.

(** A storage failure stops the operation; an edge that is removed while it is read stops it as well.  No
    further items are asked for after the last one of [self]: a failure would come too late. *)
Definition few : mem KU64 N N := mem_history (E := N) mg mg [OInsertNode (u 1) 10]%N (mem_new (counter 0)).
Example C77_errors_case :
  set_case (difference_live nc nc (counter 50) [ncut] [cut] mine) newcomer (steps (List.repeat 0 3)%nat ++ [(0%nat, Some 13%N)] ++ steps later_edges) =
    Some (Err (SetRight (SledError 13)))%N /\
  set_case (intersection_live nc nc (counter 50) [ncut] [cut] mine) busy (steps ([0; 0; 0; 0; 0] ++ List.repeat 1 20 ++ List.repeat 0 20)%nat) =
    Some (Err (SetRight MissingPropertyData)) /\
  set_case (intersection_live nc nc (counter 50) [ncut] [cut] few) newcomer (steps (List.repeat 0 7)%nat ++ [(0%nat, Some 13%N)] ++ steps later_edges) =
    Some (Ok ([Ok (u 1, 10)], []))%N.
Proof. vm_compute. auto. Qed.

(** ** The result is not right for all at one moment.  The other caller inserts a vertex and then an edge from
    it; the intersection has the edge without the vertex, though [self] has both. *)
Theorem C77_snapshot_refuted : exists (l : list exop) (schedule : list (nat * option N)) i t p q e,
  let ps := next_to (intersection_live (SE := N) (BE := N) nc nc (counter 50) [ncut] [cut] mine) l in
  NoDup (life_keys start_life ++ session_keys [(hd2, l)]) /\ Forall adds_only l /\
  (exists ns es, made (nth_error (fst (interleave schedule ps start_db)) 0) = Some (Ok (ns, es)) /\
     In t (map fst (ok_items es)) /\ ~ In i (map fst (ok_items ns))) /\
  In (Ok (i, p)) (iter_vertices mine) /\
  (forall d1, during schedule ps start_db d1 -> lists_edge N nc SPO d1 t e -> lists_node N nc d1 i q).
Proof.
  exists newcomer, (steps later_edges), (u 7), (tr 7 5 1), 70%N, 7%N, 71%N. cbv zeta.
  split; [apply nodupb_ok; vm_compute; reflexivity|]. split; [repeat constructor|]. split; [|split].
  - exists [Ok (u 2, 20%N)], [Ok (tr 1 5 2, 120%N); Ok (tr 7 5 1, 710%N)].
    split; [vm_compute; reflexivity|]. split; [right; left; reflexivity|].
    intros [H|[]]; discriminate.
  - right. left. reflexivity.
  - apply (check_during (fun d1 => (edges_alone SPO d1, now N (s_iter_vertices (k := KU64) (BE := N) nc) d1))
      (fun x => In (Ok (tr 7 5 1, 71%N)) (fst x) -> In (Ok (u 7, 7%N)) (snd x))). run_through.
    repeat (apply Forall_cons || apply Forall_nil); cbn [fst snd]; intros H;
      first [right; right; left; reflexivity | destruct H as [H|[H|[]]]; discriminate].
Qed.
Print Assumptions C77_snapshot_refuted.
