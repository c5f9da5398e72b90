(** Concrete stores used by the examples beside the theorems. *)
From Coq Require Import NArith List.
From Verif Require Import Bytes Core IdType Store Mem Spec History MemTop.
Import ListNotations.
Open Scope N_scope.

Definition u (n : N) : Id KU64 := uint_mk 8 n.
Definition tr (s p o : N) : triple (Id KU64) := Triple (u s) (u p) (u o).
(** A counter starting at [n]. *)
Definition counter (n : N) : gen KU64 := Gen (fun i => u (n + N.of_nat i)) 0.
(** A merge that is neither commutative nor associative. *)
Definition mg (a b : N) : N := 10 * a + b.

Notation store := (mem KU64 N N).
Notation exop := (op KU64 N N N).

(** Two vertices, a self loop, an edge to a missing vertex, an edge with the largest
    identifiers, a replaced edge and a merged vertex. *)
Definition ex_ops : list exop :=
  [ OInsertNode (u 1) 11; OInsertNode (u 2) 22; OInsertEdge (tr 1 5 2) 152;
    OInsertEdge (tr 2 5 2) 252; OInsertEdge (tr 1 5 3) 1; OInsertEdge (tr 1 5 3) 153;
    OInsertEdge (tr 1 (2 ^ 64 - 1) (2 ^ 64 - 1)) 9;
    OMergeNode (u 2) 3; OInsertEdge (tr 2 1 1) 211 ].

Definition ex_mem : store := mem_history mg mg ex_ops (mem_new (counter 100)).
Definition other_ops : list exop :=
  [ OInsertNode (u 2) 77; OInsertNode (u 4) 44; OInsertEdge (tr 1 5 2) 70; OInsertEdge (tr 4 5 1) 71 ].
Definition ex_other : store := mem_history mg mg other_ops (mem_new (counter 7)).

Lemma ex_mem_reachable : reachable N mg mg ex_mem.
Proof. apply reachable_history, R_new. Qed.
Lemma ex_other_reachable : reachable N mg mg ex_other.
Proof. apply reachable_history, R_new. Qed.
Lemma ex_mem_distinct : drawn_distinct (id_generator ex_mem).
Proof. apply drawn_distinct_check. vm_compute. reflexivity. Qed.
Lemma ex_other_distinct : drawn_distinct (id_generator ex_other).
Proof. apply drawn_distinct_check. vm_compute. reflexivity. Qed.

(** A source that fails after one vertex and one edge. *)
Definition ex_source : source KU64 N N N :=
  Source [Ok (u 2, 5); Ok (u 9, 6)] [Ok (tr 1 5 2, 33); Err 404; Ok (tr 8 8 8, 1)].

(** The store in a result, without normalising it. *)
Definition is_ok {F A} (x : result F A) : bool := match x with Ok _ => true | Err _ => false end.
Definition result_of {F A} (d : A) (x : result F A) : A := match x with Ok a => a | Err _ => d end.
Lemma ok_result {F A} (d : A) (x : result F A) : is_ok x = true -> x = Ok (result_of d x).
Proof. destruct x; [reflexivity | discriminate]. Qed.
