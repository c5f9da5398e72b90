(** Concrete stores on which properties of the memory store fail. *)
From Coq Require Import NArith List.
From Verif Require Import Bytes Core IdType IdTypeFacts Store Mem Spec History MemSim MemSetFacts MemTop Ex.
Import ListNotations.

Lemma hist_reachable (l : list exop) n : reachable N mg mg (mem_history mg mg l (mem_new (counter n)) : store).
Proof. apply reachable_history, R_new. Qed.

Ltac not_listed := intros; vm_compute; intros H; repeat destruct H as [H|H]; try discriminate H; auto.
Ltac distinct := apply drawn_distinct_check; vm_compute; reflexivity.

Definition dang_a : store :=
  mem_history mg mg ([OInsertNode (u 1) 1; OInsertNode (u 2) 2; OInsertEdge (tr 1 5 2) 3] : list exop)%N
    (mem_new (counter 0)).
Definition dang_b : store := mem_history mg mg ([OInsertNode (u 1) 1] : list exop)%N (mem_new (counter 9)).
Definition drop_b : store :=
  mem_history mg mg ([OInsertNode (u 1) 1; OInsertEdge (tr 5 5 5) 1] : list exop)%N (mem_new (counter 9)).
Definition diff_of (a b : store) : store :=
  result_of a (difference (counter 50) (mem_source b) a).

Lemma difference_keeps_dangling_edge : exists (a b r : store) t e,
  reachable N mg mg a /\ reachable N mg mg b /\
  drawn_distinct (id_generator a) /\ drawn_distinct (id_generator b) /\ drawn_distinct (id_generator r) /\
  difference (counter 50) (mem_source b) a = Ok r /\
  In (Ok (t, e)) (iter_edges SPO r) /\
  (exists p, In (Ok (sub t, p)) (iter_vertices b)) /\ (forall p, ~ In (Ok (sub t, p)) (iter_vertices r)).
Proof.
  exists dang_a, dang_b, (diff_of dang_a dang_b), (tr 1 5 2), 3%N.
  split; [apply hist_reachable|]. split; [apply hist_reachable|].
  split; [distinct|]. split; [distinct|]. split; [distinct|].
  split; [apply ok_result; vm_compute; reflexivity|]. split; [vm_compute; auto|].
  split; [exists 1%N; vm_compute; auto|]. not_listed.
Qed.

Lemma difference_drops_edge : exists (a b r : store) t e,
  reachable N mg mg a /\ reachable N mg mg b /\
  drawn_distinct (id_generator a) /\ drawn_distinct (id_generator b) /\ drawn_distinct (id_generator r) /\
  difference (counter 50) (mem_source b) a = Ok r /\
  In (Ok (t, e)) (iter_edges SPO a) /\
  (forall e', ~ In (Ok (t, e')) (iter_edges SPO b)) /\ (forall e', ~ In (Ok (t, e')) (iter_edges SPO r)).
Proof.
  exists dang_a, drop_b, (diff_of dang_a drop_b), (tr 1 5 2), 3%N.
  split; [apply hist_reachable|]. split; [apply hist_reachable|].
  split; [distinct|]. split; [distinct|]. split; [distinct|].
  split; [apply ok_result; vm_compute; reflexivity|]. split; [vm_compute; auto|].
  split; not_listed.
Qed.

Lemma mem_eq_ignores_edges : exists (a b : store) t e,
  reachable N mg mg a /\ reachable N mg mg b /\
  drawn_distinct (id_generator a) /\ drawn_distinct (id_generator b) /\
  mem_eq N.eqb N.eqb a b = true /\ mem_eq N.eqb N.eqb b a = true /\
  In (Ok (t, e)) (iter_edges SPO a) /\ (forall e', ~ In (Ok (t, e')) (iter_edges SPO b)).
Proof.
  exists (insert_edge (tr 1 2 3) 4%N (mem_new (counter 0))), (mem_new (counter 0)), (tr 1 2 3), 4%N.
  split; [apply (R_op _ _ (OInsertEdge _ _)), R_new|]. split; [apply R_new|].
  split; [distinct|]. split; [distinct|].
  split; [vm_compute; reflexivity|]. split; [vm_compute; reflexivity|]. split; [vm_compute; auto|].
  not_listed.
Qed.
