(** C22 and C23: equality of stores. *)
From Coq Require Import NArith List.
From Verif Require Import Bytes Core IdType IdTypeFacts Store Mem Spec History MemTop EqFacts Ex MemCases.
Import ListNotations.

(** ** C22 is false of the code: == stops at the shorter edge list. *)
Theorem C22_refuted : exists (a b : store) t e,
  reachable N mg mg a /\ reachable N mg mg b /\
  drawn_distinct (id_generator a) /\ drawn_distinct (id_generator b) /\
  mem_eq N.eqb N.eqb a b = true /\ mem_eq N.eqb N.eqb b a = true /\
  In (Ok (t, e)) (iter_edges SPO a) /\ (forall e', ~ In (Ok (t, e')) (iter_edges SPO b)).
Proof. exact mem_eq_ignores_edges. Qed.
Print Assumptions C22_refuted.

(** What == decides: equal vertices, and equal edges as far as both SPO lists go.
    Missing for C22: the edges of the longer list beyond the shorter one. *)
Theorem C22_exact_partial : forall k NP EP (neqb : NP -> NP -> bool) (eeqb : EP -> EP -> bool) E mn me
    (a b : mem k NP EP) ga gb ea eb,
  reachable E mn me a -> reachable E mn me b ->
  drawn_distinct (id_generator a) -> drawn_distinct (id_generator b) ->
  shows a ga -> shows b gb -> iter_edges SPO a = map Ok ea -> iter_edges SPO b = map Ok eb ->
  (mem_eq neqb eeqb a b = true <->
   (forall i, opt_rel neqb (g_node ga i) (g_node gb i)) /\ agree_prefix (item_eq eeqb) ea eb).
Proof. exact @top_mem_eq. Qed.
Print Assumptions C22_exact_partial.

(** Together with equal numbers of edges, == is equality of graphs. *)
Theorem C22_same_size_partial : forall k NP EP (neqb : NP -> NP -> bool) (eeqb : EP -> EP -> bool) E mn me
    (a b : mem k NP EP) ga gb,
  reachable E mn me a -> reachable E mn me b ->
  drawn_distinct (id_generator a) -> drawn_distinct (id_generator b) ->
  shows a ga -> shows b gb ->
  (same_graph neqb eeqb ga gb <->
   mem_eq neqb eeqb a b = true /\ length (iter_edges SPO a) = length (iter_edges SPO b)).
Proof. exact @top_mem_eq_length. Qed.
Print Assumptions C22_same_size_partial.

Example C22_case :
  mem_eq N.eqb N.eqb ex_mem (mem_history mg mg ex_ops (mem_new (counter 7))) = true /\
  mem_eq N.eqb N.eqb ex_mem ex_other = false /\
  mem_eq N.eqb N.eqb ex_mem (insert_edge (tr 1 5 2) 3%N ex_mem) = false /\
  mem_eq N.eqb N.eqb ex_mem (insert_edge (tr 7 5 2) 3%N ex_mem) = true.
Proof. vm_compute. auto. Qed.

(** ** C23 *)
Theorem C23_try_eq : forall I NP EP L R (ieqb : I -> I -> bool) (neqb : NP -> NP -> bool)
    (eeqb : EP -> EP -> bool)
    (an : list (result L (I * NP))) ae (bn : list (result R (I * NP))) be o,
  try_eq ieqb neqb eeqb an ae bn be = o <->
  (o <> Ok true /\ zip_outcome (pair_eqb ieqb neqb) an bn o) \/
  (zip_outcome (pair_eqb ieqb neqb) an bn (Ok true) /\
   zip_outcome (pair_eqb (triple_eqb ieqb) eeqb) ae be o).
Proof. exact @try_eq_iff. Qed.
Print Assumptions C23_try_eq.

Theorem C23_left : forall I NP EP L R (ieqb : I -> I -> bool) (neqb : NP -> NP -> bool)
    (eeqb : EP -> EP -> bool)
    (an : list (result L (I * NP))) ae (bn : list (result R (I * NP))) be e,
  try_eq ieqb neqb eeqb an ae bn be = Err (LeftE e) -> In (Err e) an \/ In (Err e) ae.
Proof. exact @try_eq_left. Qed.
Print Assumptions C23_left.

Theorem C23_right : forall I NP EP L R (ieqb : I -> I -> bool) (neqb : NP -> NP -> bool)
    (eeqb : EP -> EP -> bool)
    (an : list (result L (I * NP))) ae (bn : list (result R (I * NP))) be e,
  try_eq ieqb neqb eeqb an ae bn be = Err (RightE e) -> In (Err e) bn \/ In (Err e) be.
Proof. exact @try_eq_right. Qed.
Print Assumptions C23_right.

(** Healthy stores of any kind: the answer is equality of the graphs. *)
Theorem C23_graph : forall k NP EP L R (neqb : NP -> NP -> bool) (eeqb : EP -> EP -> bool)
    (s1 : source k NP EP L) (s2 : source k NP EP R) a b,
  delivers s1 a -> delivers s2 b ->
  exists r, try_eq id_eqb neqb eeqb (src_nodes s1) (src_edges s1) (src_nodes s2) (src_edges s2) = Ok r
    /\ (r = true <-> same_graph neqb eeqb a b).
Proof. exact @try_eq_graph. Qed.
Print Assumptions C23_graph.

Definition teq {L R} (a : source KU64 N N L) (b : source KU64 N N R) :=
  try_eq id_eqb N.eqb N.eqb (src_nodes a) (src_edges a) (src_nodes b) (src_edges b).
Example C23_case :
  teq (mem_source ex_mem) (mem_source ex_mem) = Ok true /\
  teq (mem_source ex_mem) (mem_source (insert_edge (tr 7 5 2) 3%N ex_mem)) = Ok false /\
  teq ex_source (Source (src_nodes ex_source) [Ok (tr 1 5 2, 33%N); Ok (tr 1 5 3, 1%N)]) = Err (LeftE 404%N) /\
  teq (Source (src_nodes ex_source) [Ok (tr 1 5 2, 33%N); Ok (tr 1 5 3, 1%N)]) ex_source = Err (RightE 404%N) /\
  teq ex_source (Source (src_nodes ex_source) [Ok (tr 1 5 2, 33%N)]) = Ok false.
Proof. vm_compute. auto. Qed.
