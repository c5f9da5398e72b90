(** Statements about copying stores and about combinations of several stores. *)
From Coq Require Import List.
From Verif Require Import Bytes Core IdType Store Mem Spec History Prog Sled SledHistory.
Import ListNotations.

(** A SledTripleStore given by value to a bulk operation of another store: the iterators of
    into_iter_nodes(SPO) (/repo/src/sled/iter.rs:226-301, called at extend.rs:23, merge.rs,
    mem/extend.rs:12, mem/set.rs).  Simplified: read at once, from a database that nobody
    writes meanwhile. *)
Definition sled_source {k NP EP BE} (SE : Type) (cn : codec BE NP) (ce : codec BE EP) (d : db)
    : source k NP EP (sled_error SE BE) :=
  Source (fst (now SE (s_into_iter_nodes cn ce SPO) d)) (snd (now SE (s_into_iter_nodes cn ce SPO) d)).

(** try_eq answers that the two stores are equal (/repo/src/traits/triplestore.rs:43-86). *)
Definition try_equal {k NP EP L R} (neqb : NP -> NP -> bool) (eeqb : EP -> EP -> bool)
    (a : source k NP EP L) (b : source k NP EP R) : Prop :=
  try_eq id_eqb neqb eeqb (src_nodes a) (src_edges a) (src_nodes b) (src_edges b) = Ok true.

(** == of the properties can tell nothing apart from itself. *)
Definition reflexive {A} (eqb : A -> A -> bool) : Prop := forall x, eqb x x = true.

(** The calls that copy a whole store into an empty one. *)
Inductive copying {k NP EP E} (s : source k NP EP E) : op k NP EP E -> Prop :=
| By_extend : copying s (OExtend s)
| By_merge : copying s (OMerge s).

(** A result of a set operation whose identifiers were drawn without repetition. *)
Definition gives {k NP EP F} (o : result F (mem k NP EP)) (r : mem k NP EP) : Prop :=
  o = Ok r /\ drawn_distinct (id_generator r).
