(** Statements about copying an RDF store into a new one. *)
From Coq Require Import List.
From Verif Require Import Bytes Core IdType Store Rdf RdfSpec.
Import ListNotations.

(** The source delivers exactly the graph, each vertex and each edge once. *)
Definition e_delivers {S NP EP E} (s : rdf_source S NP EP E) (g : egraph S NP EP) : Prop :=
  exists ns es, rs_nodes s = map Ok ns /\ rs_edges s = map Ok es /\
    NoDup (map fst ns) /\ NoDup (map fst es) /\
    (forall e p, In (e, p) ns <-> e_node g e = Some p) /\
    (forall t p, In (t, p) es <-> e_edge g t = Some p).

(** The calls that copy a whole store into an empty one. *)
Inductive r_copying {S NP EP E} (s : rdf_source S NP EP E) : rop S NP EP E -> Prop :=
| By_r_extend : r_copying s (RExtend s)
| By_r_merge : r_copying s (RMerge s).
