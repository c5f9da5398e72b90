(** Histories of API calls on a MemTripleStore, and on the specification. *)
From Coq Require Import NArith List.
From Verif Require Import Bytes Core IdType Store Mem Spec.
Import ListNotations.

Section History.
Context {k : idkind} {NP EP E : Type}.

(** A mutating call of the public API (traits Insert, Remove, Merge, Extend). *)
Inductive op : Type :=
| OInsertNode (n : Id k) (p : NP)
| OInsertEdge (t : triple (Id k)) (e : EP)
| ORemoveNode (n : Id k)
| ORemoveEdge (t : triple (Id k))
| OMergeNode (n : Id k) (p : NP)
| OMergeEdge (t : triple (Id k)) (e : EP)
| OExtend (s : source k NP EP E)
| OMerge (s : source k NP EP E).

Context (mn : NP -> NP -> NP) (me : EP -> EP -> EP).

Definition mem_apply (o : op) (m : mem k NP EP) : mem k NP EP :=
  match o with
  | OInsertNode n p => insert_node n p m
  | OInsertEdge t e => insert_edge t e m
  | ORemoveNode n => remove_node n m
  | ORemoveEdge t => remove_edge t m
  | OMergeNode n p => merge_node mn n p m
  | OMergeEdge t e => merge_edge me t e m
  | OExtend s => snd (extend s m)
  | OMerge s => snd (merge mn me s m)
  end.

Definition mem_history (l : list op) (m : mem k NP EP) : mem k NP EP :=
  fold_left (fun m o => mem_apply o m) l m.

Definition spec_apply (o : op) (g : graph k NP EP) : graph k NP EP :=
  match o with
  | OInsertNode n p => g_put_node n p g
  | OInsertEdge t e => g_put_edge t e g
  | ORemoveNode n => g_del_node n g
  | ORemoveEdge t => g_del_edge t g
  | OMergeNode n p => g_merge_node mn n p g
  | OMergeEdge t e => g_merge_edge me t e g
  | OExtend s => g_bulk g_put_node g_put_edge s g
  | OMerge s => g_bulk (g_merge_node mn) (g_merge_edge me) s g
  end.

Definition spec_history (l : list op) (g : graph k NP EP) : graph k NP EP :=
  fold_left (fun g o => spec_apply o g) l g.

(** Every MemTripleStore a program can hold: new stores, updated stores, query results
    and results of set operations, in any combination. *)
Inductive reachable : mem k NP EP -> Prop :=
| R_new g : reachable (mem_new g)
| R_op o m : reachable m -> reachable (mem_apply o m)
| R_run g q m : reachable m -> reachable (run g q m)
| R_union g s m r : reachable m -> union (E := E) g s m = Ok r -> reachable r
| R_intersection g s m r : reachable m -> intersection (E := E) g s m = Ok r -> reachable r
| R_difference g s m r : reachable m -> difference (E := E) g s m = Ok r -> reachable r.

End History.
Arguments op k NP EP E : clear implicits.
Arguments reachable {k NP EP} E mn me _.

(** The store displays the graph: vertices, and edges in each of the three orders. *)
Definition shows {k NP EP} (m : mem k NP EP) (g : graph k NP EP) : Prop :=
  lists_nodes (iter_vertices m) (g_node g) /\
  forall o, lists_edges o (iter_edges o m) (g_edge g).
