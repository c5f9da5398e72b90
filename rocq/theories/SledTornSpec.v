(** What a SledTripleStore shows when calls of extend were cut short: the graph read through
    the SPO order, and the edges on which the other two orders may differ from it.  No proofs here. *)
From Coq Require Import NArith List.
From Verif Require Import Bytes OMap Core IdType Store Mem Spec History Prog Sled SledHistory.
Import ListNotations.

Section Torn.
Context {k : idkind} {NP EP SE BE E : Type}.
Context (mn : NP -> NP -> NP) (me : EP -> EP -> EP).
Notation T := (triple (Id k)).
Notation G := (graph k NP EP).
Notation op := (op k NP EP E).
Implicit Types K : list T.
Implicit Types g : G.

(** The single calls that extend and merge amount to. *)
Definition elements (o : op) : list op :=
  match o with
  | OExtend s =>
      map (fun ip => OInsertNode (fst ip) (snd ip)) (before_error (src_nodes s)) ++
      match first_error (src_nodes s) with
      | Some _ => []
      | None => map (fun te => OInsertEdge (fst te) (snd te)) (before_error (src_edges s))
      end
  | OMerge s =>
      map (fun ip => OMergeNode (fst ip) (snd ip)) (before_error (src_nodes s)) ++
      match first_error (src_nodes s) with
      | Some _ => []
      | None => map (fun te => OMergeEdge (fst te) (snd te)) (before_error (src_edges s))
      end
  | _ => [o]
  end.

(** A single call after which the three orders agree on [t], whatever was there before. *)
Definition settles (o : op) (t : T) : Prop :=
  match o with
  | OInsertEdge u _ | OMergeEdge u _ | ORemoveEdge u => t = u
  | ORemoveNode n => sub t = n
  | _ => False
  end.

(** A single call when the orders may differ on the edges in [K].  remove_node finds the edges
    that end at the node in the OSP order (remove.rs:54-86). *)
Definition acts (o : op) K g K' g' : Prop :=
  (forall t, In t K' -> In t K /\ ~ settles o t) /\
  (forall i, g_node g' i = g_node (spec_apply mn me o g) i) /\
  (forall t, g_edge g' t = g_edge (spec_apply mn me o g) t \/
     (exists n, o = ORemoveNode n /\ obj t = n /\ sub t <> n) /\ In t K /\ g_edge g' t = g_edge g t).

(** Adding the edge [t] is cut short. *)
Definition tears (t : T) (e : EP) K g K' g' : Prop :=
  (forall u, In u K' -> In u K \/ u = t) /\ (g_equiv g' g \/ g_equiv g' (g_put_edge t e g)).

(** All of a list of single calls. *)
Inductive whole : list op -> list T -> G -> list T -> G -> Prop :=
| Wh_nil K g K' g' : incl K' K -> g_equiv g' g -> whole [] K g K' g'
| Wh_cons o l K g K1 g1 K' g' : acts o K g K1 g1 -> whole l K1 g1 K' g' -> whole (o :: l) K g K' g'.

(** A first part of them; with [b], adding an edge may be cut short.  [n] counts that. *)
Inductive cut (b : bool) : list op -> list T -> G -> list T -> G -> nat -> Prop :=
| Cu_here l K g K' g' : incl K' K -> g_equiv g' g -> cut b l K g K' g' 0
| Cu_tear t e l K g K' g' : b = true -> tears t e K g K' g' -> cut b (OInsertEdge t e :: l) K g K' g' 1
| Cu_next o l K g K1 g1 K' g' n : acts o K g K1 g1 -> cut b l K1 g1 K' g' n -> cut b (o :: l) K g K' g' n.

Definition is_extend (o : op) : bool := match o with OExtend _ => true | _ => false end.

(** A call with its outcome. *)
Definition does (o : op) (r : outcome (SE := SE) (BE := BE)) K g K' g' (n : nat) : Prop :=
  match r with
  | Err (LeftE _) => cut (is_extend o) (elements o) K g K' g' n
  | _ => r = expected o /\ n = 0 /\ whole (elements o) K g K' g'
  end.

(** A history of calls up to some moment. *)
Inductive goes : list op -> list T -> G -> list T -> G -> nat -> Prop :=
| Go_nil K g K' g' : incl K' K -> g_equiv g' g -> goes [] K g K' g' 0
| Go_cut o l K g K' g' n : cut (is_extend o) (elements o) K g K' g' n -> goes (o :: l) K g K' g' n
| Go_next o l r K g K1 g1 K' g' n n' : does o r K g K1 g1 n -> goes l K1 g1 K' g' n' ->
    goes (o :: l) K g K' g' (n + n').

(** One process after the other. *)
Inductive gone : list (list op) -> list T -> G -> list T -> G -> nat -> Prop :=
| Gn_nil K g K' g' : incl K' K -> g_equiv g' g -> gone [] K g K' g' 0
| Gn_cons l ls K g K1 g1 K' g' n n' : goes l K g K1 g1 n -> gone ls K1 g1 K' g' n' ->
    gone (l :: ls) K g K' g' (n + n').

(** Histories of which every call is complete. *)
Inductive done : list op -> list T -> G -> list T -> G -> Prop :=
| Do_nil K g K' g' : incl K' K -> g_equiv g' g -> done [] K g K' g'
| Do_cons o l K g K1 g1 K' g' : whole (elements o) K g K1 g1 -> done l K1 g1 K' g' -> done (o :: l) K g K' g'.

End Torn.

(** ** What is read *)
Section Show.
Context {k : idkind} {NP EP BE : Type} (SE : Type) (cn : codec BE NP) (ce : codec BE EP).
Notation T := (triple (Id k)).

(** The vertices and the SPO order show [g]; the other orders list without errors, show no edge
    that [g] does not have, and show the others as [g] has them, except the edges in [K]. *)
Definition shows_but (K : list T) (d : db) (g : graph k NP EP) : Prop :=
  lists_nodes (now SE (s_iter_vertices cn) d) (g_node g) /\
  lists_edges SPO (now SE (s_iter_edges ce SPO) d) (g_edge g) /\
  forall o, exists f, lists_edges o (now SE (s_iter_edges ce o) d) f /\
    (forall t, f t <> None -> g_edge g t <> None) /\ (forall t, ~ In t K -> f t = g_edge g t).

End Show.

(** ** Edges named by calls of extend *)
Section Extends.
Context {k : idkind} {NP EP E : Type}.
Notation op := (op k NP EP E).

Definition extends_of (l : list op) : list (source k NP EP E) :=
  flat_map (fun o => match o with OExtend s => [s] | _ => [] end) l.

Definition extended_edges (l : list op) : list (triple (Id k)) :=
  flat_map (fun s => map fst (before_error (src_edges s))) (extends_of l).

Definition no_remove_node (o : op) : Prop := match o with ORemoveNode _ => False | _ => True end.

End Extends.
