(** The specification, independent of how the stores work: a graph is a partial map
    from identifiers to node properties and a partial map from triples to edge
    properties.  Nothing here mentions tables, keys or generators. *)
From Coq Require Import NArith List Sorted.
From Verif Require Import Bytes Core IdType IdTypeFacts Store.
Import ListNotations.

Record graph (k : idkind) (NP EP : Type) : Type := Graph {
  g_node : Id k -> option NP;
  g_edge : triple (Id k) -> option EP
}.
Arguments Graph {k NP EP} g_node g_edge.
Arguments g_node {k NP EP} g.
Arguments g_edge {k NP EP} g.

(** ** Orders *)
Definition id_lt {k} (a b : Id k) : Prop := (uval a < uval b)%N.

Definition lex3 {k} (a1 a2 a3 b1 b2 b3 : Id k) : Prop :=
  id_lt a1 b1 \/ (a1 = b1 /\ (id_lt a2 b2 \/ (a2 = b2 /\ id_lt a3 b3))).

(** The documented meaning of EdgeOrder (/repo/src/lib.rs:48-59). *)
Definition edge_lt {k} (o : edge_order) (t u : triple (Id k)) : Prop :=
  match o with
  | SPO => lex3 (sub t) (pred t) (obj t) (sub u) (pred u) (obj u)
  | POS => lex3 (pred t) (obj t) (sub t) (pred u) (obj u) (sub u)
  | OSP => lex3 (obj t) (sub t) (pred t) (obj u) (sub u) (pred u)
  end.

(** ** Observation: an iterator [l] lists a partial map exactly, without errors,
    once each, in increasing order.  There is at most one such list. *)
Definition lists {E A P} (lt : A -> A -> Prop) (l : list (result E (A * P)))
    (f : A -> option P) : Prop :=
  exists items, l = map Ok items
    /\ StronglySorted (fun x y => lt (fst x) (fst y)) items
    /\ forall a p, In (a, p) items <-> f a = Some p.

Definition lists_nodes {k E NP} (l : list (result E (Id k * NP))) (f : Id k -> option NP) :=
  lists id_lt l f.
Definition lists_edges {k E EP} (o : edge_order) (l : list (result E (triple (Id k) * EP)))
    (f : triple (Id k) -> option EP) :=
  lists (edge_lt o) l f.

(** ** Operations *)
Section Ops.
Context {k : idkind} {NP EP : Type}.
Notation G := (graph k NP EP).

Definition g_empty : G := Graph (fun _ => None) (fun _ => None).

Definition g_put_node (n : Id k) (p : NP) (g : G) : G :=
  Graph (fun i => if id_eq_dec i n then Some p else g_node g i) (g_edge g).

Definition g_put_edge (t : triple (Id k)) (e : EP) (g : G) : G :=
  Graph (g_node g) (fun u => if triple_eq_dec u t then Some e else g_edge g u).

Definition g_del_edge (t : triple (Id k)) (g : G) : G :=
  Graph (g_node g) (fun u => if triple_eq_dec u t then None else g_edge g u).

(** The vertex and every edge that starts or ends there. *)
Definition g_del_node (n : Id k) (g : G) : G :=
  Graph (fun i => if id_eq_dec i n then None else g_node g i)
        (fun u => if id_eq_dec (sub u) n then None
                  else if id_eq_dec (obj u) n then None else g_edge g u).

Definition merged {P} (f : P -> P -> P) (old : option P) (new : P) : P :=
  match old with Some o => f o new | None => new end.

Definition g_merge_node (mn : NP -> NP -> NP) (n : Id k) (p : NP) (g : G) : G :=
  g_put_node n (merged mn (g_node g n) p) g.

Definition g_merge_edge (me : EP -> EP -> EP) (t : triple (Id k)) (e : EP) (g : G) : G :=
  g_put_edge t (merged me (g_edge g t) e) g.

(** Everything of both graphs; the second wins where both have a value. *)
Definition g_union (a b : G) : G :=
  Graph (fun i => match g_node b i with Some p => Some p | None => g_node a i end)
        (fun t => match g_edge b t with Some e => Some e | None => g_edge a t end).

(** What both graphs have, with the properties of the first. *)
Definition g_inter (a b : G) : G :=
  Graph (fun i => match g_node b i with Some _ => g_node a i | None => None end)
        (fun t => match g_edge b t with Some _ => g_edge a t | None => None end).

(** Everything of both graphs, merged where both have a value. *)
Definition pointwise {P} (f : P -> P -> P) (x y : option P) : option P :=
  match y with Some q => Some (merged f x q) | None => x end.
Definition g_merged (mn : NP -> NP -> NP) (me : EP -> EP -> EP) (a b : G) : G :=
  Graph (fun i => pointwise mn (g_node a i) (g_node b i))
        (fun t => pointwise me (g_edge a t) (g_edge b t)).

(** The vertices of the first not in the second. *)
Definition g_minus_nodes (a b : G) (i : Id k) : option NP :=
  match g_node b i with Some _ => None | None => g_node a i end.

(** Pointwise equality of graphs. *)
Definition g_equiv (a b : G) : Prop :=
  (forall i, g_node a i = g_node b i) /\ (forall t, g_edge a t = g_edge b t).

End Ops.

(** ** Sources that may fail *)

(** The items delivered before the first error. *)
Fixpoint before_error {E A} (l : list (result E A)) : list A :=
  match l with
  | Ok a :: l' => a :: before_error l'
  | _ => []
  end.

(** The first error, if any. *)
Fixpoint first_error {E A} (l : list (result E A)) : option E :=
  match l with
  | [] => None
  | Ok _ :: l' => first_error l'
  | Err e :: _ => Some e
  end.

Section Bulk.
Context {k : idkind} {NP EP E : Type}.
Notation G := (graph k NP EP).

(** Apply a source element by element: nodes first, then edges; stop at the first error. *)
Definition g_bulk (fn : Id k -> NP -> G -> G) (fe : triple (Id k) -> EP -> G -> G)
    (s : source k NP EP E) (g : G) : G :=
  let g1 := fold_left (fun g ip => fn (fst ip) (snd ip) g) (before_error (src_nodes s)) g in
  match first_error (src_nodes s) with
  | Some _ => g1
  | None => fold_left (fun g te => fe (fst te) (snd te) g) (before_error (src_edges s)) g1
  end.

Definition bulk_error (s : source k NP EP E) : option E :=
  match first_error (src_nodes s) with
  | Some e => Some e
  | None => first_error (src_edges s)
  end.

(** A source that delivers exactly a given graph, in order and without errors: what
    consuming any healthy store looks like. *)
Definition delivers (s : source k NP EP E) (g : G) : Prop :=
  lists_nodes (src_nodes s) (g_node g) /\ lists_edges SPO (src_edges s) (g_edge g).

End Bulk.

(** ** Queries *)

(** The triples selected by an edge query (/repo/src/lib.rs:75-94). *)
Definition selects {I} (q : query I) (t : triple I) : Prop :=
  match q with
  | QNodeProps _ => False
  | QSPO l => In (sub t, pred t, obj t) l
  | QO l => In (obj t) l
  | QS l => In (sub t) l
  | QP l => In (pred t) l
  | QPO l => In (pred t, obj t) l
  | QSO l => In (sub t, obj t) l
  | QSP l => In (sub t, pred t) l
  end.

(** The vertices selected by a node query. *)
Definition selects_node {I} (q : query I) (n : I) : Prop :=
  match q with QNodeProps l => In n l | _ => False end.

(** [g'] is the part of [g] selected by [q]. *)
Definition answers {k NP EP} (q : query (Id k)) (g g' : graph k NP EP) : Prop :=
  (forall n p, g_node g' n = Some p <-> selects_node q n /\ g_node g n = Some p) /\
  (forall t e, g_edge g' t = Some e <-> selects q t /\ g_edge g t = Some e).

(** ** Generators *)

(** The identifiers drawn so far are pairwise different. *)
Definition drawn_distinct {k} (g : gen k) : Prop :=
  forall i j, i < g_pos g -> j < g_pos g -> g_seq g i = g_seq g j -> i = j.

(** ** Equality of graphs up to a boolean equality of properties *)
Definition opt_rel {P} (R : P -> P -> bool) (x y : option P) : Prop :=
  match x, y with
  | Some p, Some q => R p q = true
  | None, None => True
  | _, _ => False
  end.

Definition same_graph {k NP EP} (neqb : NP -> NP -> bool) (eeqb : EP -> EP -> bool)
    (a b : graph k NP EP) : Prop :=
  (forall i, opt_rel neqb (g_node a i) (g_node b i)) /\
  (forall t, opt_rel eeqb (g_edge a t) (g_edge b t)).

(** Two lists agree as far as both go. *)
Fixpoint agree_prefix {A} (R : A -> A -> Prop) (l l' : list A) : Prop :=
  match l, l' with
  | x :: xs, y :: ys => R x y /\ agree_prefix R xs ys
  | _, _ => True
  end.

(** Same key, equal values. *)
Definition item_eq {A P} (R : P -> P -> bool) (x y : A * P) : Prop :=
  fst x = fst y /\ R (snd x) (snd y) = true.

(** ** Comparing two sequences that may fail *)
Section Outcome.
Context {A L R : Type} (eqb : A -> A -> bool).

(** Both sequences start with equal items; [a'] and [b'] is what follows. *)
Definition stops_at (a : list (result L A)) (b : list (result R A)) a' b' : Prop :=
  exists xs ys, a = map Ok xs ++ a' /\ b = map Ok ys ++ b' /\
    Forall2 (fun x y => eqb x y = true) xs ys.

(** [o] says how the comparison ends: true if both end together; false if one ends first
    or the next two items differ; otherwise the first error, the left one if both fail.
    An error is not seen if the other side has already ended. *)
Definition zip_outcome (a : list (result L A)) (b : list (result R A)) (o : result (lr_error L R) bool)
    : Prop :=
  match o with
  | Ok true => stops_at a b [] []
  | Ok false =>
      exists a' b', stops_at a b a' b' /\
        ((a' = [] /\ b' <> []) \/ (a' <> [] /\ b' = []) \/
         exists x y ra rb, a' = Ok x :: ra /\ b' = Ok y :: rb /\ eqb x y = false)
  | Err (LeftE e) => exists ra rb, stops_at a b (Err e :: ra) rb /\ rb <> []
  | Err (RightE e) => exists x ra rb, stops_at a b (Ok x :: ra) (Err e :: rb)
  end.

End Outcome.

(** ** Two queries of one kind listing the same items, in any order *)
Definition same_items {I} (q q' : query I) : Prop :=
  match q, q' with
  | QNodeProps l, QNodeProps l' | QO l, QO l' | QS l, QS l' | QP l, QP l' => forall x, In x l <-> In x l'
  | QSPO l, QSPO l' => forall x, In x l <-> In x l'
  | QPO l, QPO l' | QSO l, QSO l' | QSP l, QSP l' => forall x, In x l <-> In x l'
  | _, _ => False
  end.
