(** RdfTripleStore: /repo/src/rdf.rs and /repo/src/rdf/*.rs, over a MemHashIndex and a
    MemTripleStore (the instance used by the tests, rdf.rs:150-155).  No proofs here.

    [S] is String and [seqb] its Eq.  Ulid::new() (rdf.rs:84) returns the next element of an
    arbitrary sequence, kept with the store. *)
From Coq Require Import NArith List Bool.
From Verif Require Import Bytes OMap Core IdType Store Mem MemIndex.
Import ListNotations.

(** rdf.rs:12-16 *)
Inductive entity (S : Type) : Type := EString (s : S) | EUlid (i : Id KUlid).
Arguments EString {S} s.
Arguments EUlid {S} i.

(** The derived PartialEq, rdf.rs:12. *)
Definition entity_eqb {S} (seqb : S -> S -> bool) (a b : entity S) : bool :=
  match a, b with
  | EString s, EString t => seqb s t
  | EUlid i, EUlid j => id_eqb i j
  | _, _ => false
  end.

(** rdf.rs:37-42 *)
Inductive rdf_error (S NIE GE : Type) : Type :=
| NameIndexStorageError (e : NIE)
| GraphStorageError (e : GE)
| NameNotFound (s : S).
Arguments NameIndexStorageError {S NIE GE} e.
Arguments GraphStorageError {S NIE GE} e.
Arguments NameNotFound {S NIE GE} s.

(** Triple::try_map (/repo/src/triple.rs:22-31) with a closure that changes [St]. *)
Definition triple_try_map_st {I O E St} (f : I -> St -> result E O * St) (t : triple I) (st : St)
    : result E (triple O) * St :=
  match f (sub t) st with
  | (Err e, st) => (Err e, st)
  | (Ok s, st) =>
      match f (pred t) st with
      | (Err e, st) => (Err e, st)
      | (Ok p, st) =>
          match f (obj t) st with
          | (Err e, st) => (Err e, st)
          | (Ok o, st) => (Ok (Triple s p o), st)
          end
      end
  end.

(** What a store of entities consumed through into_iter_nodes(SPO) delivers. *)
Record rdf_source (S NP EP E : Type) : Type := RdfSource {
  rs_nodes : list (result E (entity S * NP));
  rs_edges : list (result E (triple (entity S) * EP))
}.
Arguments RdfSource {S NP EP E} rs_nodes rs_edges.
Arguments rs_nodes {S NP EP E} r.
Arguments rs_edges {S NP EP E} r.

Section Rdf.
Context {S NP EP : Type} (seqb : S -> S -> bool).
Notation I := (Id KUlid).
Notation ent := (entity S).
Notation index := (mem_index S I).
Notation err := (rdf_error S (index_error S I) unit).

(** rdf.rs:44-53 *)
Record rdf : Type := Rdf {
  name_index : index;
  r_graph : mem KUlid NP EP;
  r_ulids : gen KUlid
}.

(** rdf.rs:62-68, with a new index and a new graph. *)
Definition rdf_new (g u : gen KUlid) : rdf := Rdf index_new (mem_new g) u.

Definition set_graph (g : mem KUlid NP EP) (r : rdf) : rdf := Rdf (name_index r) g (r_ulids r).

(** rdf.rs:70-93.  left_to_right of MemHashIndex never fails. *)
Definition lookup_or_create_entity (e : ent) (r : rdf) : result err I * rdf :=
  match e with
  | EString s =>
      match left_to_right seqb (name_index r) s with
      | Some id => (Ok id, r)
      | None =>
          let (id, u) := fresh (r_ulids r) in                                 (* 84 *)
          match index_set seqb id_eqb s id (name_index r) with                (* 85-87 *)
          | (Ok _, ix) => (Ok id, Rdf ix (r_graph r) u)
          | (Err x, ix) => (Err (NameIndexStorageError x), Rdf ix (r_graph r) u)
          end
      end
  | EUlid id => (Ok id, r)
  end.

(** rdf.rs:95-107 *)
Definition lookup_entity (ix : index) (e : ent) : result err I :=
  match e with
  | EString s =>
      match left_to_right seqb ix s with
      | Some id => Ok id
      | None => Err (NameNotFound s)
      end
  | EUlid id => Ok id
  end.

(** rdf.rs:109-122 *)
Definition lookup_id (ix : index) (id : I) : result err ent :=
  Ok (match right_to_left id_eqb ix id with
      | Some s => EString s
      | None => EUlid id
      end).

(** [self.lookup_or_create_entity(..)? ; self.graph.f(..)]; the methods of MemTripleStore
    called here never fail. *)
Definition then_graph {X} (rx : result err X * rdf) (f : X -> mem KUlid NP EP -> mem KUlid NP EP)
    : result err unit * rdf :=
  match rx with
  | (Err e, r) => (Err e, r)
  | (Ok x, r) => (Ok tt, set_graph (f x (r_graph r)) r)
  end.

(** /repo/src/rdf/insert.rs:16-28 *)
Definition rdf_insert_node (e : ent) (p : NP) (r : rdf) : result err unit * rdf :=
  then_graph (lookup_or_create_entity e r) (fun id => insert_node id p).
Definition rdf_insert_edge (t : triple ent) (p : EP) (r : rdf) : result err unit * rdf :=
  then_graph (triple_try_map_st lookup_or_create_entity t r) (fun t => insert_edge t p).

(** /repo/src/rdf/remove.rs:13-23 *)
Definition rdf_remove_node (e : ent) (r : rdf) : result err unit * rdf :=
  then_graph (lookup_entity (name_index r) e, r) (fun id => remove_node id).
Definition rdf_remove_edge (t : triple ent) (r : rdf) : result err unit * rdf :=
  then_graph (triple_try_map (lookup_entity (name_index r)) t, r) (fun t => remove_edge t).

(** [for r in iter { let x = r.map_err(Right)?; self.step(x).map_err(Left)? }] *)
Fixpoint rdf_for_each {A E} (step : A -> rdf -> result err unit * rdf) (l : list (result E A)) (r : rdf)
    : result (lr_error err E) unit * rdf :=
  match l with
  | [] => (Ok tt, r)
  | Err e :: _ => (Err (RightE e), r)
  | Ok a :: l' =>
      match step a r with
      | (Err e, r) => (Err (LeftE e), r)
      | (Ok _, r) => rdf_for_each step l' r
      end
  end.

(** The two loops of extend.rs:20-36 and merge.rs:20-36. *)
Definition rdf_bulk {E} (fn : ent -> NP -> rdf -> result err unit * rdf)
    (fe : triple ent -> EP -> rdf -> result err unit * rdf) (other : rdf_source S NP EP E) (r : rdf)
    : result (lr_error err E) unit * rdf :=
  match rdf_for_each (fun ip => fn (fst ip) (snd ip)) (rs_nodes other) r with
  | (Err e, r) => (Err e, r)
  | (Ok _, r) => rdf_for_each (fun te => fe (fst te) (snd te)) (rs_edges other) r
  end.

(** /repo/src/rdf/extend.rs:16-37 *)
Definition rdf_extend {E} : rdf_source S NP EP E -> rdf -> result (lr_error err E) unit * rdf :=
  rdf_bulk rdf_insert_node rdf_insert_edge.

Section Merge.
Context (mn : NP -> NP -> NP) (me : EP -> EP -> EP).

(** /repo/src/rdf/merge.rs:39-56 *)
Definition rdf_merge_node (e : ent) (p : NP) (r : rdf) : result err unit * rdf :=
  then_graph (lookup_or_create_entity e r) (fun id => merge_node mn id p).
Definition rdf_merge_edge (t : triple ent) (p : EP) (r : rdf) : result err unit * rdf :=
  then_graph (triple_try_map_st lookup_or_create_entity t r) (fun t => merge_edge me t p).

(** /repo/src/rdf/merge.rs:16-37 *)
Definition rdf_merge {E} : rdf_source S NP EP E -> rdf -> result (lr_error err E) unit * rdf :=
  rdf_bulk rdf_merge_node rdf_merge_edge.
End Merge.

(** *** /repo/src/rdf/iter.rs *)

(** The closures of iter.rs: an error of the graph is wrapped, identifiers are looked up. *)
Definition show_node {P} (ix : index) (r : result unit (I * P)) : result err (ent * P) :=
  match r with
  | Ok (id, p) => match lookup_id ix id with Ok e => Ok (e, p) | Err e => Err e end
  | Err e => Err (GraphStorageError e)
  end.
Definition show_edge (ix : index) (r : result unit (triple I * EP)) : result err (triple ent * EP) :=
  match r with
  | Ok (t, p) => match triple_try_map (lookup_id ix) t with Ok t => Ok (t, p) | Err e => Err e end
  | Err e => Err (GraphStorageError e)
  end.
Definition show_pair {P} (ix : index) (ip : I * P) : result err (ent * P) :=
  match lookup_id ix (fst ip) with Ok e => Ok (e, snd ip) | Err e => Err e end.
Definition show_props (ix : index) (r : result unit (props_triple I NP EP))
    : result err (props_triple ent NP EP) :=
  match r with
  | Ok t => props_triple_try_map (show_pair ix) (show_pair ix) t
  | Err e => Err (GraphStorageError e)
  end.

(** iter.rs:18-26 *)
Definition rdf_vertices (r : rdf) : result err (list ent) :=
  collect_result (lookup_id (name_index r)) (vertices (r_graph r)).
(** iter.rs:53-60 *)
Definition rdf_iter_vertices (r : rdf) : list (result err (ent * NP)) :=
  map (show_node (name_index r)) (iter_vertices (r_graph r)).
(** iter.rs:76-87 *)
Definition rdf_iter_edges (o : edge_order) (r : rdf) : list (result err (triple ent * EP)) :=
  map (show_edge (name_index r)) (iter_edges o (r_graph r)).
(** iter.rs:62-74 *)
Definition rdf_iter_edges_with_props (o : edge_order) (r : rdf) : list (result err (props_triple ent NP EP)) :=
  map (show_props (name_index r)) (iter_edges_with_props o (r_graph r)).
(** iter.rs:28-51 *)
Definition rdf_iter_nodes (o : edge_order) (r : rdf)
    : list (result err (ent * NP)) * list (result err (triple ent * EP)) :=
  (map (show_node (name_index r)) (fst (iter_nodes o (r_graph r))),
   map (show_edge (name_index r)) (snd (iter_nodes o (r_graph r)))).
(** iter.rs:98-127 *)
Definition rdf_into_iter_nodes (o : edge_order) (r : rdf)
    : list (result err (ent * NP)) * list (result err (triple ent * EP)) :=
  (map (show_node (name_index r)) (fst (into_iter_nodes o (r_graph r))),
   map (show_edge (name_index r)) (snd (into_iter_nodes o (r_graph r)))).
(** iter.rs:129-135 *)
Definition rdf_into_iter_vertices (r : rdf) : list (result err (ent * NP)) :=
  map (show_node (name_index r)) (into_iter_vertices (r_graph r)).
(** iter.rs:137-151 *)
Definition rdf_into_iter_edges_with_props (o : edge_order) (r : rdf) : list (result err (props_triple ent NP EP)) :=
  map (show_props (name_index r)) (into_iter_edges_with_props o (r_graph r)).
(** iter.rs:153-165 *)
Definition rdf_into_iter_edges (o : edge_order) (r : rdf) : list (result err (triple ent * EP)) :=
  map (show_edge (name_index r)) (into_iter_edges o (r_graph r)).

(** An RDF store consumed by value. *)
Definition rdf_source_of (r : rdf) : rdf_source S NP EP err :=
  RdfSource (fst (rdf_into_iter_nodes SPO r)) (snd (rdf_into_iter_nodes SPO r)).

(** *** /repo/src/rdf/query.rs *)

(** The body of the loops at query.rs:49-57 and 63-71; [ix] is the index of the queried store. *)
Fixpoint set_names (ix : index) (ids : list I) (new : index) : result (lr_error err err) index :=
  match ids with
  | [] => Ok new
  | id :: ids' =>
      match lookup_id ix id with
      | Err e => Err (LeftE e)
      | Ok (EUlid _) => set_names ix ids' new
      | Ok (EString s) =>
          match index_set seqb id_eqb s id new with
          | (Err e, _) => Err (RightE (NameIndexStorageError e))
          | (Ok _, new) => set_names ix ids' new
          end
      end
  end.

(** query.rs:59-72 *)
Fixpoint set_edge_names (ix : index) (es : list (result unit (triple I * EP))) (new : index)
    : result (lr_error err err) index :=
  match es with
  | [] => Ok new
  | Err e :: _ => Err (RightE (GraphStorageError e))
  | Ok (t, _) :: es' =>
      match set_names ix [sub t; pred t; obj t] new with
      | Err e => Err e
      | Ok new => set_edge_names ix es' new
      end
  end.

(** query.rs:26-75.  [g] is the cloned generator of the result's graph (Mem.run), [u] the
    identifiers that Ulid::new() will return to the result. *)
Definition rdf_run (g u : gen KUlid) (q : query ent) (r : rdf) : result (lr_error err err) rdf :=
  match query_try_map (lookup_entity (name_index r)) q with
  | Err e => Err (LeftE e)
  | Ok q =>
      let query_graph := run g q (r_graph r) in
      match set_names (name_index r) (vertices query_graph) index_new with
      | Err e => Err e
      | Ok ix =>
          match set_edge_names (name_index r) (iter_edges SPO query_graph) ix with
          | Err e => Err e
          | Ok ix => Ok (Rdf ix query_graph u)
          end
      end
  end.

End Rdf.
Arguments rdf S NP EP : clear implicits.

(** ** Histories *)
Section RdfHistory.
Context {S NP EP E : Type} (seqb : S -> S -> bool) (mn : NP -> NP -> NP) (me : EP -> EP -> EP).
Notation ent := (entity S).
Notation err := (rdf_error S (index_error S (Id KUlid)) unit).

Inductive rop : Type :=
| RInsertNode (e : ent) (p : NP)
| RInsertEdge (t : triple ent) (p : EP)
| RRemoveNode (e : ent)
| RRemoveEdge (t : triple ent)
| RMergeNode (e : ent) (p : NP)
| RMergeEdge (t : triple ent) (p : EP)
| RExtend (s : rdf_source S NP EP E)
| RMerge (s : rdf_source S NP EP E).

Definition as_left (x : result err unit * rdf S NP EP) : result (lr_error err E) unit * rdf S NP EP :=
  (match fst x with Ok u => Ok u | Err e => Err (LeftE e) end, snd x).

Definition rdf_apply (o : rop) (r : rdf S NP EP) : result (lr_error err E) unit * rdf S NP EP :=
  match o with
  | RInsertNode e p => as_left (rdf_insert_node seqb e p r)
  | RInsertEdge t p => as_left (rdf_insert_edge seqb t p r)
  | RRemoveNode e => as_left (rdf_remove_node seqb e r)
  | RRemoveEdge t => as_left (rdf_remove_edge seqb t r)
  | RMergeNode e p => as_left (rdf_merge_node seqb mn e p r)
  | RMergeEdge t p => as_left (rdf_merge_edge seqb me t p r)
  | RExtend s => rdf_extend seqb s r
  | RMerge s => rdf_merge seqb mn me s r
  end.

Fixpoint rdf_history (l : list rop) (r : rdf S NP EP) : list (result (lr_error err E) unit) * rdf S NP EP :=
  match l with
  | [] => ([], r)
  | o :: l' =>
      let (x, r1) := rdf_apply o r in
      let (xs, r2) := rdf_history l' r1 in (x :: xs, r2)
  end.

End RdfHistory.
Arguments rop S NP EP E : clear implicits.

(** try_eq of two RDF stores: the default method of TripleStore
    (/repo/src/traits/triplestore.rs:43-86). *)
Definition rdf_try_eq {S NP EP} (seqb : S -> S -> bool) (neqb : NP -> NP -> bool) (eeqb : EP -> EP -> bool)
    (a b : rdf S NP EP) :=
  try_eq (entity_eqb seqb) neqb eeqb (fst (rdf_iter_nodes SPO a)) (snd (rdf_iter_nodes SPO a))
    (fst (rdf_iter_nodes SPO b)) (snd (rdf_iter_nodes SPO b)).

(** Every RDF store a program can hold as long as no call reports an error of the name index. *)
Inductive rdf_reachable {S NP EP} (E : Type) (seqb : S -> S -> bool) (mn : NP -> NP -> NP) (me : EP -> EP -> EP)
    : rdf S NP EP -> Prop :=
| RR_new g u : rdf_reachable E seqb mn me (rdf_new g u)
| RR_op o r x r' : rdf_reachable E seqb mn me r -> rdf_apply (E := E) seqb mn me o r = (x, r') ->
    (forall y, x <> Err (LeftE (NameIndexStorageError y))) -> rdf_reachable E seqb mn me r'
| RR_run g u q r r' : rdf_reachable E seqb mn me r -> rdf_run seqb g u q r = Ok r' ->
    rdf_reachable E seqb mn me r'.
