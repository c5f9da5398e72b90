(** RdfTripleStore over any name index and any graph: /repo/src/rdf.rs and /repo/src/rdf/*.rs as
    they are written, generic in NameIndex and TripleStorage.  Rdf.v and RdfSled.v are two of the
    instances (Prop_RdfAny.v proves it); the other two, a MemHashIndex with a SledTripleStore and
    a SledHashIndex with a MemTripleStore, are defined at the end.  No proofs here.

    An implementation of a trait is a record of its methods as functions on the state of the
    implementor and an environment shared by both ([F]; for sled, the failures to come), for one
    caller alone.  An iterator is the list of the computations that yield its items, fixed when
    the iterator is made.  Simplifications: the result of a query on the graph is a
    MemTripleStore, as it is for both implementations in the crate, and its own errors, which do
    not exist, are left out; merge_node and merge_edge are methods of every graph. *)
From Coq Require Import NArith List Bool.
From Verif Require Import Bytes OMap Core IdType Store Mem MemIndex Spec History Prog Sled SledHistory SledIndex Rdf RdfSled.
Import ListNotations.

(** /repo/src/traits/bidir_index.rs:4-14 with Left = String, Right = Ulid *)
Record any_index (S X F IE : Type) : Type := AnyIndex {
  ai_set : S -> Id KUlid -> X * F -> result IE unit * (X * F);
  ai_left : S -> X * F -> result IE (option (Id KUlid)) * (X * F);
  ai_right : Id KUlid -> X * F -> result IE (option S) * (X * F)
}.
Arguments AnyIndex {S X F IE} ai_set ai_left ai_right.
Arguments ai_set {S X F IE} a.
Arguments ai_left {S X F IE} a.
Arguments ai_right {S X F IE} a.

(** The methods of a graph that rdf.rs uses: /repo/src/traits/insert.rs, remove.rs, merge.rs,
    iter.rs, into_iter.rs and query.rs. *)
Record any_graph (NP EP Y F GE : Type) : Type := AnyGraph {
  ag_insert_node : Id KUlid -> NP -> Y * F -> result GE unit * (Y * F);
  ag_insert_edge : triple (Id KUlid) -> EP -> Y * F -> result GE unit * (Y * F);
  ag_remove_node : Id KUlid -> Y * F -> result GE unit * (Y * F);
  ag_remove_edge : triple (Id KUlid) -> Y * F -> result GE unit * (Y * F);
  ag_merge_node : Id KUlid -> NP -> Y * F -> result GE unit * (Y * F);
  ag_merge_edge : triple (Id KUlid) -> EP -> Y * F -> result GE unit * (Y * F);
  ag_vertices : Y * F -> result GE (list (Id KUlid)) * (Y * F);
  ag_iter_vertices : Y -> list (Y * F -> result GE (Id KUlid * NP) * (Y * F));
  ag_iter_edges : edge_order -> Y -> list (Y * F -> result GE (triple (Id KUlid) * EP) * (Y * F));
  ag_iter_props : edge_order -> Y -> list (Y * F -> result GE (props_triple (Id KUlid) NP EP) * (Y * F));
  ag_into_nodes : edge_order -> Y -> list (Y * F -> result GE (Id KUlid * NP) * (Y * F)) *
                                     list (Y * F -> result GE (triple (Id KUlid) * EP) * (Y * F));
  ag_run : gen KUlid -> query (Id KUlid) -> Y * F -> result GE (mem KUlid NP EP) * (Y * F)
}.
Arguments AnyGraph {NP EP Y F GE}.
Arguments ag_insert_node {NP EP Y F GE} a.
Arguments ag_insert_edge {NP EP Y F GE} a.
Arguments ag_remove_node {NP EP Y F GE} a.
Arguments ag_remove_edge {NP EP Y F GE} a.
Arguments ag_merge_node {NP EP Y F GE} a.
Arguments ag_merge_edge {NP EP Y F GE} a.
Arguments ag_vertices {NP EP Y F GE} a.
Arguments ag_iter_vertices {NP EP Y F GE} a.
Arguments ag_iter_edges {NP EP Y F GE} a.
Arguments ag_iter_props {NP EP Y F GE} a.
Arguments ag_into_nodes {NP EP Y F GE} a.
Arguments ag_run {NP EP Y F GE} a.

(** rdf.rs:44-53, with the identifiers that Ulid::new() (rdf.rs:84) will return and the
    environment. *)
Record any_rdf (X Y F : Type) : Type := AnyRdf {
  a_names : X;
  a_graph : Y;
  a_ulids : gen KUlid;
  a_env : F
}.
Arguments AnyRdf {X Y F} a_names a_graph a_ulids a_env.
Arguments a_names {X Y F} a.
Arguments a_graph {X Y F} a.
Arguments a_ulids {X Y F} a.
Arguments a_env {X Y F} a.

Section Any.
Context {S NP EP X Y F IE GE : Type}.
Context (ix : any_index S X F IE) (gr : any_graph NP EP Y F GE).
Notation I := (Id KUlid).
Notation ent := (entity S).
Notation R := (any_rdf X Y F).
Notation err := (rdf_error S IE GE).
Notation M A := (R -> result err A * R).

(** [self.name_index.f(..).map_err(NameIndexStorageError)?] and
    [self.graph.f(..).map_err(GraphStorageError)?] *)
Definition of_names {A} (f : X * F -> result IE A * (X * F)) : M A := fun r =>
  match f (a_names r, a_env r) with
  | (a, (x, e)) =>
      (match a with Ok a => Ok a | Err e => Err (NameIndexStorageError e) end, AnyRdf x (a_graph r) (a_ulids r) e)
  end.
Definition of_graph {A} (f : Y * F -> result GE A * (Y * F)) : M A := fun r =>
  match f (a_graph r, a_env r) with
  | (a, (y, e)) =>
      (match a with Ok a => Ok a | Err e => Err (GraphStorageError e) end, AnyRdf (a_names r) y (a_ulids r) e)
  end.
Definition ok {A} (a : A) : M A := fun r => (Ok a, r).
Definition fail {A} (e : err) : M A := fun r => (Err e, r).
Definition and_then {A B} (m : M A) (f : A -> M B) : M B := fun r =>
  match m r with
  | (Ok a, r) => f a r
  | (Err e, r) => (Err e, r)
  end.
Definition new_ulid : M I := fun r =>
  let (id, u) := fresh (a_ulids r) in (Ok id, AnyRdf (a_names r) (a_graph r) u (a_env r)).

(** rdf.rs:70-93 *)
Definition a_lookup_or_create (e : ent) : M I :=
  match e with
  | EString s =>
      and_then (of_names (ai_left ix s)) (fun result =>                              (* 76-79 *)
      match result with
      | Some id => ok id
      | None =>
          and_then new_ulid (fun id =>                                               (* 84 *)
          and_then (of_names (ai_set ix s id)) (fun _ => ok id))                     (* 85-88 *)
      end)
  | EUlid id => ok id
  end.

(** rdf.rs:95-107 *)
Definition a_lookup_entity (e : ent) : M I :=
  match e with
  | EString s =>
      and_then (of_names (ai_left ix s)) (fun result =>
      match result with Some id => ok id | None => fail (NameNotFound s) end)
  | EUlid id => ok id
  end.

(** rdf.rs:109-122 *)
Definition a_lookup_id (id : I) : M ent :=
  and_then (of_names (ai_right ix id)) (fun result =>
  ok (match result with Some s => EString s | None => EUlid id end)).

(** Triple::try_map (/repo/src/triple.rs:22-31) *)
Definition a_try_map {A B} (f : A -> M B) (t : triple A) : M (triple B) :=
  and_then (f (sub t)) (fun s => and_then (f (pred t)) (fun p => and_then (f (obj t)) (fun o => ok (Triple s p o)))).

(** /repo/src/rdf/insert.rs:16-28 *)
Definition a_insert_node (e : ent) (p : NP) : M unit :=
  and_then (a_lookup_or_create e) (fun id => of_graph (ag_insert_node gr id p)).
Definition a_insert_edge (t : triple ent) (p : EP) : M unit :=
  and_then (a_try_map a_lookup_or_create t) (fun t => of_graph (ag_insert_edge gr t p)).

(** /repo/src/rdf/remove.rs:13-23 *)
Definition a_remove_node (e : ent) : M unit :=
  and_then (a_lookup_entity e) (fun id => of_graph (ag_remove_node gr id)).
Definition a_remove_edge (t : triple ent) : M unit :=
  and_then (a_try_map a_lookup_entity t) (fun t => of_graph (ag_remove_edge gr t)).

(** /repo/src/rdf/merge.rs:39-56 *)
Definition a_merge_node (e : ent) (p : NP) : M unit :=
  and_then (a_lookup_or_create e) (fun id => of_graph (ag_merge_node gr id p)).
Definition a_merge_edge (t : triple ent) (p : EP) : M unit :=
  and_then (a_try_map a_lookup_or_create t) (fun t => of_graph (ag_merge_edge gr t p)).

(** [for r in iter { let x = r.map_err(Right)?; self.step(x).map_err(Left)? }] *)
Fixpoint a_for_each {A E} (step : A -> M unit) (l : list (result E A)) (r : R) : result (lr_error err E) unit * R :=
  match l with
  | [] => (Ok tt, r)
  | Err e :: _ => (Err (RightE e), r)
  | Ok a :: l' =>
      match step a r with
      | (Err e, r) => (Err (LeftE e), r)
      | (Ok _, r) => a_for_each step l' r
      end
  end.
(** extend.rs:16-37 and merge.rs:16-37 *)
Definition a_bulk {E} (fn : ent -> NP -> M unit) (fe : triple ent -> EP -> M unit) (other : rdf_source S NP EP E) (r : R)
    : result (lr_error err E) unit * R :=
  match a_for_each (fun ip => fn (fst ip) (snd ip)) (rs_nodes other) r with
  | (Err e, r) => (Err e, r)
  | (Ok _, r) => a_for_each (fun te => fe (fst te) (snd te)) (rs_edges other) r
  end.

(** *** /repo/src/rdf/iter.rs.  Every item is obtained from the graph and then its identifiers are
    looked up in the index, before the next item is asked for. *)
Fixpoint a_items {A B} (show : A -> M B) (items : list (Y * F -> result GE A * (Y * F))) (r : R)
    : list (result err B) * R :=
  match items with
  | [] => ([], r)
  | item :: items' =>
      let (x, r) := and_then (of_graph item) show r in
      let (xs, r) := a_items show items' r in (x :: xs, r)
  end.

(** [iter.map(f).collect::<Result<Vec<_>, _>>()] *)
Fixpoint a_collect {A B} (f : A -> M B) (l : list A) : M (list B) :=
  match l with
  | [] => ok []
  | a :: l' => and_then (f a) (fun b => and_then (a_collect f l') (fun bs => ok (b :: bs)))
  end.

(** The closures of iter.rs. *)
Definition a_show_pair {P} (ip : I * P) : M (ent * P) := and_then (a_lookup_id (fst ip)) (fun e => ok (e, snd ip)).
Definition a_show_edge (te : triple I * EP) : M (triple ent * EP) :=
  and_then (a_try_map a_lookup_id (fst te)) (fun t => ok (t, snd te)).
(** PropsTriple::try_map (/repo/src/triple.rs:90-101) *)
Definition a_show_props (t : props_triple I NP EP) : M (props_triple ent NP EP) :=
  and_then (a_show_pair (p_sub t)) (fun s => and_then (a_show_pair (p_pred t)) (fun p => and_then (a_show_pair (p_obj t)) (fun o =>
  ok (PropsTriple s p o)))).

(** iter.rs:18-26 *)
Definition a_vertices : M (list ent) := and_then (of_graph (ag_vertices gr)) (a_collect a_lookup_id).
(** iter.rs:53-60 *)
Definition a_iter_vertices (r : R) : list (result err (ent * NP)) * R :=
  a_items a_show_pair (ag_iter_vertices gr (a_graph r)) r.
(** iter.rs:76-87 *)
Definition a_iter_edges (o : edge_order) (r : R) : list (result err (triple ent * EP)) * R :=
  a_items a_show_edge (ag_iter_edges gr o (a_graph r)) r.
(** iter.rs:62-74 *)
Definition a_iter_edges_with_props (o : edge_order) (r : R) : list (result err (props_triple ent NP EP)) * R :=
  a_items a_show_props (ag_iter_props gr o (a_graph r)) r.
(** iter.rs:98-127; the two iterators are run one after the other here. *)
Definition a_into_iter_nodes (o : edge_order) (r : R)
    : (list (result err (ent * NP)) * list (result err (triple ent * EP))) * R :=
  let its := ag_into_nodes gr o (a_graph r) in
  let (ns, r) := a_items a_show_pair (fst its) r in
  let (es, r) := a_items a_show_edge (snd its) r in ((ns, es), r).

(** *** /repo/src/rdf/query.rs *)

(** Query::try_map (/repo/src/lib.rs:116-152) *)
Definition a_pair {A B} (f : A -> M B) (ab : A * A) : M (B * B) :=
  and_then (f (fst ab)) (fun a => and_then (f (snd ab)) (fun b => ok (a, b))).
Definition a_triple {A B} (f : A -> M B) (t : A * A * A) : M (B * B * B) :=
  let '(s, p, o) := t in and_then (f s) (fun s => and_then (f p) (fun p => and_then (f o) (fun o => ok (s, p, o)))).
Definition a_query {A B} (f : A -> M B) (q : query A) : M (query B) :=
  match q with
  | QNodeProps l => and_then (a_collect f l) (fun l => ok (QNodeProps l))
  | QSPO l => and_then (a_collect (a_triple f) l) (fun l => ok (QSPO l))
  | QO l => and_then (a_collect f l) (fun l => ok (QO l))
  | QS l => and_then (a_collect f l) (fun l => ok (QS l))
  | QP l => and_then (a_collect f l) (fun l => ok (QP l))
  | QPO l => and_then (a_collect (a_pair f) l) (fun l => ok (QPO l))
  | QSO l => and_then (a_collect (a_pair f) l) (fun l => ok (QSO l))
  | QSP l => and_then (a_collect (a_pair f) l) (fun l => ok (QSP l))
  end.

(** On the left the errors of this store, on the right those of the result. *)
Notation qerr := (lr_error err (rdf_error S (index_error S I) unit)).
Notation MQ A := (R -> result qerr A * R).
Definition at_left {A} (m : M A) : MQ A := fun r =>
  match m r with
  | (Ok a, r) => (Ok a, r)
  | (Err e, r) => (Err (LeftE e), r)
  end.
Definition and_then_q {A B} (m : MQ A) (f : A -> MQ B) : MQ B := fun r =>
  match m r with
  | (Ok a, r) => f a r
  | (Err e, r) => (Err e, r)
  end.

(** query.rs:49-57 and 63-71 *)
Fixpoint a_set_names (seqb : S -> S -> bool) (ids : list I) (new : mem_index S I) : MQ (mem_index S I) :=
  match ids with
  | [] => fun r => (Ok new, r)
  | id :: ids' =>
      and_then_q (at_left (a_lookup_id id)) (fun e =>
      match e with
      | EUlid _ => a_set_names seqb ids' new
      | EString s =>
          match index_set seqb id_eqb s id new with
          | (Err x, _) => fun r => (Err (RightE (NameIndexStorageError x)), r)
          | (Ok _, new) => a_set_names seqb ids' new
          end
      end)
  end.
(** query.rs:59-72 *)
Fixpoint a_set_edge_names (seqb : S -> S -> bool) (es : list (result unit (triple I * EP))) (new : mem_index S I)
    : MQ (mem_index S I) :=
  match es with
  | [] => fun r => (Ok new, r)
  | Err e :: _ => fun r => (Err (RightE (GraphStorageError e)), r)
  | Ok (t, _) :: es' =>
      and_then_q (a_set_names seqb [sub t; pred t; obj t] new) (fun new => a_set_edge_names seqb es' new)
  end.
(** query.rs:26-75.  [g] is the cloned generator of the result's graph, [u] the identifiers that
    Ulid::new() will return to the result. *)
Definition a_run (seqb : S -> S -> bool) (g u : gen KUlid) (q : query ent) : MQ (rdf S NP EP) :=
  and_then_q (at_left (a_query a_lookup_entity q)) (fun q =>
  and_then_q (at_left (of_graph (ag_run gr g q))) (fun query_graph =>
  and_then_q (a_set_names seqb (vertices query_graph) index_new) (fun ix =>
  and_then_q (a_set_edge_names seqb (iter_edges SPO query_graph) ix) (fun ix r =>
  (Ok (Rdf ix query_graph u), r))))).

(** ** Histories *)
Section History.
Context {E : Type}.
Notation rop := (rop S NP EP E).

Definition a_left (x : result err unit * R) : result (lr_error err E) unit * R :=
  (match fst x with Ok u => Ok u | Err e => Err (LeftE e) end, snd x).
Definition a_apply (o : rop) (r : R) : result (lr_error err E) unit * R :=
  match o with
  | RInsertNode e p => a_left (a_insert_node e p r)
  | RInsertEdge t p => a_left (a_insert_edge t p r)
  | RRemoveNode e => a_left (a_remove_node e r)
  | RRemoveEdge t => a_left (a_remove_edge t r)
  | RMergeNode e p => a_left (a_merge_node e p r)
  | RMergeEdge t p => a_left (a_merge_edge t p r)
  | RExtend s => a_bulk a_insert_node a_insert_edge s r
  | RMerge s => a_bulk a_merge_node a_merge_edge s r
  end.
Fixpoint a_history (l : list rop) (r : R) : list (result (lr_error err E) unit) * R :=
  match l with
  | [] => ([], r)
  | o :: l' =>
      let (x, r) := a_apply o r in
      let (xs, r) := a_history l' r in (x :: xs, r)
  end.
End History.
End Any.

(** ** The implementations in the crate *)

(** Run a program on the state of its implementor and the failures to come. *)
Definition run_on {D SE A} (p : prog D SE A) (s : D * list (option SE)) : A * (D * list (option SE)) :=
  match exec p (snd s) (fst s) with (a, d, fs) => (a, (d, fs)) end.

(** MemHashIndex (/repo/src/mem.rs:351-390) *)
Definition mem_names {S} (F : Type) (seqb : S -> S -> bool) : any_index S (mem_index S (Id KUlid)) F (index_error S (Id KUlid)) :=
  AnyIndex
    (fun s i xf => let (r, x) := index_set seqb id_eqb s i (fst xf) in (r, (x, snd xf)))
    (fun s xf => (Ok (left_to_right seqb (fst xf) s), xf))
    (fun i xf => (Ok (right_to_left id_eqb (fst xf) i), xf)).

(** SledHashIndex (/repo/src/sled.rs:382-474) *)
Definition sled_names {S BE} (SE : Type) (cs : codec BE S) (cu : codec BE (Id KUlid))
    : any_index S idb (list (option SE)) (sled_index_error S (Id KUlid) SE BE) :=
  AnyIndex (fun s i => run_on (si_set cs cu s i)) (fun s => run_on (si_left_to_right cs cu s))
    (fun i => run_on (si_right_to_left cs cu i)).

(** MemTripleStore: Mem.v; its calls never fail and its iterators are lists. *)
Definition mem_graph {NP EP} (F : Type) (mn : NP -> NP -> NP) (me : EP -> EP -> EP)
    : any_graph NP EP (mem KUlid NP EP) F unit :=
  let call (f : mem KUlid NP EP -> mem KUlid NP EP) (yf : mem KUlid NP EP * F) :=
    (Ok tt : result unit unit, (f (fst yf), snd yf)) in
  AnyGraph
    (fun i p => call (insert_node i p)) (fun t e => call (insert_edge t e))
    (fun i => call (remove_node i)) (fun t => call (remove_edge t))
    (fun i p => call (merge_node mn i p)) (fun t e => call (merge_edge me t e))
    (fun yf => (Ok (vertices (fst yf)), yf))
    (fun y => map (fun r yf => (r, yf)) (iter_vertices y))
    (fun o y => map (fun r yf => (r, yf)) (iter_edges o y))
    (fun o y => map (fun r yf => (r, yf)) (iter_edges_with_props o y))
    (fun o y => (map (fun r yf => (r, yf)) (fst (into_iter_nodes o y)), map (fun r yf => (r, yf)) (snd (into_iter_nodes o y))))
    (fun g q yf => (Ok (run g q (fst yf)), yf)).

(** SledTripleStore: Sled.v; the handle is part of the state. *)
Definition sled_graph {NP EP BE} (SE : Type) (cn : codec BE NP) (ce : codec BE EP) (mn : NP -> NP -> NP) (me : EP -> EP -> EP)
    : any_graph NP EP (db * handle KUlid) (list (option SE)) (sled_error SE BE) :=
  let call (f : handle KUlid -> prog db SE (result (sled_error SE BE) unit * handle KUlid))
      (yf : db * handle KUlid * list (option SE)) :=
    match run_on (f (snd (fst yf))) (fst (fst yf), snd yf) with ((r, h), (d, fs)) => (r, ((d, h), fs)) end in
  let item A (p : prog db SE (result (sled_error SE BE) A)) (yf : db * handle KUlid * list (option SE)) :=
    match run_on p (fst (fst yf), snd yf) with (r, (d, fs)) => (r, ((d, snd (fst yf)), fs)) end in
  AnyGraph
    (fun i p => call (fun h => and_handle h (s_insert_node cn i p))) (fun t e => call (s_insert_edge ce t e))
    (fun i => call (fun h => and_handle h (s_remove_node i))) (fun t => call (fun h => and_handle h (s_remove_edge t)))
    (fun i p => call (fun h => and_handle h (s_merge_node cn mn i p))) (fun t e => call (s_merge_edge ce me t e))
    (item _ s_vertices)
    (fun y => map (fun kv => item _ (next (node_item cn kv))) (t_node (fst y)))
    (fun o y => map (fun kv => item _ (next (edge_of_entry ce o kv))) (edge_entries o (fst y)))
    (fun o y => map (fun kv => item _ (next (props_of_entry cn ce o kv))) (edge_entries o (fst y)))
    (fun o y => (map (fun kv => item _ (next (node_item cn kv))) (t_node (fst y)),
                 map (fun kv => item _ (next (into_edge_of_entry ce o kv))) (edge_entries o (fst y))))
    (fun g q => item _ (s_run cn ce g q)).
