(** The specification of the RDF store: a graph over entities, without identifiers of names,
    tables or generators. *)
From Coq Require Import NArith List Bool.
From Verif Require Import Bytes Core IdType Store Spec Rdf.
Import ListNotations.

Record egraph (S NP EP : Type) : Type := EGraph {
  e_node : entity S -> option NP;
  e_edge : triple (entity S) -> option EP
}.
Arguments EGraph {S NP EP} e_node e_edge.
Arguments e_node {S NP EP} e.
Arguments e_edge {S NP EP} e.

Section Ops.
Context {S NP EP E : Type} (seqb : S -> S -> bool).
Notation ent := (entity S).
Notation EG := (egraph S NP EP).
Notation err := (rdf_error S (MemIndex.index_error S (Id KUlid)) unit).
Notation same := (entity_eqb seqb).
Notation same3 := (triple_eqb (entity_eqb seqb)).

Definition e_empty : EG := EGraph (fun _ => None) (fun _ => None).
Definition e_put_node (n : ent) (p : NP) (g : EG) : EG :=
  EGraph (fun i => if same i n then Some p else e_node g i) (e_edge g).
Definition e_put_edge (t : triple ent) (e : EP) (g : EG) : EG :=
  EGraph (e_node g) (fun u => if same3 u t then Some e else e_edge g u).
Definition e_del_edge (t : triple ent) (g : EG) : EG :=
  EGraph (e_node g) (fun u => if same3 u t then None else e_edge g u).
Definition e_del_node (n : ent) (g : EG) : EG :=
  EGraph (fun i => if same i n then None else e_node g i)
         (fun u => if same (sub u) n || same (obj u) n then None else e_edge g u).
Definition e_merge_node (mn : NP -> NP -> NP) (n : ent) (p : NP) (g : EG) : EG :=
  e_put_node n (merged mn (e_node g n) p) g.
Definition e_merge_edge (me : EP -> EP -> EP) (t : triple ent) (e : EP) (g : EG) : EG :=
  e_put_edge t (merged me (e_edge g t) e) g.

(** The items of a source that are used: nodes first, then edges, up to the first error. *)
Definition used_nodes (s : rdf_source S NP EP E) : list (ent * NP) := before_error (rs_nodes s).
Definition used_edges (s : rdf_source S NP EP E) : list (triple ent * EP) :=
  match first_error (rs_nodes s) with Some _ => [] | None => before_error (rs_edges s) end.
Definition rdf_source_error (s : rdf_source S NP EP E) : option E :=
  match first_error (rs_nodes s) with Some e => Some e | None => first_error (rs_edges s) end.

Definition e_bulk (fn : ent -> NP -> EG -> EG) (fe : triple ent -> EP -> EG -> EG)
    (s : rdf_source S NP EP E) (g : EG) : EG :=
  fold_left (fun g te => fe (fst te) (snd te) g) (used_edges s)
    (fold_left (fun g ip => fn (fst ip) (snd ip) g) (used_nodes s) g).

(** ** Names *)
Definition name_of (e : ent) : list S := match e with EString s => [s] | EUlid _ => [] end.
Definition names_of (t : triple ent) : list S := name_of (sub t) ++ name_of (pred t) ++ name_of (obj t).

(** The names that a call may give an identifier. *)
Definition given (o : rop S NP EP E) : list S :=
  match o with
  | RInsertNode e _ | RMergeNode e _ => name_of e
  | RInsertEdge t _ | RMergeEdge t _ => names_of t
  | RRemoveNode _ | RRemoveEdge _ => []
  | RExtend s | RMerge s =>
      flat_map (fun ip => name_of (fst ip)) (used_nodes s) ++
      flat_map (fun te => names_of (fst te)) (used_edges s)
  end.

(** The entities that a call mentions. *)
Definition ends (t : triple ent) : list ent := [sub t; pred t; obj t].
Definition entities_of (o : rop S NP EP E) : list ent :=
  match o with
  | RInsertNode e _ | RMergeNode e _ | RRemoveNode e => [e]
  | RInsertEdge t _ | RMergeEdge t _ | RRemoveEdge t => ends t
  | RExtend s | RMerge s =>
      map (fun ip => fst ip) (used_nodes s) ++ flat_map (fun te => ends (fst te)) (used_edges s)
  end.

(** The first of the names not among [known]. *)
Definition first_unknown (known names : list S) : option S :=
  find (fun s => negb (existsb (seqb s) known)) names.

(** ** Histories.  [known] are the names used so far by inserts and merges.  An entity may be
    given by its name or by the identifier of its name; [c] replaces the latter by the former. *)
Section Apply.
Context (mn : NP -> NP -> NP) (me : EP -> EP -> EP) (c : ent -> ent).

Definition e_apply (known : list S) (o : rop S NP EP E) (g : EG) : EG :=
  match o with
  | RInsertNode e p => e_put_node (c e) p g
  | RInsertEdge t p => e_put_edge (triple_map c t) p g
  | RRemoveNode e =>
      match first_unknown known (name_of e) with Some _ => g | None => e_del_node (c e) g end
  | RRemoveEdge t =>
      match first_unknown known (names_of t) with Some _ => g | None => e_del_edge (triple_map c t) g end
  | RMergeNode e p => e_merge_node mn (c e) p g
  | RMergeEdge t p => e_merge_edge me (triple_map c t) p g
  | RExtend s => e_bulk (fun e => e_put_node (c e)) (fun t => e_put_edge (triple_map c t)) s g
  | RMerge s => e_bulk (fun e => e_merge_node mn (c e)) (fun t => e_merge_edge me (triple_map c t)) s g
  end.

Definition e_answer (known : list S) (o : rop S NP EP E) : result (lr_error err E) unit :=
  match o with
  | RRemoveNode e =>
      match first_unknown known (name_of e) with Some s => Err (LeftE (NameNotFound s)) | None => Ok tt end
  | RRemoveEdge t =>
      match first_unknown known (names_of t) with Some s => Err (LeftE (NameNotFound s)) | None => Ok tt end
  | RExtend s | RMerge s =>
      match rdf_source_error s with Some e => Err (RightE e) | None => Ok tt end
  | _ => Ok tt
  end.

Fixpoint e_history (known : list S) (l : list (rop S NP EP E)) (g : EG)
    : list (result (lr_error err E) unit) * EG :=
  match l with
  | [] => ([], g)
  | o :: l' =>
      let (xs, g') := e_history (known ++ given o) l' (e_apply known o g) in
      (e_answer known o :: xs, g')
  end.

End Apply.

(** ** Observation *)

(** How an identifier is shown: by its name if it has one. *)
Definition shown (r2l : Id KUlid -> option S) (i : Id KUlid) : ent :=
  match r2l i with Some s => EString s | None => EUlid i end.
Definition by_name (r2l : Id KUlid -> option S) (e : ent) : ent :=
  match e with EString s => EString s | EUlid i => shown r2l i end.


(** Order of the identifiers behind the entities. *)
Definition behind_lt (r2l : Id KUlid -> option S) (a b : ent) : Prop :=
  exists i j, shown r2l i = a /\ shown r2l j = b /\ id_lt i j.
Definition behind_edge_lt (r2l : Id KUlid -> option S) (o : edge_order) (a b : triple ent) : Prop :=
  exists t u, triple_map (shown r2l) t = a /\ triple_map (shown r2l) u = b /\ edge_lt o t u.

End Ops.

(** The store displays the graph, in the order of the identifiers. *)
Definition rdf_shows {S NP EP} (r : rdf S NP EP) (g : egraph S NP EP) : Prop :=
  let r2l := MemIndex.right_to_left id_eqb (name_index r) in
  lists (behind_lt r2l) (rdf_iter_vertices r) (e_node g) /\
  forall o, lists (behind_edge_lt r2l o) (rdf_iter_edges o r) (e_edge g).

(** The identifier of an entity. *)
Definition denotes {S NP EP} (seqb : S -> S -> bool) (r : rdf S NP EP) (e : entity S) (i : Id KUlid) : Prop :=
  match e with EString s => MemIndex.left_to_right seqb (name_index r) s = Some i | EUlid j => i = j end.

(** One of the calls has reported an error of the name index. *)
Definition index_error_in {S E}
    (xs : list (result (lr_error (rdf_error S (MemIndex.index_error S (Id KUlid)) unit) E) unit)) : Prop :=
  exists y, In (Err (LeftE (NameIndexStorageError y))) xs.

(** The edge of an item of iter_edges_with_props. *)
Definition pt_edge {S NP EP} (x : props_triple (entity S) NP EP) : triple (entity S) :=
  Triple (fst (p_sub x)) (fst (p_pred x)) (fst (p_obj x)).

(** ** Queries *)

(** [g'] is the part of [g] selected by [q]. *)
Definition e_answers {S NP EP} (q : query (entity S)) (g g' : egraph S NP EP) : Prop :=
  (forall n p, e_node g' n = Some p <-> selects_node q n /\ e_node g n = Some p) /\
  (forall t e, e_edge g' t = Some e <-> selects q t /\ e_edge g t = Some e).

(** The entities a query mentions. *)
Definition mentioned {I} (q : query I) : list I :=
  match q with
  | QNodeProps l | QO l | QS l | QP l => l
  | QSPO l => flat_map (fun t => let '(s, p, o) := t in [s; p; o]) l
  | QPO l | QSO l | QSP l => flat_map (fun ab => [fst ab; snd ab]) l
  end.

(** [es] are the edges of [g] selected by [q], each once. *)
Definition matching {S NP EP} (q : query (entity S)) (g : egraph S NP EP) (es : list (triple (entity S))) : Prop :=
  NoDup es /\ forall t, In t es <-> selects q t /\ e_edge g t <> None.

(** ** Equality *)
Definition same_egraph {S NP EP} (neqb : NP -> NP -> bool) (eeqb : EP -> EP -> bool) (a b : egraph S NP EP) : Prop :=
  (forall e, opt_rel neqb (e_node a e) (e_node b e)) /\ (forall t, opt_rel eeqb (e_edge a t) (e_edge b t)).

(** Two orders agree on everything that has a value. *)
Definition same_order {A P} (f : A -> option P) (lt lt' : A -> A -> Prop) : Prop :=
  forall x y, f x <> None -> f y <> None -> (lt x y <-> lt' x y).
