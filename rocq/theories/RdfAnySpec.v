(** What is required of a name index and of a graph, and what calls on an RdfTripleStore made of
    them should do to a graph over entities.  No proofs here. *)
From Coq Require Import NArith List Bool.
From Verif Require Import Bytes OMap Core IdType Store Mem MemIndex Spec History GenSpec Prog Sled SledIndex SledHistory Rdf RdfSpec RdfSled RdfSledSpec RdfAny.
Import ListNotations.

(** ** The name index.  [l2r] and [r2l] are the names in a state, [calm] the environments in which
    nothing fails.  [good] are the states the index can be in; a state that a set with an
    identifier that has a name leaves behind need not be one of them. *)
Record names_ok {S X F IE} (ix : any_index S X F IE) (calm : F -> Prop) (good : X -> Prop)
    (l2r : X -> S -> option (Id KUlid)) (r2l : X -> Id KUlid -> option S) : Prop := {
  no_one : forall x, good x -> one_to_one (l2r x) (r2l x);
  no_left : forall s x f r x' f', good x -> ai_left ix s (x, f) = (r, (x', f')) ->
    good x' /\ (forall t, l2r x' t = l2r x t) /\ forall a, r = Ok a -> a = l2r x s;
  no_right : forall i x f r x' f', good x -> ai_right ix i (x, f) = (r, (x', f')) ->
    x' = x /\ forall a, r = Ok a -> a = r2l x i;
  no_set : forall s i x f r x' f', good x -> r2l x i = None -> ai_set ix s i (x, f) = (r, (x', f')) ->
    good x' /\ (forall t, t <> s -> l2r x' t = l2r x t) /\
    match r with
    | Ok _ => l2r x s = None /\ l2r x' s = Some i
    | Err _ => l2r x' s = l2r x s
    end;
  no_calm : forall i x f, good x -> calm f -> ai_right ix i (x, f) = (Ok (r2l x i), (x, f));
  no_find : forall s i x f, good x -> calm f -> l2r x s = Some i -> ai_left ix s (x, f) = (Ok (Some i), (x, f))
}.

(** ** The graph *)
Definition takes_edge {k NP EP E} (o : op k NP EP E) : Prop := match o with ORemoveEdge _ => True | _ => False end.
Definition single_call {k NP EP E} (o : op k NP EP E) : Prop :=
  match o with OExtend _ | OMerge _ => False | _ => True end.
Definition uses_id {k NP EP E} (o : op k NP EP E) : nat :=
  match o with OInsertEdge _ _ | OMergeEdge _ _ => 1 | _ => 0 end.

Definition ag_apply {NP EP Y F GE E} (gr : any_graph NP EP Y F GE) (o : op KUlid NP EP E) (yf : Y * F)
    : result GE unit * (Y * F) :=
  match o with
  | OInsertNode i p => ag_insert_node gr i p yf
  | OInsertEdge t e => ag_insert_edge gr t e yf
  | ORemoveNode i => ag_remove_node gr i yf
  | ORemoveEdge t => ag_remove_edge gr t yf
  | OMergeNode i p => ag_merge_node gr i p yf
  | OMergeEdge t e => ag_merge_edge gr t e yf
  | OExtend _ | OMerge _ => (Ok tt, yf)
  end.

(** What the items of an iterator are in a state: in any environment each of them changes nothing
    and is right or an error, and in a calm one it is right. *)
Definition yields {Y F GE A} (calm : F -> Prop) (y : Y) (items : list (Y * F -> result GE A * (Y * F)))
    (l : list (result GE A)) : Prop :=
  Forall2 (fun it r =>
    (forall f, calm f -> it (y, f) = (r, (y, f))) /\
    (forall f r' y' f', it (y, f) = (r', (y', f')) -> y' = y /\ (r' = r \/ exists e, r' = Err e))) items l.

(** [abs] is the graph in a state; [good n] are the states in which [n] more edges can be added. *)
Record graph_ok {NP EP Y F GE} (E : Type) (gr : any_graph NP EP Y F GE) (mn : NP -> NP -> NP) (me : EP -> EP -> EP)
    (calm : F -> Prop) (good : nat -> Y -> Prop) (abs : Y -> graph KUlid NP EP) : Prop := {
  go_less : forall n y, good (S n) y -> good n y;
  go_call : forall (o : op KUlid NP EP E) n y f r y' f', single_call o -> good (uses_id o + n) y ->
    ag_apply gr o (y, f) = (r, (y', f')) ->
    good n y' /\
    match r with
    | Ok _ => g_equiv (abs y') (spec_apply mn me o (abs y))
    | Err _ => g_equiv (abs y') (abs y) \/ (takes_edge o /\ g_equiv (abs y') (spec_apply mn me o (abs y)))
    end;
  go_vertices : forall n y, good n y -> exists l, yields calm y (ag_iter_vertices gr y) l /\ lists_nodes l (g_node (abs y));
  go_edges : forall o n y, good n y -> exists l, yields calm y (ag_iter_edges gr o y) l /\ lists_edges o l (g_edge (abs y));
  go_run : forall g q n y f, good n y -> calm f -> exists m g',
    ag_run gr g q (y, f) = (Ok m, (y, f)) /\ answers q (abs y) g' /\ (drawn_distinct (id_generator m) -> shows m g')
}.

(** ** Answers *)
Section Answers.
Context {S NP EP IE GE E : Type} (seqb : S -> S -> bool) (mn : NP -> NP -> NP) (me : EP -> EP -> EP).
Context (c : entity S -> entity S).
Notation rop := (rop S NP EP E).
Notation EG := (egraph S NP EP).
Notation answer := (result (lr_error (rdf_error S IE GE) E) unit).

(** The answer when neither the index nor the graph fails; [known] are the names that have an
    identifier. *)
Definition n_answer (known : list S) (o : rop) : answer :=
  match o with
  | RRemoveNode e =>
      match first_unknown seqb known (name_of e) with Some s => Err (LeftE (NameNotFound s)) | None => Ok tt end
  | RRemoveEdge t =>
      match first_unknown seqb known (names_of t) with Some s => Err (LeftE (NameNotFound s)) | None => Ok tt end
  | RExtend s | RMerge s =>
      match rdf_source_error s with Some e => Err (RightE e) | None => Ok tt end
  | _ => Ok tt
  end.

(** The index or the graph failed. *)
Definition n_failed (r : answer) : bool :=
  match r with
  | Err (LeftE (NameIndexStorageError _)) | Err (LeftE (GraphStorageError _)) => true
  | _ => false
  end.

(** A call that answered [r]: as in RdfSledSpec.v. *)
Definition n_effect (o : rop) (r : answer) (known : list S) (g : EG) (known' : list S) (g' : EG) : Prop :=
  if n_failed r then
    named (given o) known known' /\
    exists n, (n < length (parts o) \/ removes_edge o) /\ e_equiv g' (e_run seqb mn me c known (firstn n (parts o)) g)
  else
    r = n_answer known o /\ (forall s, In s known' <-> In s (known ++ given o)) /\
    e_equiv g' (e_apply seqb mn me c known o g).

Fixpoint n_tracks (l : list rop) (rs : list answer) (known : list S) (g : EG) (known' : list S) (g' : EG) : Prop :=
  match l, rs with
  | [], [] => (forall s, In s known' <-> In s known) /\ e_equiv g' g
  | o :: l', r :: rs' => exists k1 g1, n_effect o r known g k1 g1 /\ n_tracks l' rs' k1 g1 known' g'
  | _, _ => False
  end.
End Answers.

(** [eg] is the graph [g] with the names [r2l]. *)
Definition seen {S NP EP} (r2l : Id KUlid -> option S) (g : graph KUlid NP EP) (eg : egraph S NP EP) : Prop :=
  (forall e p, e_node eg e = Some p <-> exists i, e = shown r2l i /\ g_node g i = Some p) /\
  (forall t p, e_edge eg t = Some p <-> exists u, t = triple_map (shown r2l) u /\ g_edge g u = Some p).

(** The readers list the graph over entities, in the order of the identifiers behind them, when
    nothing fails. *)
Definition a_shows {S NP EP X Y F IE GE} (ix : any_index S X F IE) (gr : any_graph NP EP Y F GE) (calm : F -> Prop)
    (r2l : X -> Id KUlid -> option S) (r : any_rdf X Y F) (eg : egraph S NP EP) : Prop :=
  forall f, calm f ->
  let r0 := AnyRdf (a_names r) (a_graph r) (a_ulids r) f in
  lists (behind_lt (r2l (a_names r))) (fst (a_iter_vertices ix gr r0)) (e_node eg) /\
  forall o, lists (behind_edge_lt (r2l (a_names r)) o) (fst (a_iter_edges ix gr o r0)) (e_edge eg).

(** The same items, but errors in place of some. *)
Definition but_for_errors {E A} (l l' : list (result E A)) : Prop :=
  Forall2 (fun r r' => r' = r \/ exists e, r' = Err e) l l'.

(** ** The states of the four implementations *)

(** MemHashIndex: the two maps are inverse to each other. *)
Definition mem_names_good {S} (seqb : S -> S -> bool) (x : mem_index S (Id KUlid)) : Prop :=
  one_to_one (left_to_right seqb x) (right_to_left id_eqb x).

(** SledHashIndex: what the lookups answer when the storage works. *)
Definition sled_l2r {S BE} (SE : Type) (cs : codec BE S) (cu : codec BE (Id KUlid)) (x : idb) (s : S) : option (Id KUlid) :=
  match left_now (SE := SE) cs cu x s with Ok r => r | Err _ => None end.
Definition sled_r2l {S BE} (SE : Type) (cs : codec BE S) (cu : codec BE (Id KUlid)) (x : idb) (i : Id KUlid) : option S :=
  match right_now (SE := SE) cs cu x i with Ok r => r | Err _ => None end.

(** The storage works from now on. *)
Definition works {SE} (f : list (option SE)) : Prop := f = [].

(** ** The stores of Rdf.v and RdfSled.v among those of RdfAny.v *)
Definition of_rdf {S NP EP F} (r : rdf S NP EP) (f : F) : any_rdf (mem_index S (Id KUlid)) (mem KUlid NP EP) F :=
  AnyRdf (name_index r) (r_graph r) (r_ulids r) f.
Definition of_rdb {SE} (h : rhandle) (d : rdb) (f : list (option SE)) : any_rdf idb (db * handle KUlid) (list (option SE)) :=
  AnyRdf (r_names d) (r_trees d, rh_graph h) (rh_ulids h) f.
