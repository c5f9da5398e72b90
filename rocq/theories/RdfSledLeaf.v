(** The scans of an RdfTripleStore over sled, read piece by piece, as in SledLeaf.v: the iterators of
    /repo/src/rdf/iter.rs run over the leaves of the trees of the graph and look every identifier
    up in the index when they deliver the item (the closures are called in [next]); the query and
    remove_node scan too.  RdfSled.v is the case without cuts; only the code that scans is repeated
    here.  No proofs here. *)
From Coq Require Import NArith List Bool.
From Verif Require Import Bytes OMap Core IdType Store Mem MemIndex Spec Prog Sled SledHistory SledLeaf SledBeside
  SledIndex Rdf RdfSpec RdfSled.
Import ListNotations.

Section Leaf.
Context {S NP EP SE BE : Type}.
Context (cs : codec BE S) (cu : codec BE (Id KUlid)) (cn : codec BE NP) (ce : codec BE EP).
Notation I := (Id KUlid).
Notation ent := (entity S).
Notation gerr := (sled_error SE BE).
Notation err := (rdf_error S (sled_index_error S (Id KUlid) SE BE) gerr).
Notation P A := (prog rdb SE A).
Notation PR A := (prog rdb SE (result err A)).
Notation PH A := (prog rdb SE (result err A * rhandle)).

(** [self.graph.iter().map(show)], from [lo] on *)
Fixpoint rl_scan_from {A B} (entries : db -> list (bytes * bytes)) (item : bytes * bytes -> prog db SE (result gerr A))
    (show : A -> PR B) (lo : option bytes) (cuts : list bytes) : P (list (result err B)) :=
  match cuts with
  | [] => Look (fun d => map_prog (shown_item item show) (piece lo None (entries (r_trees d))))
  | c :: cuts' =>
      bind (Look (fun d => map_prog (shown_item item show) (piece lo (Some c) (entries (r_trees d))))) (fun xs =>
      bind (rl_scan_from entries item show (Some (later lo c)) cuts') (fun ys => Ret (xs ++ ys)))
  end.
Definition rl_scan {A B} (cuts : list bytes) (entries : db -> list (bytes * bytes))
    (item : bytes * bytes -> prog db SE (result gerr A)) (show : A -> PR B) : P (list (result err B)) :=
  rl_scan_from entries item show None cuts.

(** /repo/src/rdf/iter.rs:18-26 *)
Definition rl_vertices (cuts : list bytes) : PR (list ent) :=
  bind (on_graph (l_vertices cuts)) (fun r =>
  match r with Err e => Ret (Err (GraphStorageError e)) | Ok is => collect_prog (rs_lookup_id cs cu) is end).
(** iter.rs:53-60 and 129-135 *)
Definition rl_iter_vertices (cuts : list bytes) : P (list (result err (ent * NP))) :=
  rl_scan cuts t_node (node_item cn) (rs_show_pair cs cu).
(** iter.rs:76-87 and 153-165 *)
Definition rl_iter_edges (cuts : list bytes) (o : edge_order) : P (list (result err (triple ent * EP))) :=
  rl_scan cuts (edge_entries o) (edge_of_entry ce o) (rs_show_edge cs cu).
(** iter.rs:62-74 and 137-151 *)
Definition rl_iter_edges_with_props (cuts : list bytes) (o : edge_order) : P (list (result err (props_triple ent NP EP))) :=
  rl_scan cuts (edge_entries o) (props_of_entry cn ce o) (rs_show_props cs cu).

(** /repo/src/rdf/query.rs:26-75 *)
Definition rl_run (cuts : bytes * bytes -> list bytes) (seqb : S -> S -> bool) (g u : gen KUlid) (q : query ent)
    : prog rdb SE (result (lr_error err (rdf_error S (index_error S (Id KUlid)) unit)) (rdf S NP EP)) :=
  bind_ok (on_left (query_try_prog (rs_lookup_entity cs cu) q)) (fun q =>
  bind_ok (on_left (bind (on_graph (l_run cn ce cuts g q)) (fun r => Ret (from_graph r)))) (fun query_graph =>
  bind_ok (rs_set_names cs cu seqb (vertices query_graph) index_new) (fun ix =>
  bind_ok (rs_set_edge_names cs cu seqb (iter_edges SPO query_graph) ix) (fun ix =>
  Ret (Ok (Rdf ix query_graph u)))))).

(** /repo/src/rdf/remove.rs:13-16 *)
Definition rl_remove_node (c : cutting) (e : ent) (h : rhandle) : PH unit :=
  bind_h (bind (rs_lookup_entity cs cu e) (fun r => Ret (r, h))) (fun id =>
  graph_call (fun g => and_handle g (l_remove_node c id))).

(** ** Histories *)
Section History.
Context {E : Type} (mn : NP -> NP -> NP) (me : EP -> EP -> EP).
Notation rop := (rop S NP EP E).
Notation routcome := (routcome (S := S) (SE := SE) (BE := BE) (E := E)).

Definition rl_apply (c : cutting) (o : rop) (h : rhandle) : P (routcome * rhandle) :=
  match o with
  | RRemoveNode e => left_out (rl_remove_node c e h)
  | _ => rs_apply cs cu cn ce mn me o h
  end.

(** [cuts j] are the cuts of the [j]-th call of the caller; the next call is number [j]. *)
Fixpoint rl_history (cuts : nat -> cutting) (j : nat) (l : list rop) (h : rhandle) : P (list routcome * rhandle) :=
  match l with
  | [] => Ret ([], h)
  | o :: l' =>
      bind (rl_apply (cuts j) o h) (fun rh =>
      bind (rl_history cuts (Datatypes.S j) l' (snd rh)) (fun rsh => Ret (fst rh :: fst rsh, snd rsh)))
  end.

(** Several callers; [cuts i] are the cuts of the [i]-th, starting from number [i0]. *)
Fixpoint rl_callers (cuts : nat -> nat -> cutting) (i0 : nat) (ts : list (rhandle * list rop))
    : list (P (list routcome * rhandle)) :=
  match ts with
  | [] => []
  | hl :: ts' => rl_history (cuts i0) 0 (snd hl) (fst hl) :: rl_callers cuts (Datatypes.S i0) ts'
  end.

(** The keys for property records that the callers draw, at most. *)
Definition callers_keys (ts : list (rhandle * list rop)) : list bytes :=
  flat_map (fun hl => rs_keys (fst hl) (snd hl)) ts.

(** The calls that take no property record away. *)
Definition r_adds_only (o : rop) : Prop :=
  match o with RInsertNode _ _ | RInsertEdge _ _ | RMergeNode _ _ | RExtend _ => True | _ => False end.
(** The calls that may take the property record of the edge [t] away and write it anew or not; [den]
    says which identifier an entity stands for.  extend inserts (/repo/src/rdf/extend.rs:16-37). *)
Definition r_rewrites (den : entity S -> I -> Prop) (o : rop) (t : triple I) : Prop :=
  let den3 (t' : triple (entity S)) := den (sub t') (sub t) /\ den (pred t') (pred t) /\ den (obj t') (obj t) in
  match o with
  | RInsertNode _ _ | RInsertEdge _ _ | RMergeNode _ _ | RExtend _ => False
  | RRemoveNode e => den e (sub t) \/ den e (obj t)
  | RRemoveEdge t' | RMergeEdge t' _ => den3 t'
  | RMerge s => exists t' p, In (t', p) (used_edges s) /\ den3 t'
  end.
(** One of the callers makes such a call. *)
Definition r_rewritten (den : entity S -> I -> Prop) (ts : list (rhandle * list rop)) (t : triple I) : Prop :=
  exists hl o, In hl ts /\ In o (snd hl) /\ r_rewrites den o t.
End History.
End Leaf.

(** ** What there is at a moment *)

(** An iteration run alone on the database lists the entity, or the triple. *)
Definition r_lists_node (SE : Type) {S NP BE} (cs : codec BE S) (cu : codec BE (Id KUlid)) (cn : codec BE NP)
    (d : rdb) (e : entity S) (p : NP) : Prop :=
  In (Ok (e, p)) (ret_of (rs_iter_vertices (SE := SE) cs cu cn) [] d).
Definition r_lists_edge (SE : Type) {S EP BE} (cs : codec BE S) (cu : codec BE (Id KUlid)) (ce : codec BE EP) (o : edge_order)
    (d : rdb) (t : triple (entity S)) (p : EP) : Prop :=
  In (Ok (t, p)) (ret_of (rs_iter_edges (SE := SE) cs cu ce o) [] d).
(** The identifier that the entity stands for at a moment. *)
Definition r_denotes (SE : Type) {S BE} (cs : codec BE S) (cu : codec BE (Id KUlid)) (d : rdb) (e : entity S) (i : Id KUlid) : Prop :=
  match e with EUlid j => j = i | EString n => name_now (SE := SE) cs cu d n = Some i end.
(** The entity is what the identifier is called at a moment in [seen]. *)
Definition called (SE : Type) {S BE} (cs : codec BE S) (cu : codec BE (Id KUlid)) (seen : rdb -> Prop)
    (i : Id KUlid) (e : entity S) : Prop :=
  exists d, seen d /\ e = shown (id_now (SE := SE) cs cu d) i.
Definition called3 (SE : Type) {S BE} (cs : codec BE S) (cu : codec BE (Id KUlid)) (seen : rdb -> Prop)
    (t : triple (Id KUlid)) (t' : triple (entity S)) : Prop :=
  called SE cs cu seen (sub t) (sub t') /\ called SE cs cu seen (pred t) (pred t') /\ called SE cs cu seen (obj t) (obj t').
(** A moment in [seen] at which everything that has a name at [d] has it still. *)
Definition knowing (SE : Type) {S BE} (cs : codec BE S) (cu : codec BE (Id KUlid)) (seen : rdb -> Prop) (d d' : rdb) : Prop :=
  seen d' /\ forall i s, id_now (SE := SE) cs cu d i = Some s -> id_now (SE := SE) cs cu d' i = Some s.
(** The Ulids that the callers draw for names, at most. *)
Definition callers_ulids {S NP EP E} (ts : list (rhandle * list (rop S NP EP E))) : list (Id KUlid) :=
  flat_map (fun hl => next_ids (rh_ulids (fst hl)) (length (flat_map given (snd hl)))) ts.
(** The identifier is shown itself, having no name, as a vertex or in an edge. *)
Definition r_nameless (SE : Type) {S NP EP BE} (cs : codec BE S) (cu : codec BE (Id KUlid)) (cn : codec BE NP) (ce : codec BE EP)
    (d : rdb) (i : Id KUlid) : Prop :=
  (exists p, r_lists_node SE cs cu cn d (EUlid i) p) \/
  exists t p, r_lists_edge SE cs cu ce SPO d t p /\ In (EUlid i) (ends t).
(** No identifier that is drawn for a name is mentioned by a call or is in the database without a name. *)
Definition apart_from_names (SE : Type) {S NP EP BE E} (cs : codec BE S) (cu : codec BE (Id KUlid)) (cn : codec BE NP) (ce : codec BE EP)
    (d : rdb) (ts : list (rhandle * list (rop S NP EP E))) : Prop :=
  forall i, In i (callers_ulids ts) ->
    ~ In (EUlid i) (flat_map (fun hl => flat_map entities_of (snd hl)) ts) /\ ~ r_nameless SE cs cu cn ce d i.
(** The edge was there at a moment, and one of its ends was not at a moment. *)
Definition was_bare (SE : Type) {S NP EP BE} (cs : codec BE S) (cu : codec BE (Id KUlid)) (cn : codec BE NP) (ce : codec BE EP)
    (seen : rdb -> Prop) (o : edge_order) (t : triple (Id KUlid)) : Prop :=
  (exists d p, seen d /\ r_lists_edge SE cs cu ce o d (triple_map (shown (id_now (SE := SE) cs cu d)) t) p) /\
  exists i d, (i = sub t \/ i = obj t) /\ seen d /\ forall p, ~ r_lists_node SE cs cu cn d (shown (id_now (SE := SE) cs cu d) i) p.
