(** What calls on an RdfTripleStore over sled should do to a graph over entities, when calls may
    fail, processes may die and several of them may run at the same time.  No proofs here. *)
From Coq Require Import NArith List Bool.
From Verif Require Import Bytes Core IdType Store Spec Prog Sled SledHistory SledSched SledIndex Rdf RdfSpec RdfSled.
Import ListNotations.

Definition e_equiv {S NP EP} (a b : egraph S NP EP) : Prop :=
  (forall n, e_node a n = e_node b n) /\ (forall t, e_edge a t = e_edge b t).

Section Spec.
Context {S NP EP SE BE E : Type} (seqb : S -> S -> bool).
Context (mn : NP -> NP -> NP) (me : EP -> EP -> EP) (c : entity S -> entity S).
Notation rop := (rop S NP EP E).
Notation EG := (egraph S NP EP).
Notation answer := (routcome (S := S) (SE := SE) (BE := BE) (E := E)).

(** The single calls that a call of extend or merge consists of. *)
Definition parts (o : rop) : list rop :=
  match o with
  | RExtend s => map (fun ip => RInsertNode (fst ip) (snd ip)) (used_nodes s) ++
                 map (fun te => RInsertEdge (fst te) (snd te)) (used_edges s)
  | RMerge s => map (fun ip => RMergeNode (fst ip) (snd ip)) (used_nodes s) ++
                map (fun te => RMergeEdge (fst te) (snd te)) (used_edges s)
  | o => [o]
  end.

(** [known] are the names that have an identifier. *)
Definition e_run (known : list S) (l : list rop) (g : EG) : EG :=
  fold_left (fun g o => e_apply seqb mn me c known o g) l g.

(** The answer when the storage works. *)
Definition r_answer (known : list S) (o : rop) : answer :=
  match o with
  | RRemoveNode e =>
      match first_unknown seqb known (name_of e) with Some s => Err (LeftE (NameNotFound s)) | None => Ok tt end
  | RRemoveEdge t =>
      match first_unknown seqb known (names_of t) with Some s => Err (LeftE (NameNotFound s)) | None => Ok tt end
  | RExtend s | RMerge s =>
      match rdf_source_error s with Some e => Err (RightE e) | None => Ok tt end
  | _ => Ok tt
  end.

(** The index or the graph failed. *)
Definition r_failed (r : answer) : bool :=
  match r with
  | Err (LeftE (NameIndexStorageError _)) | Err (LeftE (GraphStorageError _)) => true
  | _ => false
  end.

Definition removes_edge (o : rop) : Prop := match o with RRemoveEdge _ => True | _ => False end.

(** From [known] to [known'] by giving identifiers to some of [l]. *)
Definition named (l known known' : list S) : Prop := incl known known' /\ incl known' (known ++ l).

(** A call that answered [r].  It does everything, or it reports a failure and has given some
    of its names an identifier and done a first part of its single calls, not all of them; only
    remove_edge may report a failure after it took effect. *)
Definition r_effect (o : rop) (r : answer) (known : list S) (g : EG) (known' : list S) (g' : EG) : Prop :=
  if r_failed r then
    named (given o) known known' /\
    exists n, (n < length (parts o) \/ removes_edge o) /\ e_equiv g' (e_run known (firstn n (parts o)) g)
  else
    r = r_answer known o /\ (forall s, In s known' <-> In s (known ++ given o)) /\
    e_equiv g' (e_apply seqb mn me c known o g).

Fixpoint r_tracks (l : list rop) (rs : list answer) (known : list S) (g : EG) (known' : list S) (g' : EG) : Prop :=
  match l, rs with
  | [], [] => (forall s, In s known' <-> In s known) /\ e_equiv g' g
  | o :: l', r :: rs' => exists k1 g1, r_effect o r known g k1 g1 /\ r_tracks l' rs' k1 g1 known' g'
  | _, _ => False
  end.

(** Up to some moment: some calls are complete, the next one has named some of its names and
    done a first part of its single calls. *)
Definition r_moment (l : list rop) (known : list S) (g : EG) (known' : list S) (g' : EG) : Prop :=
  exists l1 l2 rs k1 g1, l = l1 ++ l2 /\ r_tracks l1 rs known g k1 g1 /\
  match l2 with
  | [] => (forall s, In s known' <-> In s k1) /\ e_equiv g' g1
  | o :: _ => named (given o) k1 known' /\ exists n, e_equiv g' (e_run k1 (firstn n (parts o)) g1)
  end.

(** ** Several callers at the same time *)

(** Calls that do not remove. *)
Definition adding (o : rop) : Prop := match o with RRemoveNode _ | RRemoveEdge _ => False | _ => True end.

(** The single calls [s] were performed by calls [l] that answered [rs]. *)
Fixpoint r_log (l : list rop) (rs : list answer) (s : list rop) : Prop :=
  match l, rs with
  | [], [] => s = []
  | o :: l', r :: rs' => exists s1 s2, s = s1 ++ s2 /\ r_log l' rs' s2 /\
      if r_failed r then exists n, n < length (parts o) /\ s1 = firstn n (parts o)
      else r = r_answer [] o /\ s1 = parts o
  | _, _ => False
  end.
(** The same of a caller that has got as far as the middle of a call. *)
Definition r_log_so_far (l : list rop) (s : list rop) : Prop :=
  exists l1 l2 rs s1, l = l1 ++ l2 /\ r_log l1 rs s1 /\
  match l2 with [] => s = s1 | o :: _ => exists n, s = s1 ++ firstn n (parts o) end.

Definition r_together (ls : list (list rop)) (known : list S) (g : EG) (known' : list S) (g' : EG) : Prop :=
  named (flat_map given (concat ls)) known known' /\
  exists ss s, Forall2 r_log_so_far ls ss /\ shuffle ss s /\ e_equiv g' (e_run [] s g).

(** ** One epoch after the other *)
Definition r_epoch (e : repoch (S := S) (NP := NP) (EP := EP) (SE := SE) (E := E)) (known : list S) (g : EG)
    (known' : list S) (g' : EG) : Prop :=
  match e with
  | Alone f => r_moment (rl_ops f) known g known' g'
  | Together k => r_together (map snd (rc_callers k)) known g known' g'
  end.
Fixpoint r_epochs (es : list (repoch (S := S) (NP := NP) (EP := EP) (SE := SE) (E := E))) (known : list S) (g : EG)
    (known' : list S) (g' : EG) : Prop :=
  match es with
  | [] => (forall s, In s known' <-> In s known) /\ e_equiv g' g
  | e :: es' => exists k1 g1, r_epoch e known g k1 g1 /\ r_epochs es' k1 g1 known' g'
  end.

(** Removals only while nobody else uses the database. *)
Definition calm (e : repoch (S := S) (NP := NP) (EP := EP) (SE := SE) (E := E)) : Prop :=
  match e with Alone _ => True | Together k => Forall (fun hl => Forall adding (snd hl)) (rc_callers k) end.

End Spec.

(** The only failures a call may report when nobody else uses the database: one of the storage
    that happened, or one of a serialiser. *)
Definition r_caused {S NP EP SE BE E} (cs : codec BE S) (cu : codec BE (Id KUlid)) (cn : codec BE NP) (ce : codec BE EP)
    (faults : list (option SE)) (r : routcome (S := S) (SE := SE) (BE := BE) (E := E)) : Prop :=
  match r with
  | Err (LeftE (NameIndexStorageError (ISledError x))) => In (Some x) faults
  | Err (LeftE (NameIndexStorageError (ISerializationError b))) => (exists s, ser cs s = Err b) \/ (exists i, ser cu i = Err b)
  | Err (LeftE (NameIndexStorageError _)) => False
  | Err (LeftE (GraphStorageError (SledError x))) => In (Some x) faults
  | Err (LeftE (GraphStorageError (SerializationError b))) => (exists p, ser cn p = Err b) \/ (exists p, ser ce p = Err b)
  | Err (LeftE (GraphStorageError _)) => False
  | _ => True
  end.

(** Caller [i] gives the name [s]. *)
Definition gives {S NP EP SE E} (k : rcrowd (S := S) (NP := NP) (EP := EP) (SE := SE) (E := E)) (i : nat) (s : S) : Prop :=
  exists h l, nth_error (rc_callers k) i = Some (h, l) /\ In s (flat_map given l).
(** The only failures a call of caller [i] may report while other callers add too: one of the
    storage that happened to this caller, one of a serialiser, or that a name which nobody had
    given before has got the identifier [a] from another caller. *)
Definition r_caused_together {S NP EP SE BE E} (cs : codec BE S) (cu : codec BE (Id KUlid)) (cn : codec BE NP) (ce : codec BE EP)
    (k : rcrowd (S := S) (NP := NP) (EP := EP) (SE := SE) (E := E)) (i : nat) (before after : S -> option (Id KUlid))
    (r : routcome (S := S) (SE := SE) (BE := BE) (E := E)) : Prop :=
  match r with
  | Err (LeftE (NameIndexStorageError (ISledError x))) => In (i, Some x) (rc_schedule k)
  | Err (LeftE (NameIndexStorageError (ISerializationError b))) => (exists s, ser cs s = Err b) \/ (exists i, ser cu i = Err b)
  | Err (LeftE (NameIndexStorageError (SDuplicateRight s a _))) =>
      before s = None /\ after s = Some a /\ gives k i s /\ exists j, j <> i /\ gives k j s
  | Err (LeftE (NameIndexStorageError (SDuplicateLeft _ _ _))) => False
  | Err (LeftE (NameNotFound _)) => False
  | Err (LeftE (GraphStorageError (SledError x))) => In (i, Some x) (rc_schedule k)
  | Err (LeftE (GraphStorageError (SerializationError b))) => (exists p, ser cn p = Err b) \/ (exists p, ser ce p = Err b)
  | Err (LeftE (GraphStorageError _)) => False
  | _ => True
  end.
(** The Ulids that the callers draw for names, at most. *)
Definition crowd_ulids {S NP EP SE E} (k : rcrowd (S := S) (NP := NP) (EP := EP) (SE := SE) (E := E)) : list (Id KUlid) :=
  flat_map (fun hl => next_ids (rh_ulids (fst hl)) (length (flat_map given (snd hl)))) (rc_callers k).

(** A failure of the storage. *)
Definition is_fault {S SE BE} (F : SE -> Prop) (e : rdf_error S (sled_index_error S (Id KUlid) SE BE) (sled_error SE BE)) : Prop :=
  exists y, F y /\ (e = NameIndexStorageError (ISledError y) \/ e = GraphStorageError (SledError y)).
Definition faulty {S SE BE} (fs : list (option SE)) (e : rdf_error S (sled_index_error S (Id KUlid) SE BE) (sled_error SE BE)) : Prop :=
  is_fault (fun y => In (Some y) fs) e.
(** The items [r] read while the storage fails here and there are those read without failures,
    except that some are failures. *)
Definition but_for_faults {S SE BE A} (fs : list (option SE))
    (v r : list (result (rdf_error S (sled_index_error S (Id KUlid) SE BE) (sled_error SE BE)) A)) : Prop :=
  Forall2 (fun v r => r = v \/ exists e, faulty fs e /\ r = Err e) v r.

(** An edge with the data of its endpoints; an error if one of them has none. *)
Definition e_full_item {S NP EP SE BE} (eg : egraph S NP EP) (te : triple (entity S) * EP)
    : result (rdf_error S (sled_index_error S (Id KUlid) SE BE) (sled_error SE BE)) (props_triple (entity S) NP EP) :=
  match e_node eg (sub (fst te)), e_node eg (obj (fst te)) with
  | Some s, Some o => Ok (PropsTriple (sub (fst te), s) (pred (fst te), snd te) (obj (fst te), o))
  | _, _ => Err (GraphStorageError MissingPropertyData)
  end.

(** An answer of the store over Mem and one of the store over sled. *)
Definition same_answer {S SE BE E} (a : result (lr_error (rdf_error S (MemIndex.index_error S (Id KUlid)) unit) E) unit)
    (b : routcome (S := S) (SE := SE) (BE := BE) (E := E)) : Prop :=
  match a, b with
  | Ok _, Ok _ => True
  | Err (LeftE (NameNotFound s)), Err (LeftE (NameNotFound s')) => s = s'
  | Err (RightE e), Err (RightE e') => e = e'
  | _, _ => False
  end.
