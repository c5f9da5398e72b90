(** Any number of processes with an RdfTripleStore over one sled database, one crowd after another, with any
    calls of /repo/src/rdf/*.rs, and why a call of one of them may fail.  No proofs here. *)
From Coq Require Import NArith List.
From Verif Require Import Bytes OMap Core IdType Store Mem Spec History Prog Sled SledHistory SledLeaf SledIndex Rdf RdfSpec
  RdfSled RdfSledSpec RdfSledLeaf.
Import ListNotations.

Section Crowd.
Context {S NP EP SE BE E : Type} (seqb : S -> S -> bool).
Context (cs : codec BE S) (cu : codec BE (Id KUlid)) (cn : codec BE NP) (ce : codec BE EP).
Context (mn : NP -> NP -> NP) (me : EP -> EP -> EP).
Notation I := (Id KUlid).
Notation rop := (rop S NP EP E).
Notation answer := (routcome (S := S) (SE := SE) (BE := BE) (E := E)).
Notation err := (rdf_error S (sled_index_error S I SE BE) (sled_error SE BE)).

(** Processes that run at the same time, as in SledCrowd.v. *)
Record name_crowd : Type := NameCrowd {
  nc_callers : list (rhandle * list rop);
  nc_cuts : nat -> nat -> cutting;
  nc_schedule : list (nat * option SE)
}.
Definition name_programs (c : name_crowd) : list (prog rdb SE (list answer * rhandle)) :=
  rl_callers cs cu cn ce mn me (nc_cuts c) 0 (nc_callers c).
Definition name_run (c : name_crowd) (d : rdb) : list (prog rdb SE (list answer * rhandle)) * rdb :=
  interleave (nc_schedule c) (name_programs c) d.
Definition name_crowds (l : list name_crowd) (d : rdb) : rdb := fold_left (fun d c => snd (name_run c d)) l d.

(** The names that a call looks for and does not give. *)
Definition sought (o : rop) : list S :=
  match o with RRemoveNode e => name_of e | RRemoveEdge t => names_of t | _ => [] end.
(** The [j]-th process gives the name [s]. *)
Definition names_it (c : name_crowd) (j : nat) (s : S) : Prop :=
  exists h l, nth_error (nc_callers c) j = Some (h, l) /\ In s (flat_map given l).
(** The Ulids for names that the crowd may draw are different from each other and from those in use. *)
Definition fresh_names (c : name_crowd) (d : rdb) : Prop :=
  NoDup (callers_ulids (nc_callers c)) /\ forall i, In i (callers_ulids (nc_callers c)) -> id_now (SE := SE) cs cu d i = None.

(** Why a call [o] of the [i]-th process of the crowd, started on [d], may fail: the storage failed in a step
    of that process; a serialiser; another process has given a name of this call that was new an identifier
    [a]; or an identifier drawn for a name was in use. *)
Definition r_excused (c : name_crowd) (d : rdb) (i : nat) (after : S -> option I) (o : rop) (e : err) : Prop :=
  match e with
  | NameIndexStorageError (ISledError x) | GraphStorageError (SledError x) => In (i, Some x) (nc_schedule c)
  | NameIndexStorageError (ISerializationError b) => (exists s, ser cs s = Err b) \/ (exists i, ser cu i = Err b)
  | GraphStorageError (SerializationError b) => (exists p, ser cn p = Err b) \/ (exists p, ser ce p = Err b)
  | NameIndexStorageError (SDuplicateRight s a _) =>
      In s (given o) /\ name_now (SE := SE) cs cu d s = None /\ after s = Some a /\ exists j, j <> i /\ names_it c j s
  | NameIndexStorageError (SDuplicateLeft _ _ _) => ~ fresh_names c d
  | GraphStorageError KeySizeError | GraphStorageError MissingPropertyData | NameNotFound _ => False
  end.
(** Otherwise it answers as alone on a storage that works, with some names [known]: at least those among the names
    it looks for that were known when the crowd started, and no others than those known in the end. *)
Definition r_answers_well (c : name_crowd) (d : rdb) (i : nat) (after : S -> option I) (o : rop) (r : answer) : Prop :=
  (exists known, (forall s, In s known -> after s <> None) /\
     (forall s, In s (sought o) -> name_now (SE := SE) cs cu d s <> None -> In s known) /\ r = r_answer seqb known o) \/
  exists e, r = Err (LeftE e) /\ r_excused c d i after o e.

(** ** Readers next to the processes *)

(** A storage failure in a step of program 0, or an identifier that cannot be serialised. *)
Definition r_troubled (schedule : list (nat * option SE)) (e : err) : Prop :=
  match e with
  | NameIndexStorageError (ISledError x) | GraphStorageError (SledError x) => In (0, Some x) schedule
  | NameIndexStorageError (ISerializationError b) => exists i, ser cu i = Err b
  | _ => False
  end.
(** The entities of a query, /repo/src/lib.rs:96-114. *)
Definition asked (q : query (entity S)) : list (entity S) :=
  match q with
  | QNodeProps l | QO l | QS l | QP l => l
  | QPO l | QSO l | QSP l => flat_map (fun ab => [fst ab; snd ab]) l
  | QSPO l => flat_map (fun t => [fst (fst t); snd (fst t); snd t]) l
  end.
(** A query may also ask for a name that cannot be serialised, or that is not known when it starts. *)
Definition q_troubled (schedule : list (nat * option SE)) (d : rdb) (q : query (entity S)) (e : err) : Prop :=
  match e with
  | NameIndexStorageError (ISerializationError b) => (exists i, ser cu i = Err b) \/ exists s, In (EString s) (asked q) /\ ser cs s = Err b
  | NameNotFound s => In (EString s) (asked q) /\ name_now (SE := SE) cs cu d s = None
  | _ => r_troubled schedule e
  end.
End Crowd.
