(** Several handles on one database at the same time: what it means that their calls took
    effect one after the other.  No proofs here. *)
From Coq Require Import NArith List.
From Verif Require Import Bytes OMap Core IdType Store Mem Spec History Prog Sled SledHistory.
Import ListNotations.

Section Sched.
Context {k : idkind} {NP EP SE BE E : Type} (cn : codec BE NP) (ce : codec BE EP).
Context (mn : NP -> NP -> NP) (me : EP -> EP -> EP).
Notation P A := (prog db SE A).
Notation op := (op k NP EP E).
Notation outcome := (outcome (SE := SE) (BE := BE) (E := E)).

(** The calls that consist of one storage step (/repo/src/sled/insert.rs:18-65,
    /repo/src/sled/merge.rs:38-160). *)
Definition transactional (o : op) : Prop :=
  match o with
  | OInsertNode _ _ | OInsertEdge _ _ | OMergeNode _ _ | OMergeEdge _ _ => True
  | _ => False
  end.

(** A caller between two calls: its handle, the calls it is going to make, and what the calls
    it made have answered. *)
Record thread : Type := Thread {
  th_handle : handle k;
  th_todo : list op;
  th_done : list outcome
}.

Definition start (hl : handle k * list op) : thread := Thread (fst hl) (snd hl) [].

(** The [i]-th caller makes its next call, while nobody else does anything; [faults] says which
    storage steps fail. *)
Definition turn (i : nat) (faults : list (option SE)) (ts : list thread) (d : db) : list thread * db :=
  match nth_error ts i with
  | Some (Thread h (o :: l) rs) =>
      let p := sled_apply cn ce mn me o h in
      let rh := ret_of p faults d in
      (replace_nth i (Thread (snd rh) l (rs ++ [fst rh])) ts, db_of p faults d)
  | _ => (ts, d)
  end.

Fixpoint one_at_a_time (order : list (nat * list (option SE))) (ts : list thread) (d : db)
    : list thread * db :=
  match order with
  | [] => (ts, d)
  | (i, faults) :: order' => let (ts', d') := turn i faults ts d in one_at_a_time order' ts' d'
  end.

(** All of them running at the same time. *)
Definition callers (ts : list (handle k * list op)) : list (P (list outcome * handle k)) :=
  map (fun hl => sled_history cn ce mn me (snd hl) (fst hl)) ts.

(** [l] consists of the lists [ls], each in its own order. *)
Inductive shuffle {A} : list (list A) -> list A -> Prop :=
| Shuffle_nil ls : Forall (fun l => l = []) ls -> shuffle ls []
| Shuffle_cons ls i x l r :
    nth_error ls i = Some (x :: l) -> shuffle (replace_nth i l ls) r -> shuffle ls (x :: r).

Definition succeeded (r : outcome) : bool :=
  match r with Err (LeftE _) => false | _ => true end.

(** The answers of a caller that is through. *)
Definition answers_of (p : P (list outcome * handle k)) : list outcome :=
  match p with Ret rsh => fst rsh | _ => [] end.

(** The calls of every caller with their answers. *)
Definition logs (ts : list (handle k * list op)) (ps : list (P (list outcome * handle k)))
    : list (list (op * outcome)) :=
  map (fun x => combine (snd (fst x)) (answers_of (snd x))) (combine ts ps).

(** The edges a call writes, and those it takes away. *)
Definition writes (o : op) (t : triple (Id k)) : Prop :=
  match o with OInsertEdge u _ | OMergeEdge u _ => u = t | _ => False end.
Definition erases (o : op) (t : triple (Id k)) : Prop :=
  match o with ORemoveEdge u => u = t | ORemoveNode n => sub t = n \/ obj t = n | _ => False end.

(** No caller writes an edge that another one takes away. *)
Definition independent (cs : list (handle k * list op)) : Prop :=
  forall i j hi hj li lj o o' t, i <> j ->
  nth_error cs i = Some (hi, li) -> nth_error cs j = Some (hj, lj) ->
  In o li -> In o' lj -> erases o t -> ~ writes o' t.

(** From the graph [g] to [g'] by one call that answered [r].  A call does what it
    should, or reports a failure and has no effect; only remove_edge may report a failure after
    it took effect. *)
Definition moved (o : op) (r : outcome) (g g' : graph k NP EP) : Prop :=
  if succeeded r then r = expected o /\ g_equiv g' (spec_apply mn me o g)
  else g_equiv g' g \/ (match o with ORemoveEdge _ => True | _ => False end /\ g_equiv g' (spec_apply mn me o g)).

Fixpoint moves (s : list (op * outcome)) (g g' : graph k NP EP) : Prop :=
  match s with
  | [] => g_equiv g' g
  | (o, r) :: s' => exists g1, moved o r g g1 /\ moves s' g1 g'
  end.

End Sched.
