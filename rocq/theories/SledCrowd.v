(** Any number of processes on one database, one crowd after another, with any calls of
    /repo/src/sled/*.rs, and why a call of one of them may fail.  No proofs here. *)
From Coq Require Import NArith List.
From Verif Require Import Bytes OMap Core IdType Store Mem Spec History Prog Sled SledHistory SledLeaf.
Import ListNotations.

Section Crowd.
Context {k : idkind} {NP EP SE BE E : Type} (cn : codec BE NP) (ce : codec BE EP).
Context (mn : NP -> NP -> NP) (me : EP -> EP -> EP).
Notation op := (op k NP EP E).
Notation outcome := (outcome (SE := SE) (BE := BE) (E := E)).

(** Processes that run at the same time.  [c_cuts] are the ends of the leaves that their scans
    meet.  A process that the schedule leaves unfinished has died there. *)
Record crowd : Type := Crowd {
  c_callers : list (handle k * list op);
  c_cuts : nat -> nat -> cutting;
  c_schedule : list (nat * option SE)
}.
Definition crowd_programs (c : crowd) : list (prog db SE (list outcome * handle k)) :=
  l_callers cn ce mn me (c_cuts c) 0 (c_callers c).
Definition crowd_run (c : crowd) (d : db) : list (prog db SE (list outcome * handle k)) * db :=
  interleave (c_schedule c) (crowd_programs c) d.
(** The database that several crowds leave, one after another. *)
Definition crowds (cs : list crowd) (d : db) : db := fold_left (fun d c => snd (crowd_run c d)) cs d.

(** A failure of the storage in a step of the [i]-th process, or of a serialiser: not one of decoding a key or
    a value, and not missing property data. *)
Definition excused (schedule : list (nat * option SE)) (i : nat) (e : sled_error SE BE) : Prop :=
  match e with
  | SledError x => In (i, Some x) schedule
  | SerializationError b => (exists p, ser cn p = Err b) \/ (exists p, ser ce p = Err b)
  | KeySizeError | MissingPropertyData => False
  end.
(** The call answers as it does alone on a storage that works, or has such an excuse. *)
Definition answers_well (schedule : list (nat * option SE)) (i : nat) (o : op) (r : outcome) : Prop :=
  r = expected o \/ exists e, r = Err (LeftE e) /\ excused schedule i e.
End Crowd.
