(** Programs that use a shared database, and the ways they can be executed: alone with
    storage failures, cut short by a crash, or interleaved with other programs.

    This models how /repo/src/sled.rs and /repo/src/sled/*.rs use sled: every call on a
    sled::Tree and every sled transaction is one atomic step.  That sled provides this, and
    that a failing call has no effect, is part of the trusted base.  No proofs here. *)
From Coq Require Import List.
From Verif Require Import Core.
Import ListNotations.

Section Prog.
Context {D SE : Type}.

(** [Look]: take a snapshot (the start of a scan); cannot fail.
    [Act]: change the database by [upd] and go on with [k], which sees the database as it was
    just before the change; if the storage engine fails with [e], go on with [fail e]. *)
Inductive prog (A : Type) : Type :=
| Ret (a : A)
| Look (k : D -> prog A)
| Act (upd : D -> D) (k : D -> prog A) (fail : SE -> prog A).
Arguments Ret {A} a.
Arguments Look {A} k.
Arguments Act {A} upd k fail.

Fixpoint bind {A B} (p : prog A) (f : A -> prog B) : prog B :=
  match p with
  | Ret a => f a
  | Look k => Look (fun d => bind (k d) f)
  | Act u k e => Act u (fun d => bind (k d) f) (fun x => bind (e x) f)
  end.

(** The [?] operator: stop at an error. *)
Definition bind_ok {A B E} (p : prog (result E A)) (f : A -> prog (result E B)) : prog (result E B) :=
  bind p (fun r => match r with Ok a => f a | Err e => Ret (Err e) end).

(** Sequential execution.  The [n]-th storage call fails with [e] if the [n]-th element of
    [faults] is [Some e], and succeeds otherwise. *)
Fixpoint exec {A} (p : prog A) (faults : list (option SE)) (d : D) : A * D * list (option SE) :=
  match p with
  | Ret a => (a, d, faults)
  | Look k => exec (k d) faults d
  | Act u k e =>
      match faults with
      | Some x :: faults' => exec (e x) faults' d
      | _ :: faults' => exec (k d) faults' (u d)
      | [] => exec (k d) [] (u d)
      end
  end.

Definition ret_of {A} (p : prog A) (faults : list (option SE)) (d : D) : A := fst (fst (exec p faults d)).
Definition db_of {A} (p : prog A) (faults : list (option SE)) (d : D) : D := snd (fst (exec p faults d)).

(** The database a process leaves that dies after [n] storage calls. *)
Fixpoint crash {A} (n : nat) (p : prog A) (faults : list (option SE)) (d : D) : D :=
  match p with
  | Ret _ => d
  | Look k => crash n (k d) faults d
  | Act u k e =>
      match n with
      | O => d
      | S n' =>
          match faults with
          | Some x :: faults' => crash n' (e x) faults' d
          | _ :: faults' => crash n' (k d) faults' (u d)
          | [] => crash n' (k d) [] (u d)
          end
      end
  end.

(** One step of one program. *)
Definition step1 {A} (fault : option SE) (p : prog A) (d : D) : prog A * D :=
  match p with
  | Ret a => (Ret a, d)
  | Look k => (k d, d)
  | Act u k e => match fault with Some x => (e x, d) | None => (k d, u d) end
  end.

Fixpoint replace_nth {X} (n : nat) (x : X) (l : list X) : list X :=
  match l, n with
  | [], _ => []
  | _ :: l', O => x :: l'
  | y :: l', S n' => y :: replace_nth n' x l'
  end.

(** Interleaved execution of several programs: the schedule says which one moves next and
    whether its storage call fails. *)
Fixpoint interleave {A} (schedule : list (nat * option SE)) (ps : list (prog A)) (d : D)
    : list (prog A) * D :=
  match schedule with
  | [] => (ps, d)
  | (i, fault) :: schedule' =>
      match nth_error ps i with
      | Some p => let (p', d') := step1 fault p d in interleave schedule' (replace_nth i p' ps) d'
      | None => interleave schedule' ps d
      end
  end.

(** [for x in l { f(x)? }] with a state. *)
Fixpoint for_ok {X S E} (f : X -> S -> prog (result E S)) (l : list X) (s : S) : prog (result E S) :=
  match l with
  | [] => Ret (Ok s)
  | x :: l' => bind_ok (f x s) (fun s' => for_ok f l' s')
  end.

(** [iter.map(f)], run to its end. *)
Fixpoint map_prog {X Y} (f : X -> prog Y) (l : list X) : prog (list Y) :=
  match l with
  | [] => Ret []
  | x :: l' => bind (f x) (fun y => bind (map_prog f l') (fun ys => Ret (y :: ys)))
  end.

End Prog.
Arguments prog D SE A : clear implicits.
Arguments Ret {D SE A} a.
Arguments Look {D SE A} k.
Arguments Act {D SE A} upd k fail.
