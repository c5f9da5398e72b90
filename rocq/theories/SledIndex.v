(** SledHashIndex: /repo/src/sled.rs:338-476.  No proofs here.

    The database is the two trees opened at sled.rs:366-371; an index holds references to them
    and nothing else, so any number of indexes can use one database. *)
From Coq Require Import List.
From Verif Require Import Bytes OMap Core Prog Sled.
Import ListNotations.

Record idb : Type := IDb {
  i_l2r : tree;
  i_r2l : tree
}.
Definition idb_new : idb := IDb om_empty om_empty.

(** sled.rs:345-351.  [SE] is sled::Error, [BE] is bincode::Error. *)
Inductive sled_index_error (L R SE BE : Type) : Type :=
| SDuplicateRight (l : L) (r1 r2 : R)
| SDuplicateLeft (r : R) (l1 l2 : L)
| ISledError (e : SE)
| ISerializationError (e : BE).
Arguments SDuplicateRight {L R SE BE} l r1 r2.
Arguments SDuplicateLeft {L R SE BE} r l1 l2.
Arguments ISledError {L R SE BE} e.
Arguments ISerializationError {L R SE BE} e.

Section SledIndex.
Context {L R SE BE : Type} (cl : codec BE L) (cr : codec BE R).
Notation err := (sled_index_error L R SE BE).
Notation P A := (prog idb SE A).

(** The body of the transaction, sled.rs:389-437: what it commits, or why it aborts. *)
Definition set_body (l : L) (r : R) (lb rb : bytes) (d : idb) : result err idb :=
  match bget lb (i_l2r d) with
  | Some b =>                                                                 (* 395-410 *)
      match de cr b with
      | Err e => Err (ISerializationError e)
      | Ok r0 => Err (SDuplicateRight l r0 r)
      end
  | None =>
      let d1 := IDb (binsert lb rb (i_l2r d)) (i_r2l d) in                    (* 391-394 *)
      match bget rb (i_r2l d1) with
      | Some b =>                                                             (* 418-433 *)
          match de cl b with
          | Err e => Err (ISerializationError e)
          | Ok l0 => Err (SDuplicateLeft r l0 l)
          end
      | None => Ok (IDb (i_l2r d1) (binsert rb lb (i_r2l d1)))                (* 414-417 *)
      end
  end.

(** sled.rs:382-446 *)
Definition si_set (l : L) (r : R) : P (result err unit) :=
  match ser cl l with
  | Err e => Ret (Err (ISerializationError e))
  | Ok lb =>
      match ser cr r with
      | Err e => Ret (Err (ISerializationError e))
      | Ok rb =>
          Act (fun d => match set_body l r lb rb d with Ok d' => d' | Err _ => d end)
              (fun d => Ret (match set_body l r lb rb d with Ok _ => Ok tt | Err e => Err e end))
              (fun e => Ret (Err (ISledError e)))
      end
  end.

(** [.map(deserialize).transpose()] *)
Definition de_opt {A} (c : codec BE A) (o : option bytes) : result err (option A) :=
  match o with
  | None => Ok None
  | Some b => match de c b with Ok a => Ok (Some a) | Err e => Err (ISerializationError e) end
  end.

(** sled.rs:448-460 *)
Definition si_left_to_right (l : L) : P (result err (option R)) :=
  match ser cl l with
  | Err e => Ret (Err (ISerializationError e))
  | Ok lb => Act (fun d => d) (fun d => Ret (de_opt cr (bget lb (i_l2r d)))) (fun e => Ret (Err (ISledError e)))
  end.

(** sled.rs:462-474 *)
Definition si_right_to_left (r : R) : P (result err (option L)) :=
  match ser cr r with
  | Err e => Ret (Err (ISerializationError e))
  | Ok rb => Act (fun d => d) (fun d => Ret (de_opt cl (bget rb (i_r2l d)))) (fun e => Ret (Err (ISledError e)))
  end.

(** The calls of the trait BidirIndex and their answers. *)
Inductive icall : Type := ISet (l : L) (r : R) | ILeft (l : L) | IRight (r : R).
Inductive ianswer : Type :=
| ASet (x : result err unit)
| ALeft (x : result err (option R))
| ARight (x : result err (option L)).

Definition si_run (c : icall) : P ianswer :=
  match c with
  | ISet l r => bind (si_set l r) (fun x => Ret (ASet x))
  | ILeft l => bind (si_left_to_right l) (fun x => Ret (ALeft x))
  | IRight r => bind (si_right_to_left r) (fun x => Ret (ARight x))
  end.

(** A caller that makes the calls [l] and has got the answers [done]. *)
Fixpoint si_calls (l : list icall) (done : list ianswer) : P (list ianswer) :=
  match l with
  | [] => Ret done
  | c :: l' => bind (si_run c) (fun a => si_calls l' (done ++ [a]))
  end.

(** Any number of callers at the same time until, possibly, all of them die; then the next ones
    open the database. *)
Definition epoch : Type := (list (list icall) * list (nat * option SE))%type.
Definition si_epochs (es : list epoch) (d : idb) : idb :=
  fold_left (fun d e => snd (interleave (snd e) (map (fun l => si_calls l []) (fst e)) d)) es d.

(** The [i]-th caller makes its next call while nobody else does anything. *)
Definition si_turn (i : nat) (fault : option SE) (ts : list (list icall * list ianswer)) (d : idb)
    : list (list icall * list ianswer) * idb :=
  match nth_error ts i with
  | Some (c :: l, done) =>
      (replace_nth i (l, done ++ [ret_of (si_run c) [fault] d]) ts, db_of (si_run c) [fault] d)
  | _ => (ts, d)
  end.
Fixpoint si_one_at_a_time (order : list (nat * option SE)) (ts : list (list icall * list ianswer)) (d : idb)
    : list (list icall * list ianswer) * idb :=
  match order with
  | [] => (ts, d)
  | (i, f) :: order' => let (ts', d') := si_turn i f ts d in si_one_at_a_time order' ts' d'
  end.

(** What a look into the index answers, the storage working. *)
Definition left_now (d : idb) (l : L) : result err (option R) := ret_of (si_left_to_right l) [] d.
Definition right_now (d : idb) (r : R) : result err (option L) := ret_of (si_right_to_left r) [] d.

End SledIndex.
Arguments icall L R : clear implicits.
