(** Identifier generators: /repo/src/traits/id_generator.rs, /repo/src/id/u64.rs:117-139,
    /repo/src/id/ulid.rs:109-129.  No proofs here. *)
From Coq Require Import NArith List.
From Verif Require Import Bytes Core IdType Store.
Import ListNotations.
Local Open Scope N_scope.

(** ** U64IdGenerator

    [cells] are the AtomicU64 allocated so far; a generator is a handle (an Arc) on one of
    them.  Every event is one atomic action, so a list of events is one interleaving of any
    number of threads that create, clone and draw from generators. *)
Record u64_world : Type := U64World {
  cells : list (Id KU64);
  handles : list nat
}.

Inductive gen_event : Type :=
| GNew (initial_value : Id KU64)      (* u64.rs:122-126: the next handle *)
| GClone (h : nat)                    (* u64.rs:130-134: the next handle *)
| GFresh (h : nat).                   (* u64.rs:136-138 *)

Fixpoint set_nth {A} (n : nat) (a : A) (l : list A) : list A :=
  match l, n with
  | [], _ => []
  | _ :: l', O => a :: l'
  | x :: l', S n' => x :: set_nth n' a l'
  end.

(** AtomicU64::fetch_add(1): returns the old value; the addition wraps around. *)
Definition fetch_add_1 (v : Id KU64) : Id KU64 := uint_mk 8 (uval v + 1).

(** Events on handles that do not exist are no events (they cannot be written in Rust). *)
Definition gen_step (w : u64_world) (e : gen_event) : u64_world * option (nat * Id KU64) :=
  match e with
  | GNew v => (U64World (cells w ++ [v]) (handles w ++ [length (cells w)]), None)
  | GClone h =>
      match nth_error (handles w) h with
      | Some c => (U64World (cells w) (handles w ++ [c]), None)
      | None => (w, None)
      end
  | GFresh h =>
      match nth_error (handles w) h with
      | Some c =>
          match nth_error (cells w) c with
          | Some v => (U64World (set_nth c (fetch_add_1 v) (cells w)) (handles w), Some (h, v))
          | None => (w, None)
          end
      | None => (w, None)
      end
  end.

(** What a list of events leaves, and the identifiers handed out with the handle each was
    drawn from. *)
Fixpoint gen_run (w : u64_world) (es : list gen_event) : u64_world * list (nat * Id KU64) :=
  match es with
  | [] => (w, [])
  | e :: es' =>
      let (w1, o) := gen_step w e in
      let (w2, ds) := gen_run w1 es' in
      (w2, match o with Some d => d :: ds | None => ds end)
  end.

(** ** UlidIdGenerator

    ulid::Generator and Ulid::new of the ulid crate (1.1.3; a dependency, modelled from its
    documentation): 48 bits of milliseconds followed by 80 random bits.  A reading is the
    clock in milliseconds and the random number the call obtains. *)
Definition time_bits : N := 48.
Definition rand_bits : N := 80.
Record reading : Type := Reading { clock : N; random : N }.

(** Ulid::from_datetime: the clock is cut to 48 bits. *)
Definition ulid_of (r : reading) : Id KUlid :=
  uint_mk 16 ((clock r mod 2 ^ time_bits) * 2 ^ rand_bits + random r mod 2 ^ rand_bits).

(** Ulid::increment: None if the random part is all ones. *)
Definition ulid_increment (u : Id KUlid) : option (Id KUlid) :=
  if uval u mod 2 ^ rand_bits =? 2 ^ rand_bits - 1 then None else Some (uint_mk 16 (uval u + 1)).

(** Generator::generate: increment the previous identifier if the clock has not advanced
    past it.  None is MonotonicError::Overflow, which leaves [previous] as it is. *)
Definition ulid_generate (previous : Id KUlid) (r : reading) : option (Id KUlid) :=
  if clock r <=? uval previous / 2 ^ rand_bits then ulid_increment previous else Some (ulid_of r).

(** Generator::new: the previous identifier is Ulid::nil().
    ulid.rs:114-118, and also ulid.rs:122-124: a clone is a new generator. *)
Definition ulid_gen_new : Id KUlid := uint_min 16.

(** ulid.rs:126-128; [r'] is read by Ulid::new() if it is called. *)
Definition ulid_fresh (previous : Id KUlid) (r r' : reading) : Id KUlid * Id KUlid :=
  match ulid_generate previous r with
  | Some u => (u, u)
  | None => (ulid_of r', previous)
  end.

(** The identifiers of successive fresh() calls, given the readings of each call. *)
Fixpoint ulid_draws (previous : Id KUlid) (rs : list (reading * reading)) : list (Id KUlid) :=
  match rs with
  | [] => []
  | (r, r') :: rs' =>
      let (u, previous') := ulid_fresh previous r r' in u :: ulid_draws previous' rs'
  end.
