(** Specification side of the generator and index properties. *)
From Coq Require Import NArith List.
From Verif Require Import Bytes Core IdType IdGen MemIndex.
Import ListNotations.

(** For every handle created by the events the handle it was cloned from, directly or
    indirectly; a new generator is its own root. *)
Definition root_step (roots : list nat) (e : gen_event) : list nat :=
  match e with
  | GNew _ => roots ++ [length roots]
  | GClone h => match nth_error roots h with Some r => roots ++ [r] | None => roots end
  | GFresh _ => roots
  end.
Definition roots (es : list gen_event) : list nat := fold_left root_step es [].

(** The identifiers handed out by generator [r] and all its clones, in order. *)
Definition drawn_from (r : nat) (es : list gen_event) : list (Id KU64) :=
  map snd (filter (fun d => match nth_error (roots es) (fst d) with
                            | Some r' => Nat.eqb r' r | None => false end)
                  (snd (gen_run (U64World [] []) es))).

(** Whether some call of the sequence had to fall back to Ulid::new(). *)
Fixpoint overflows (previous : Id KUlid) (rs : list (reading * reading)) : bool :=
  match rs with
  | [] => false
  | (r, r') :: rs' =>
      match ulid_generate previous r with
      | None => true
      | Some u => overflows u rs'
      end
  end.

(** A calling pattern for the Ulid generator in which no overflow can happen: the clock is
    below 2^48 and the random numbers leave room for as many increments as there are calls. *)
Definition room (rs : list (reading * reading)) : Prop :=
  forall r r', In (r, r') rs ->
    (clock r < 2 ^ time_bits)%N /\ (random r + N.of_nat (length rs) < 2 ^ rand_bits)%N.

(** Left and right names correspond one to one. *)
Definition one_to_one {L R} (l2r : L -> option R) (r2l : R -> option L) : Prop :=
  forall l r, l2r l = Some r <-> r2l r = Some l.

Definition is_duplicate_left {L R} (x : result (index_error L R) unit) : Prop :=
  match x with Err (DuplicateLeft _ _ _) => True | _ => False end.
