(** C37, C38: the identifier generators. *)
From Coq Require Import NArith List Sorted Lia.
From Verif Require Import Bytes Core IdType Store Spec IdGen GenSpec IdGenFacts Ex.
Import ListNotations.
Local Open Scope nat_scope.

(** ** C37 *)
(** A list of events is any interleaving of any threads creating, cloning and drawing.
    [drawn_from r es] are the identifiers drawn from generator [r] and all its clones. *)
Theorem C37_distinct : forall (es : list gen_event) (r : nat),
  (N.of_nat (length (drawn_from r es)) <= 2 ^ 64)%N -> NoDup (drawn_from r es).
Proof. exact drawn_NoDup. Qed.
Print Assumptions C37_distinct.

(** They count up from the initial value, wrapping around at 2^64. *)
Theorem C37_sequence : forall (es : list gen_event) (r : nat),
  nth_error (roots es) r = Some r ->
  exists v : Id KU64,
    drawn_from r es = map (fun i => uint_mk 8 (uval v + N.of_nat i)) (seq 0 (length (drawn_from r es))).
Proof. exact drawn_sequence. Qed.
Print Assumptions C37_sequence.

(** A store drawing from such a generator, at any increasing positions of its sequence,
    meets the hypothesis on generators of the theorems about stores. *)
Theorem C37_store : forall (v : Id KU64) (p : nat -> nat) (n : nat),
  (forall i j, i < j -> p i < p j) -> (forall i, i < n -> (N.of_nat (p i) < 2 ^ 64)%N) ->
  drawn_distinct (Gen (k := KU64) (fun i => uint_mk 8 (uval v + N.of_nat (p i))) n).
Proof. exact counter_drawn_distinct. Qed.
Print Assumptions C37_store.

(** Two generators starting at the last identifier and at 7, one cloned twice. *)
Definition ex_events : list gen_event :=
  [GNew (uint_max 8); GClone 0; GNew (uint_mk 8 7); GFresh 1; GFresh 0; GFresh 2; GClone 1; GFresh 3; GFresh 1; GFresh 2].
Example C37_case :
  roots ex_events = [0; 0; 2; 0] /\
  drawn_from 0 ex_events = [uint_max 8; uint_mk 8 0; uint_mk 8 1; uint_mk 8 2] /\
  drawn_from 2 ex_events = [uint_mk 8 7; uint_mk 8 8] /\ NoDup (drawn_from 0 ex_events).
Proof.
  split; [reflexivity|]. split; [vm_compute; reflexivity|]. split; [vm_compute; reflexivity|].
  apply C37_distinct. vm_compute. discriminate.
Qed.

(** ** C38 *)
(** False as stated: when the random part of an identifier is all ones and the clock has not
    advanced, fresh() falls back to Ulid::new().  The identifiers then go down and repeat,
    although the clock never goes back. *)
Theorem C38_refuted : exists rs a b c,
  (forall r r', In (r, r') rs -> clock r = 1%N /\ clock r' = 1%N) /\
  ulid_draws ulid_gen_new rs = [a; b; c] /\ id_lt b a /\ c = a.
Proof. exact ulid_not_increasing. Qed.
Print Assumptions C38_refuted.

(** True as long as no call has to fall back and the clock fits 48 bits (until year 10889),
    whether or not the clock goes back. *)
Theorem C38_partial : forall rs,
  (forall r r', In (r, r') rs -> (clock r < 2 ^ time_bits)%N) -> overflows ulid_gen_new rs = false ->
  StronglySorted id_lt (ulid_draws ulid_gen_new rs).
Proof. exact draws_increase_top. Qed.
Print Assumptions C38_partial.

(** In particular if every random number leaves room for as many increments as there are calls. *)
Theorem C38_room_partial : forall rs,
  room rs -> StronglySorted id_lt (ulid_draws ulid_gen_new rs).
Proof. exact draws_increase_room. Qed.
Print Assumptions C38_room_partial.

(** A clock that stands still, goes back and advances. *)
Definition ex_readings : list (reading * reading) :=
  [(Reading 10 5, Reading 0 0); (Reading 10 900, Reading 0 0); (Reading 3 4, Reading 0 0); (Reading 11 0, Reading 0 0)].
Example C38_case :
  room ex_readings /\
  map (@uval 16) (ulid_draws ulid_gen_new ex_readings) =
    [10 * 2 ^ 80 + 5; 10 * 2 ^ 80 + 6; 10 * 2 ^ 80 + 7; 11 * 2 ^ 80]%N.
Proof.
  split; [|vm_compute; reflexivity].
  intros r r' [E|[E|[E|[E|[]]]]]; inversion E; subst; split; vm_compute; reflexivity.
Qed.
