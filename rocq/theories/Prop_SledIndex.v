(** C40: the name index in a sled database. *)
From Coq Require Import NArith List.
From Verif Require Import Bytes OMap Core Prog Sled SledHistory SledIndex SledIndexFacts ExSled.
Import ListNotations.

(** Any number of callers at the same time, the storage steps in any order, any of them failing,
    all of them dying at any moment, and others opening the database again, any number of times:
    at every moment the two directions are inverse to each other, and a look at a key that can
    be serialised succeeds. *)
Theorem C40_one_to_one : forall L R SE BE (cl : codec BE L) (cr : codec BE R),
  codec_ok cl -> codec_ok cr -> forall es : list (epoch (L := L) (R := R) (SE := SE)),
  let d := si_epochs cl cr es idb_new in
  (forall l r, left_now (SE := SE) cl cr d l = Ok (Some r) <-> right_now (SE := SE) cl cr d r = Ok (Some l)) /\
  (forall l, match ser cl l with
             | Ok _ => exists o, left_now (SE := SE) cl cr d l = Ok o
             | Err e => left_now (SE := SE) cl cr d l = Err (ISerializationError e)
             end) /\
  (forall r, match ser cr r with
             | Ok _ => exists o, right_now (SE := SE) cl cr d r = Ok o
             | Err e => right_now (SE := SE) cl cr d r = Err (ISerializationError e)
             end).
Proof. exact @epochs_one_to_one. Qed.
Print Assumptions C40_one_to_one.

(** No association is ever changed or lost, whatever the tables contained. *)
Theorem C40_monotone : forall L R SE BE (cl : codec BE L) (cr : codec BE R)
    (es : list (epoch (L := L) (R := R) (SE := SE))) d,
  let d' := si_epochs cl cr es d in
  (forall l r, left_now (SE := SE) cl cr d l = Ok (Some r) -> left_now (SE := SE) cl cr d' l = Ok (Some r)) /\
  (forall l r, right_now (SE := SE) cl cr d r = Ok (Some l) -> right_now (SE := SE) cl cr d' r = Ok (Some l)).
Proof. exact @epochs_keep. Qed.
Print Assumptions C40_monotone.

(** What one call of set does to such a database: success needs both sides unused and adds
    exactly one pair; every failure leaves the tables as they are; a conflict is reported with
    the existing partner, a storage or serialisation failure only if there was one. *)
Theorem C40_set : forall L R SE BE (cl : codec BE L) (cr : codec BE R),
  codec_ok cl -> codec_ok cr ->
  forall (es : list (epoch (L := L) (R := R) (SE := SE))) l r (fault : option SE),
  let d := si_epochs cl cr es idb_new in
  let x := ret_of (si_set cl cr l r) [fault] d in
  let d' := db_of (si_set cl cr l r) [fault] d in
  let left_now := left_now (SE := SE) cl cr in
  let right_now := right_now (SE := SE) cl cr in
  match x with
  | Ok _ => left_now d l = Ok None /\ right_now d r = Ok None /\
      (forall l', (l' = l -> left_now d' l' = Ok (Some r)) /\ (l' <> l -> left_now d' l' = left_now d l')) /\
      (forall r', (r' = r -> right_now d' r' = Ok (Some l)) /\ (r' <> r -> right_now d' r' = right_now d r'))
  | Err (SDuplicateRight l1 r1 r2) => l1 = l /\ r2 = r /\ left_now d l = Ok (Some r1) /\ d' = d
  | Err (SDuplicateLeft r1 l1 l2) => r1 = r /\ l2 = l /\ left_now d l = Ok None /\ right_now d r = Ok (Some l1) /\ d' = d
  | Err (ISledError e) => fault = Some e /\ d' = d
  | Err (ISerializationError e) => (ser cl l = Err e \/ ser cr r = Err e) /\ d' = d
  end.
Proof. exact @set_call. Qed.
Print Assumptions C40_set.

(** Callers at the same time get the answers of some order of all the calls, one after the
    other, on any contents of the tables. *)
Theorem C40_serial : forall L R SE BE (cl : codec BE L) (cr : codec BE R)
    (cs : list (list (icall L R))) (schedule : list (nat * option SE)) d,
  let (ps, d') := interleave schedule (map (fun l => si_calls cl cr l []) cs) d in
  exists order ts, si_one_at_a_time cl cr order (map (fun l => (l, [])) cs) d = (ts, d') /\
    (forall i rs, nth_error ps i = Some (Ret rs) -> nth_error ts i = Some ([], rs)) /\
    (forall i e, In (i, Some e) order -> In (i, Some e) schedule).
Proof. exact @index_serial. Qed.
Print Assumptions C40_serial.

(** Two callers race for the names 1 and 2; a third comes after a crash. *)
Definition race : list (epoch (L := N) (R := N) (SE := N)) :=
  [ ([[ISet 1 10; ISet 2 20; ILeft 1]; [ISet 1 11; ISet 3 20; IRight 20]],
     [(0, None); (1, None); (1, Some 7%N); (0, None); (1, None); (0, None)]%nat) ]%N.
Example C40_case :
  let d := si_epochs nc small race idb_new in
  let p := si_calls (SE := N) nc small [ISet 3 20; ISet 2 2000; ISet 2 30; ISet 4 40; IRight 40; ILeft 5]%N [] in
  map (left_now (SE := N) nc small d) [1; 2; 3]%N = [Ok (Some 10); Ok (Some 20); Ok None]%N /\
  map (right_now (SE := N) nc small d) [10; 11; 20]%N = [Ok (Some 1); Ok None; Ok (Some 2)]%N /\
  ret_of p [] d =
    [ASet (Err (SDuplicateLeft 20 2 3)); ASet (Err (ISerializationError 2000)); ASet (Err (SDuplicateRight 2 20 30));
     ASet (Ok tt); ARight (Ok (Some 4)); ALeft (Ok None)]%N.
Proof. vm_compute. auto. Qed.
