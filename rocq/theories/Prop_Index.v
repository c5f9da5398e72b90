(** C39: the in-memory name index. *)
From Coq Require Import List Arith.
From Verif Require Import Core MemIndex GenSpec IdGenFacts.
Import ListNotations.

(** False as stated: a set call that fails because the right side is taken leaves the left
    side associated with it. *)
Theorem C39_refuted : exists (h : list (nat * nat)) l r,
  left_to_right Nat.eqb (snd (index_sets Nat.eqb Nat.eqb h index_new)) l = Some r /\
  right_to_left Nat.eqb (snd (index_sets Nat.eqb Nat.eqb h index_new)) r <> Some l /\
  (exists e h', h = h' ++ [(l, r)] /\
     fst (index_sets Nat.eqb Nat.eqb h index_new) = fst (index_sets Nat.eqb Nat.eqb h' index_new) ++ [Err e] /\
     left_to_right Nat.eqb (snd (index_sets Nat.eqb Nat.eqb h' index_new)) l = None).
Proof. exact index_not_one_to_one. Qed.
Print Assumptions C39_refuted.

(** True of every history in which no call failed that way. *)
Theorem C39_partial : forall L R (leqb : L -> L -> bool) (reqb : R -> R -> bool),
  (forall a b, leqb a b = true <-> a = b) -> (forall a b, reqb a b = true <-> a = b) ->
  forall h, (forall x, In x (fst (index_sets leqb reqb h index_new)) -> ~ is_duplicate_left x) ->
  one_to_one (left_to_right leqb (snd (index_sets leqb reqb h index_new)))
             (right_to_left reqb (snd (index_sets leqb reqb h index_new))).
Proof. exact @index_one_to_one. Qed.
Print Assumptions C39_partial.

(** In every history one direction holds: what right_to_left answers is what left_to_right answers. *)
Theorem C39_right_partial : forall L R (leqb : L -> L -> bool) (reqb : R -> R -> bool),
  (forall a b, leqb a b = true <-> a = b) -> (forall a b, reqb a b = true <-> a = b) ->
  forall h l r, right_to_left reqb (snd (index_sets leqb reqb h index_new)) r = Some l ->
                left_to_right leqb (snd (index_sets leqb reqb h index_new)) l = Some r.
Proof. exact @index_right_sound. Qed.
Print Assumptions C39_right_partial.

(** No association is ever changed or lost, from whatever index one starts. *)
Theorem C39_monotone : forall L R (leqb : L -> L -> bool) (reqb : R -> R -> bool),
  (forall a b, leqb a b = true <-> a = b) -> (forall a b, reqb a b = true <-> a = b) ->
  forall h m,
  (forall l r, left_to_right leqb m l = Some r ->
     left_to_right leqb (snd (index_sets leqb reqb h m)) l = Some r) /\
  (forall l r, right_to_left reqb m r = Some l ->
     right_to_left reqb (snd (index_sets leqb reqb h m)) r = Some l).
Proof. exact @sets_monotone. Qed.
Print Assumptions C39_monotone.

(** What one call does: success needs both sides unused and adds exactly one pair; the errors
    carry the new and the existing partner; an occupied left side changes nothing. *)
Theorem C39_set : forall L R (leqb : L -> L -> bool) (reqb : R -> R -> bool) l r m,
  let m' := snd (index_set leqb reqb l r m) in
  match fst (index_set leqb reqb l r m) with
  | Ok _ => left_to_right leqb m l = None /\ right_to_left reqb m r = None /\
      (forall l', left_to_right leqb m' l' = if leqb l' l then Some r else left_to_right leqb m l') /\
      (forall r', right_to_left reqb m' r' = if reqb r' r then Some l else right_to_left reqb m r')
  | Err (DuplicateRight l1 r1 r2) =>
      l1 = l /\ r1 = r /\ left_to_right leqb m l = Some r2 /\ m' = m
  | Err (DuplicateLeft r1 l1 l2) =>
      r1 = r /\ l1 = l /\ left_to_right leqb m l = None /\ right_to_left reqb m r = Some l2 /\
      (forall l', left_to_right leqb m' l' = if leqb l' l then Some r else left_to_right leqb m l') /\
      (forall r', right_to_left reqb m' r' = right_to_left reqb m r')
  end.
Proof. exact @set_spec. Qed.
Print Assumptions C39_set.

Example C39_case :
  let x := index_sets Nat.eqb Nat.eqb [(1, 5); (2, 6); (1, 7); (3, 8)] index_new in
  fst x = [Ok tt; Ok tt; Err (DuplicateRight 1 7 5); Ok tt] /\
  map (left_to_right Nat.eqb (snd x)) [1; 2; 3; 4] = [Some 5; Some 6; Some 8; None] /\
  map (right_to_left Nat.eqb (snd x)) [5; 6; 7; 8] = [Some 1; Some 2; None; Some 3] /\
  (forall y, In y (fst x) -> ~ is_duplicate_left y) /\
  fst (index_sets Nat.eqb Nat.eqb [(1, 5); (2, 5); (2, 6)] index_new) =
    [Ok tt; Err (DuplicateLeft 5 2 1); Err (DuplicateRight 2 6 5)].
Proof.
  simpl. repeat split.
  intros y [<-|[<-|[<-|[<-|[]]]]] H; exact H.
Qed.
