(** MemHashIndex: /repo/src/mem.rs:320-391 and /repo/src/traits/bidir_index.rs.
    No proofs here.  A HashMap is the list of its entries; its iteration order is never
    observed.  [leqb] and [reqb] are Eq of the two types. *)
From Coq Require Import List.
From Verif Require Import Core.
Import ListNotations.

Section HashMap.
Context {K V : Type} (eqb : K -> K -> bool).

(** HashMap::get *)
Fixpoint h_get (k : K) (m : list (K * V)) : option V :=
  match m with
  | [] => None
  | (k', v) :: m' => if eqb k k' then Some v else h_get k m'
  end.

End HashMap.

Section MemIndex.
Context {L R : Type} (leqb : L -> L -> bool) (reqb : R -> R -> bool).

(** mem.rs:332-335 *)
Record mem_index : Type := MemIndex {
  idx_l2r : list (L * R);
  idx_r2l : list (R * L)
}.

(** mem.rs:327-330 *)
Inductive index_error : Type :=
| DuplicateRight (l : L) (r1 r2 : R)
| DuplicateLeft (r : R) (l1 l2 : L).

(** mem.rs:338-343 *)
Definition index_new : mem_index := MemIndex [] [].

(** mem.rs:383-389; never an error *)
Definition left_to_right (m : mem_index) (l : L) : option R := h_get leqb l (idx_l2r m).
Definition right_to_left (m : mem_index) (r : R) : option L := h_get reqb r (idx_r2l m).

(** mem.rs:351-381: the first map is already changed when the second is looked up. *)
Definition index_set (l : L) (r : R) (m : mem_index) : result index_error unit * mem_index :=
  match left_to_right m l with
  | Some r0 => (Err (DuplicateRight l r r0), m)                               (* 357-363 *)
  | None =>
      let m1 := MemIndex ((l, r) :: idx_l2r m) (idx_r2l m) in                 (* 353-356 *)
      match right_to_left m1 r with
      | Some l0 => (Err (DuplicateLeft r l l0), m1)                           (* 371-377 *)
      | None => (Ok tt, MemIndex (idx_l2r m1) ((r, l) :: idx_r2l m1))         (* 367-370 *)
      end
  end.

(** A history of set calls, with the results. *)
Fixpoint index_sets (h : list (L * R)) (m : mem_index) : list (result index_error unit) * mem_index :=
  match h with
  | [] => ([], m)
  | (l, r) :: h' =>
      let (x, m1) := index_set l r m in
      let (xs, m2) := index_sets h' m1 in (x :: xs, m2)
  end.

End MemIndex.
Arguments mem_index L R : clear implicits.
Arguments index_error L R : clear implicits.
