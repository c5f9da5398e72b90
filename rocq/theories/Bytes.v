(** Bytes, byte strings and fixed-width big-endian integers.

    This file models the parts of Rust's core library used by
    /repo/src/id/u64.rs:11-115 and /repo/src/id/ulid.rs:8-107:
    unsigned integers of fixed width, [to_be_bytes], [from_be_bytes],
    [copy_from_slice], range indexing and the comparison of byte arrays.
    No proofs here; see BytesFacts.v. *)
From Coq Require Import NArith List.
From Coq.Init Require Import Byte.
From Coq.Strings Require Import Byte.
Import ListNotations.
Local Open Scope N_scope.

(** A byte string; keys of BTreeMap tables ([u8; 24], [u8; 48]:
    /repo/src/id/u64.rs:12-13, /repo/src/id/ulid.rs:9-10) and of sled trees. *)
Definition bytes := list byte.

(** The number of values of a [w]-byte unsigned integer (u64: w = 8, u128: w = 16). *)
Definition modulus (w : nat) : N := 256 ^ N.of_nat w.

(** A [w]-byte unsigned integer: u64 (/repo/src/id/u64.rs:11) for [w = 8];
    the u128 inside Ulid (/repo/src/id/ulid.rs:8) for [w = 16].  The bound is a
    boolean equation so that equality of integers is equality of their values. *)
Record uint (w : nat) : Type := UInt { uval : N; uint_ok : (uval <? modulus w) = true }.
Arguments UInt {w} uval uint_ok.
Arguments uval {w} u.
Arguments uint_ok {w} u.

(** Low byte of a number (Rust [as u8]), used by [to_be_bytes]
    (/repo/src/id/u64.rs:15-17). *)
Definition byte_of (n : N) : byte :=
  match Byte.of_N (n mod 256) with Some b => b | None => x00 end.

(** [to_be_bytes] on numbers: most significant byte first
    (/repo/src/id/u64.rs:15-17, /repo/src/id/ulid.rs:12-14). *)
Fixpoint be_bytes (w : nat) (n : N) : bytes :=
  match w with
  | O => []
  | S w' => byte_of (n / modulus w') :: be_bytes w' n
  end.

(** [from_be_bytes] on numbers (/repo/src/id/u64.rs:19-21, /repo/src/id/ulid.rs:16-18). *)
Definition be_val (l : bytes) : N :=
  fold_left (fun acc b => acc * 256 + Byte.to_N b) l 0.

Lemma uint_mk_ok : forall w n, (n mod modulus w <? modulus w) = true.
Proof.
  intros w n. apply N.ltb_lt. apply N.mod_lt. unfold modulus.
  apply N.pow_nonzero. discriminate.
Qed.

(** Replaces a proof of [b = true] by the canonical one, so that integers compute. *)
Definition canon_true (b : bool) : b = true -> b = true :=
  match b with true => fun _ => eq_refl | false => fun h => h end.

(** Wrapping conversion of a number to a fixed-width integer. *)
Definition uint_mk (w : nat) (n : N) : uint w :=
  UInt (n mod modulus w) (canon_true _ (uint_mk_ok w n)).

(** [u64::MIN] and [Ulid(u128::MIN)] (/repo/src/id/u64.rs:84, /repo/src/id/ulid.rs:76). *)
Definition uint_min (w : nat) : uint w := uint_mk w 0.

(** [u64::MAX] and [Ulid(u128::MAX)] (/repo/src/id/u64.rs:89, /repo/src/id/ulid.rs:81). *)
Definition uint_max (w : nat) : uint w := uint_mk w (modulus w - 1).

(** Ord on u64 and on Ulid (derived on its single u128 field). *)
Definition uint_cmp {w} (a b : uint w) : comparison := uval a ?= uval b.

(** PartialEq on u64 and on Ulid. *)
Definition uint_eqb {w} (a b : uint w) : bool := uval a =? uval b.

Definition uint_to_be_bytes {w} (u : uint w) : bytes := be_bytes w (uval u).

(** The argument type is an array of length [w] in Rust; on lists of another
    length (which no caller produces) the value is reduced to the width. *)
Definition uint_from_be_bytes (w : nat) (l : bytes) : uint w := uint_mk w (be_val l).

(** [<&[u8; N]>::try_from(slice)] (/repo/src/id/u64.rs:23-28, /repo/src/id/ulid.rs:20-25):
    succeeds exactly on slices of length N. *)
Definition try_into_array (n : nat) (l : bytes) : option bytes :=
  if Nat.eqb (length l) n then Some l else None.

(** [data[lo..hi].copy_from_slice(src)] (/repo/src/id/u64.rs:32-34 and similar lines).
    [None] is the panic: the range is out of bounds or the lengths differ. *)
Definition copy_from_slice (data : bytes) (lo hi : nat) (src : bytes) : option bytes :=
  if (Nat.leb lo hi && Nat.leb hi (length data) && Nat.eqb (length src) (hi - lo))%bool
  then Some (firstn lo data ++ src ++ skipn hi data)
  else None.

(** [data[lo..hi]] (/repo/src/id/u64.rs:55-57 and similar lines); [None] is the panic. *)
Definition index_range (data : bytes) (lo hi : nat) : option bytes :=
  if (Nat.leb lo hi && Nat.leb hi (length data))%bool
  then Some (firstn (hi - lo) (skipn lo data))
  else None.

(** Order of bytes. *)
Definition byte_cmp (a b : byte) : comparison := Byte.to_N a ?= Byte.to_N b.

(** Ord on [u8; N] and on byte slices: lexicographic, a proper prefix is smaller.
    This is the key order of BTreeMap<[u8; N], _> and of sled::Tree. *)
Fixpoint bytes_cmp (a b : bytes) : comparison :=
  match a, b with
  | [], [] => Eq
  | [], _ :: _ => Lt
  | _ :: _, [] => Gt
  | x :: a', y :: b' =>
      match byte_cmp x y with
      | Eq => bytes_cmp a' b'
      | c => c
      end
  end.
