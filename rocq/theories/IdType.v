(** Identifier types and table keys: /repo/src/traits/id_type.rs,
    /repo/src/id/u64.rs:11-115, /repo/src/id/ulid.rs:8-107.
    No proofs here; see IdTypeFacts.v. *)
From Coq Require Import NArith List.
From Verif Require Import Bytes Core.
Import ListNotations.

(** The two implementations of ConcreteIdType in the crate. *)
Inductive idkind : Type := KU64 | KUlid.

(** Size in bytes: /repo/src/id/u64.rs:12, /repo/src/id/ulid.rs:9 *)
Definition width (k : idkind) : nat := match k with KU64 => 8 | KUlid => 16 end.

(** u64 and Ulid *)
Definition Id (k : idkind) : Type := uint (width k).

Definition id_cmp {k} (a b : Id k) : comparison := uint_cmp a b.
Definition id_eqb {k} (a b : Id k) : bool := uint_eqb a b.
Definition id_ltb {k} (a b : Id k) : bool :=
  match id_cmp a b with Lt => true | _ => false end.

(** An array built by three [copy_from_slice] statements into [0u8; n]. *)
Definition three_writes (n : nat) (a b c : nat * nat * bytes) : option bytes :=
  let '(lo1, hi1, s1) := a in
  let '(lo2, hi2, s2) := b in
  let '(lo3, hi3, s3) := c in
  match copy_from_slice (repeat Byte.x00 n) lo1 hi1 s1 with
  | None => None
  | Some d1 =>
      match copy_from_slice d1 lo2 hi2 s2 with
      | None => None
      | Some d2 => copy_from_slice d2 lo3 hi3 s3
      end
  end.

(** The value of an expression that may panic; the panic itself is excluded by the
    lemmas [encode_no_panic] and [decode_no_panic] of IdTypeFacts.v. *)
Definition or_panic {A} (d : A) (o : option A) : A :=
  match o with Some a => a | None => d end.

(** *** u64 *)

Definition u64_to_be_bytes (a : uint 8) : bytes := uint_to_be_bytes a.       (* u64.rs:15-17 *)
Definition u64_from_be_bytes (l : bytes) : uint 8 := uint_from_be_bytes 8 l. (* u64.rs:19-21 *)
Definition u64_try_from_be_bytes (l : bytes) : option (uint 8) :=            (* u64.rs:23-28 *)
  match try_into_array 8 l with
  | Some a => Some (u64_from_be_bytes a)
  | None => None
  end.

(** /repo/src/id/u64.rs:30-36 *)
Definition u64_encode_spo_opt (t : triple (uint 8)) : option bytes :=
  three_writes 24 (0, 8, u64_to_be_bytes (sub t))
                  (8, 16, u64_to_be_bytes (pred t))
                  (16, 24, u64_to_be_bytes (obj t)).

(** /repo/src/id/u64.rs:38-44 *)
Definition u64_encode_pos_opt (t : triple (uint 8)) : option bytes :=
  three_writes 24 (0, 8, u64_to_be_bytes (pred t))
                  (8, 16, u64_to_be_bytes (obj t))
                  (16, 24, u64_to_be_bytes (sub t)).

(** /repo/src/id/u64.rs:46-52 *)
Definition u64_encode_osp_opt (t : triple (uint 8)) : option bytes :=
  three_writes 24 (0, 8, u64_to_be_bytes (obj t))
                  (8, 16, u64_to_be_bytes (sub t))
                  (16, 24, u64_to_be_bytes (pred t)).

(** [Self::from_be_bytes(data[lo..hi].try_into().unwrap())], u64.rs:55 etc. *)
Definition u64_read (data : bytes) (lo hi : nat) : option (uint 8) :=
  match index_range data lo hi with
  | None => None
  | Some s =>
      match try_into_array 8 s with
      | None => None
      | Some a => Some (u64_from_be_bytes a)
      end
  end.

(** /repo/src/id/u64.rs:54-59 *)
Definition u64_decode_spo_opt (data : bytes) : option (triple (uint 8)) :=
  match u64_read data 0 8, u64_read data 8 16, u64_read data 16 24 with
  | Some sub, Some pred, Some obj => Some (Triple sub pred obj)
  | _, _, _ => None
  end.

(** /repo/src/id/u64.rs:61-66 *)
Definition u64_decode_pos_opt (data : bytes) : option (triple (uint 8)) :=
  match u64_read data 0 8, u64_read data 8 16, u64_read data 16 24 with
  | Some pred, Some obj, Some sub => Some (Triple sub pred obj)
  | _, _, _ => None
  end.

(** /repo/src/id/u64.rs:68-73 *)
Definition u64_decode_osp_opt (data : bytes) : option (triple (uint 8)) :=
  match u64_read data 0 8, u64_read data 8 16, u64_read data 16 24 with
  | Some obj, Some sub, Some pred => Some (Triple sub pred obj)
  | _, _, _ => None
  end.

(** *** Ulid *)

Definition ulid_to_be_bytes (a : uint 16) : bytes := uint_to_be_bytes a.         (* ulid.rs:12-14 *)
Definition ulid_from_be_bytes (l : bytes) : uint 16 := uint_from_be_bytes 16 l.  (* ulid.rs:16-18 *)
Definition ulid_try_from_be_bytes (l : bytes) : option (uint 16) :=              (* ulid.rs:20-25 *)
  match try_into_array 16 l with
  | Some a => Some (ulid_from_be_bytes a)
  | None => None
  end.

(** /repo/src/id/ulid.rs:27-33 *)
Definition ulid_encode_spo_opt (t : triple (uint 16)) : option bytes :=
  three_writes 48 (0, 16, ulid_to_be_bytes (sub t))
                  (16, 32, ulid_to_be_bytes (pred t))
                  (32, 48, ulid_to_be_bytes (obj t)).

(** /repo/src/id/ulid.rs:35-41 *)
Definition ulid_encode_pos_opt (t : triple (uint 16)) : option bytes :=
  three_writes 48 (0, 16, ulid_to_be_bytes (pred t))
                  (16, 32, ulid_to_be_bytes (obj t))
                  (32, 48, ulid_to_be_bytes (sub t)).

(** /repo/src/id/ulid.rs:43-49 *)
Definition ulid_encode_osp_opt (t : triple (uint 16)) : option bytes :=
  three_writes 48 (0, 16, ulid_to_be_bytes (obj t))
                  (16, 32, ulid_to_be_bytes (sub t))
                  (32, 48, ulid_to_be_bytes (pred t)).

(** [Ulid(u128::from_be_bytes(data[lo..hi].try_into().unwrap()))], ulid.rs:52 etc. *)
Definition ulid_read (data : bytes) (lo hi : nat) : option (uint 16) :=
  match index_range data lo hi with
  | None => None
  | Some s =>
      match try_into_array 16 s with
      | None => None
      | Some a => Some (ulid_from_be_bytes a)
      end
  end.

(** /repo/src/id/ulid.rs:51-56 *)
Definition ulid_decode_spo_opt (data : bytes) : option (triple (uint 16)) :=
  match ulid_read data 0 16, ulid_read data 16 32, ulid_read data 32 48 with
  | Some sub, Some pred, Some obj => Some (Triple sub pred obj)
  | _, _, _ => None
  end.

(** /repo/src/id/ulid.rs:58-63 *)
Definition ulid_decode_pos_opt (data : bytes) : option (triple (uint 16)) :=
  match ulid_read data 0 16, ulid_read data 16 32, ulid_read data 32 48 with
  | Some pred, Some obj, Some sub => Some (Triple sub pred obj)
  | _, _, _ => None
  end.

(** /repo/src/id/ulid.rs:65-70 *)
Definition ulid_decode_osp_opt (data : bytes) : option (triple (uint 16)) :=
  match ulid_read data 0 16, ulid_read data 16 32, ulid_read data 32 48 with
  | Some obj, Some sub, Some pred => Some (Triple sub pred obj)
  | _, _, _ => None
  end.

(** *** The trait, by kind (/repo/src/traits/id_type.rs:17-52) *)

Definition to_be_bytes {k} : Id k -> bytes :=
  match k return Id k -> bytes with KU64 => u64_to_be_bytes | KUlid => ulid_to_be_bytes end.

Definition from_be_bytes {k} : bytes -> Id k :=
  match k return bytes -> Id k with KU64 => u64_from_be_bytes | KUlid => ulid_from_be_bytes end.

Definition try_from_be_bytes {k} : bytes -> option (Id k) :=
  match k return bytes -> option (Id k) with
  | KU64 => u64_try_from_be_bytes
  | KUlid => ulid_try_from_be_bytes
  end.

Definition encode_spo_opt {k} : triple (Id k) -> option bytes :=
  match k return triple (Id k) -> option bytes with
  | KU64 => u64_encode_spo_opt | KUlid => ulid_encode_spo_opt end.
Definition encode_pos_opt {k} : triple (Id k) -> option bytes :=
  match k return triple (Id k) -> option bytes with
  | KU64 => u64_encode_pos_opt | KUlid => ulid_encode_pos_opt end.
Definition encode_osp_opt {k} : triple (Id k) -> option bytes :=
  match k return triple (Id k) -> option bytes with
  | KU64 => u64_encode_osp_opt | KUlid => ulid_encode_osp_opt end.
Definition decode_spo_opt {k} : bytes -> option (triple (Id k)) :=
  match k return bytes -> option (triple (Id k)) with
  | KU64 => u64_decode_spo_opt | KUlid => ulid_decode_spo_opt end.
Definition decode_pos_opt {k} : bytes -> option (triple (Id k)) :=
  match k return bytes -> option (triple (Id k)) with
  | KU64 => u64_decode_pos_opt | KUlid => ulid_decode_pos_opt end.
Definition decode_osp_opt {k} : bytes -> option (triple (Id k)) :=
  match k return bytes -> option (triple (Id k)) with
  | KU64 => u64_decode_osp_opt | KUlid => ulid_decode_osp_opt end.

Definition id_min {k} : Id k := uint_min (width k).
Definition id_max {k} : Id k := uint_max (width k).

(** The total versions used by the stores; the defaults stand for panics. *)
Definition encode_spo {k} (t : triple (Id k)) : bytes := or_panic [] (encode_spo_opt t).
Definition encode_pos {k} (t : triple (Id k)) : bytes := or_panic [] (encode_pos_opt t).
Definition encode_osp {k} (t : triple (Id k)) : bytes := or_panic [] (encode_osp_opt t).

Definition triple_dflt {k} : triple (Id k) := Triple id_min id_min id_min.
Definition decode_spo {k} (d : bytes) : triple (Id k) := or_panic triple_dflt (decode_spo_opt d).
Definition decode_pos {k} (d : bytes) : triple (Id k) := or_panic triple_dflt (decode_pos_opt d).
Definition decode_osp {k} (d : bytes) : triple (Id k) := or_panic triple_dflt (decode_osp_opt d).

(** /repo/src/id/u64.rs:75-93; both bounds are Included. *)
Definition u64_key_bounds_1 (a : uint 8) : bytes * bytes :=
  (@encode_spo KU64 (Triple a (uint_min 8) (uint_min 8)),
   @encode_spo KU64 (Triple a (uint_max 8) (uint_max 8))).

(** /repo/src/id/u64.rs:95-114; both bounds are Included. *)
Definition u64_key_bounds_2 (a b : uint 8) : bytes * bytes :=
  (@encode_spo KU64 (Triple a b (uint_min 8)),
   @encode_spo KU64 (Triple a b (uint_max 8))).

(** /repo/src/id/ulid.rs:72-85; both bounds are Included. *)
Definition ulid_key_bounds_1 (a : uint 16) : bytes * bytes :=
  (@encode_spo KUlid (Triple a (uint_min 16) (uint_min 16)),
   @encode_spo KUlid (Triple a (uint_max 16) (uint_max 16))).

(** /repo/src/id/ulid.rs:87-106; both bounds are Included. *)
Definition ulid_key_bounds_2 (a b : uint 16) : bytes * bytes :=
  (@encode_spo KUlid (Triple a b (uint_min 16)),
   @encode_spo KUlid (Triple a b (uint_max 16))).

Definition key_bounds_1 {k} : Id k -> bytes * bytes :=
  match k return Id k -> bytes * bytes with
  | KU64 => u64_key_bounds_1 | KUlid => ulid_key_bounds_1 end.
Definition key_bounds_2 {k} : Id k -> Id k -> bytes * bytes :=
  match k return Id k -> Id k -> bytes * bytes with
  | KU64 => u64_key_bounds_2 | KUlid => ulid_key_bounds_2 end.

(** PartialEq and PartialOrd of triples of identifiers (/repo/src/triple.rs:6, 34-53). *)
Definition tr_eqb {k} (a b : triple (Id k)) : bool := triple_eqb id_eqb a b.
Definition tr_cmp {k} (a b : triple (Id k)) : comparison := triple_cmp id_cmp a b.
Definition tr_ltb {k} (a b : triple (Id k)) : bool :=
  match tr_cmp a b with Lt => true | _ => false end.
