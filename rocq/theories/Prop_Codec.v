(** C01 - C05: identifiers, table keys, key bounds and the order of triples. *)
From Coq Require Import NArith List Bool Lia Arith.
From Coq.Strings Require Import Byte.
From Verif Require Import Bytes BytesFacts OMap OMapFacts Core IdType IdTypeFacts Store Spec CodecFacts.
Import ListNotations.

(** ** C01 *)
Theorem C01_roundtrip : forall k (a : Id k),
  from_be_bytes (to_be_bytes a) = a /\ try_from_be_bytes (to_be_bytes a) = Some a.
Proof. exact id_roundtrip. Qed.
Print Assumptions C01_roundtrip.

(** Every array of the right length is the encoding of exactly one identifier, the one
    from_be_bytes and try_from_be_bytes return. *)
Theorem C01_bijection : forall k (l : bytes), length l = width k ->
  forall a : Id k, to_be_bytes a = l <-> (from_be_bytes l = a /\ try_from_be_bytes l = Some a).
Proof. exact id_bijection. Qed.
Print Assumptions C01_bijection.

Theorem C01_length : forall k (a : Id k), length (to_be_bytes a) = width k.
Proof. exact @to_be_bytes_length. Qed.
Print Assumptions C01_length.

Theorem C01_wrong_length : forall k (l : bytes),
  @try_from_be_bytes k l = None <-> length l <> width k.
Proof. exact try_from_none. Qed.
Print Assumptions C01_wrong_length.

(** Big endian: byte number i (from the left) is the i-th most significant digit. *)
Theorem C01_big_endian : forall k (a : Id k) i, i < width k ->
  exists b, nth_error (to_be_bytes a) i = Some b /\
    Byte.to_N b = ((uval a / 256 ^ N.of_nat (width k - 1 - i)) mod 256)%N.
Proof. exact id_big_endian. Qed.
Print Assumptions C01_big_endian.

Example C01_case :
  to_be_bytes (uint_mk 8 258 : Id KU64) = [x00;x00;x00;x00;x00;x00;x01;x02]
  /\ @try_from_be_bytes KUlid [x00] = None
  /\ length (repeat xff 16) = width KUlid.
Proof. repeat split. Qed.

(** ** C02: the encoders and decoders never panic and are inverse bijections. *)
Theorem C02_decode_encode : forall k (t : triple (Id k)),
  (exists d, encode_spo_opt t = Some d /\ length d = 3 * width k /\ decode_spo_opt d = Some t) /\
  (exists d, encode_pos_opt t = Some d /\ length d = 3 * width k /\ decode_pos_opt d = Some t) /\
  (exists d, encode_osp_opt t = Some d /\ length d = 3 * width k /\ decode_osp_opt d = Some t).
Proof. exact triple_decode_encode. Qed.
Print Assumptions C02_decode_encode.

Theorem C02_encode_decode : forall k (d : bytes), length d = 3 * width k ->
  (exists t : triple (Id k), decode_spo_opt d = Some t /\ encode_spo_opt t = Some d) /\
  (exists t : triple (Id k), decode_pos_opt d = Some t /\ encode_pos_opt t = Some d) /\
  (exists t : triple (Id k), decode_osp_opt d = Some t /\ encode_osp_opt t = Some d).
Proof. exact triple_encode_decode. Qed.
Print Assumptions C02_encode_decode.

Theorem C02_keys_distinct : forall k (t u : triple (Id k)), t <> u ->
  encode_spo_opt t <> encode_spo_opt u /\
  encode_pos_opt t <> encode_pos_opt u /\
  encode_osp_opt t <> encode_osp_opt u.
Proof. exact triple_keys_distinct. Qed.
Print Assumptions C02_keys_distinct.

(** The layouts named by the functions: components in that sequence. *)
Theorem C02_layout : forall k (t : triple (Id k)),
  encode_spo_opt t = Some (to_be_bytes (sub t) ++ to_be_bytes (pred t) ++ to_be_bytes (obj t)) /\
  encode_pos_opt t = Some (to_be_bytes (pred t) ++ to_be_bytes (obj t) ++ to_be_bytes (sub t)) /\
  encode_osp_opt t = Some (to_be_bytes (obj t) ++ to_be_bytes (sub t) ++ to_be_bytes (pred t)).
Proof. exact triple_layout. Qed.
Print Assumptions C02_layout.

Definition ex_triple : triple (Id KU64) := Triple (uint_mk 8 1) (uint_mk 8 513) (uint_max 8).

Example C02_case :
  encode_osp_opt ex_triple =
    Some (repeat xff 8 ++ [x00;x00;x00;x00;x00;x00;x00;x01] ++ [x00;x00;x00;x00;x00;x00;x02;x01])
  /\ decode_osp_opt (repeat xff 8 ++ [x00;x00;x00;x00;x00;x00;x00;x01]
                       ++ [x00;x00;x00;x00;x00;x00;x02;x01]) = Some ex_triple.
Proof. vm_compute. auto. Qed.

(** ** C03 *)
Theorem C03_key_order : forall k (t u : triple (Id k)),
  (bytes_cmp (encode_spo t) (encode_spo u) = Lt <-> edge_lt SPO t u) /\
  (bytes_cmp (encode_pos t) (encode_pos u) = Lt <-> edge_lt POS t u) /\
  (bytes_cmp (encode_osp t) (encode_osp u) = Lt <-> edge_lt OSP t u).
Proof. exact key_order. Qed.
Print Assumptions C03_key_order.

Theorem C03_key_eq : forall k (t u : triple (Id k)),
  (bytes_cmp (encode_spo t) (encode_spo u) = Eq <-> t = u) /\
  (bytes_cmp (encode_pos t) (encode_pos u) = Eq <-> t = u) /\
  (bytes_cmp (encode_osp t) (encode_osp u) = Eq <-> t = u).
Proof. exact key_eq. Qed.
Print Assumptions C03_key_eq.

(** The order of byte strings is the usual one: first difference decides, prefix is smaller. *)
Theorem C03_bytes_lt : forall a b : bytes,
  bytes_cmp a b = Lt <->
  (exists s, s <> [] /\ b = a ++ s) \/
  (exists p x y a' b', a = p ++ x :: a' /\ b = p ++ y :: b' /\ (Byte.to_N x < Byte.to_N y)%N).
Proof. exact bytes_lt_iff. Qed.
Print Assumptions C03_bytes_lt.

(** 255 < 256 although the last byte of 255 is larger than every byte of 256. *)
Example C03_case :
  bytes_cmp (encode_spo (Triple (uint_mk 8 255 : Id KU64) (uint_max 8) (uint_max 8)))
            (encode_spo (Triple (uint_mk 8 256 : Id KU64) (uint_min 8) (uint_min 8))) = Lt.
Proof. reflexivity. Qed.

(** ** C04 *)
Theorem C04_bounds_1 : forall k (a : Id k) (t : triple (Id k)),
  let (lo, hi) := key_bounds_1 a in
  (in_range bytes_cmp lo hi (encode_spo t) = true <-> sub t = a) /\
  (in_range bytes_cmp lo hi (encode_pos t) = true <-> pred t = a) /\
  (in_range bytes_cmp lo hi (encode_osp t) = true <-> obj t = a).
Proof. exact bounds_1. Qed.
Print Assumptions C04_bounds_1.

Theorem C04_bounds_2 : forall k (a b : Id k) (t : triple (Id k)),
  let (lo, hi) := key_bounds_2 a b in
  (in_range bytes_cmp lo hi (encode_spo t) = true <-> sub t = a /\ pred t = b) /\
  (in_range bytes_cmp lo hi (encode_pos t) = true <-> pred t = a /\ obj t = b) /\
  (in_range bytes_cmp lo hi (encode_osp t) = true <-> obj t = a /\ sub t = b).
Proof. exact bounds_2. Qed.
Print Assumptions C04_bounds_2.

Theorem C04_no_panic : forall k (a b : Id k),
  range_panics bytes_cmp (fst (key_bounds_1 a)) (snd (key_bounds_1 a)) = false /\
  range_panics bytes_cmp (fst (key_bounds_2 a b)) (snd (key_bounds_2 a b)) = false.
Proof. exact bounds_no_panic. Qed.
Print Assumptions C04_no_panic.

(** Extreme identifiers on both sides of a bound. *)
Example C04_case :
  let (lo, hi) := key_bounds_1 (uint_max 8 : Id KU64) in
  in_range bytes_cmp lo hi (encode_spo (Triple (uint_max 8 : Id KU64) (uint_min 8) (uint_max 8))) = true
  /\ in_range bytes_cmp lo hi
       (encode_spo (Triple (uint_mk 8 (modulus 8 - 2) : Id KU64) (uint_max 8) (uint_max 8))) = false.
Proof. vm_compute. auto. Qed.

(** ** C05 *)
Theorem C05_strict_total_order : forall k (a b c : triple (Id k)),
  tr_ltb a a = false /\
  (tr_ltb a b = true -> tr_ltb b c = true -> tr_ltb a c = true) /\
  (tr_ltb a b = true \/ tr_eqb a b = true \/ tr_ltb b a = true) /\
  (tr_ltb a b = true -> tr_eqb a b = false /\ tr_ltb b a = false).
Proof. exact triple_order_laws. Qed.
Print Assumptions C05_strict_total_order.

Theorem C05_lexicographic : forall k (a b : triple (Id k)),
  (tr_ltb a b = true <-> edge_lt SPO a b) /\ (tr_eqb a b = true <-> a = b).
Proof. exact triple_order_spec. Qed.
Print Assumptions C05_lexicographic.

Example C05_case :
  tr_ltb (Triple (uint_mk 8 1 : Id KU64) (uint_mk 8 2) (uint_mk 8 9))
         (Triple (uint_mk 8 1) (uint_mk 8 3) (uint_mk 8 0)) = true.
Proof. reflexivity. Qed.
