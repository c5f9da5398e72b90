(** Lemmas behind Prop_Codec.v. *)
From Coq Require Import NArith List Bool Lia Arith.
From Coq.Strings Require Import Byte.
From Verif Require Import Bytes BytesFacts OMap OMapFacts Core IdType IdTypeFacts Store Spec.
Import ListNotations.

Lemma id_roundtrip k (a : Id k) :
  from_be_bytes (to_be_bytes a) = a /\ try_from_be_bytes (to_be_bytes a) = Some a.
Proof. split; [apply from_to_be_bytes | apply try_from_to_be_bytes]. Qed.

Lemma id_bijection k (l : bytes) : length l = width k ->
  forall a : Id k, to_be_bytes a = l <-> (from_be_bytes l = a /\ try_from_be_bytes l = Some a).
Proof.
  intros H a. rewrite try_from_be_bytes_spec, H, Nat.eqb_refl. split.
  - intros <-. now rewrite from_to_be_bytes.
  - intros [<- _]. now apply to_from_be_bytes.
Qed.

Lemma try_from_none k (l : bytes) : @try_from_be_bytes k l = None <-> length l <> width k.
Proof.
  rewrite try_from_be_bytes_spec. destruct (Nat.eqb_spec (length l) (width k)); split; congruence.
Qed.

Lemma be_bytes_nth w : forall n i, i < w ->
  nth_error (be_bytes w n) i = Some (byte_of (n / modulus (w - 1 - i))).
Proof.
  induction w as [|w IH]; intros n i H; [lia|].
  destruct i as [|i]; simpl.
  - now rewrite !Nat.sub_0_r.
  - rewrite IH by lia. do 4 f_equal. lia.
Qed.

Lemma id_big_endian k (a : Id k) i : i < width k ->
  exists b, nth_error (to_be_bytes a) i = Some b /\
    Byte.to_N b = ((uval a / 256 ^ N.of_nat (width k - 1 - i)) mod 256)%N.
Proof.
  intros H. rewrite to_be_bytes_uint. unfold uint_to_be_bytes. rewrite be_bytes_nth by auto.
  eexists. split; [reflexivity|]. rewrite to_N_byte_of. reflexivity.
Qed.

Lemma triple_layout k (t : triple (Id k)) :
  encode_spo_opt t = Some (to_be_bytes (sub t) ++ to_be_bytes (pred t) ++ to_be_bytes (obj t)) /\
  encode_pos_opt t = Some (to_be_bytes (pred t) ++ to_be_bytes (obj t) ++ to_be_bytes (sub t)) /\
  encode_osp_opt t = Some (to_be_bytes (obj t) ++ to_be_bytes (sub t) ++ to_be_bytes (pred t)).
Proof.
  split; [|split]; [apply encode_spo_opt_eq | apply encode_pos_opt_eq | apply encode_osp_opt_eq].
Qed.

Lemma triple_decode_encode k (t : triple (Id k)) :
  (exists d, encode_spo_opt t = Some d /\ length d = 3 * width k /\ decode_spo_opt d = Some t) /\
  (exists d, encode_pos_opt t = Some d /\ length d = 3 * width k /\ decode_pos_opt d = Some t) /\
  (exists d, encode_osp_opt t = Some d /\ length d = 3 * width k /\ decode_osp_opt d = Some t).
Proof.
  destruct t as [s p o].
  split; [|split]; eexists; (split; [|split]).
  - apply encode_spo_opt_eq.
  - apply concat3_length.
  - apply decode_spo_opt_concat3.
  - apply encode_pos_opt_eq.
  - apply concat3_length.
  - apply decode_pos_opt_concat3.
  - apply encode_osp_opt_eq.
  - apply concat3_length.
  - apply decode_osp_opt_concat3.
Qed.

Lemma triple_encode_decode k (d : bytes) : length d = 3 * width k ->
  (exists t : triple (Id k), decode_spo_opt d = Some t /\ encode_spo_opt t = Some d) /\
  (exists t : triple (Id k), decode_pos_opt d = Some t /\ encode_pos_opt t = Some d) /\
  (exists t : triple (Id k), decode_osp_opt d = Some t /\ encode_osp_opt t = Some d).
Proof.
  intros H. destruct (split3 (width k) d) as (a & b & c & -> & Ha & Hb & Hc); [lia|].
  destruct (@decode_opt3 k a b c Ha Hb Hc) as (E1 & E2 & E3).
  split; [|split]; eexists; (split; [eassumption|]).
  - rewrite encode_spo_opt_eq. unfold concat3. simpl. now rewrite !to_from_be_bytes.
  - rewrite encode_pos_opt_eq. unfold concat3. simpl. now rewrite !to_from_be_bytes.
  - rewrite encode_osp_opt_eq. unfold concat3. simpl. now rewrite !to_from_be_bytes.
Qed.

Lemma triple_keys_distinct k (t u : triple (Id k)) : t <> u ->
  encode_spo_opt t <> encode_spo_opt u /\
  encode_pos_opt t <> encode_pos_opt u /\
  encode_osp_opt t <> encode_osp_opt u.
Proof.
  intros N. split; [|split]; intros H; apply N;
    [apply (enc_inj SPO) | apply (enc_inj POS) | apply (enc_inj OSP)]; simpl;
    unfold encode_spo, encode_pos, encode_osp; now rewrite H.
Qed.

Lemma id_cmp_lt {k} (a b : Id k) : id_cmp a b = Lt <-> id_lt a b.
Proof. unfold id_cmp, uint_cmp, id_lt. apply N.compare_lt_iff. Qed.

Lemma id_ltb_lt {k} (a b : Id k) : id_ltb a b = true <-> id_lt a b.
Proof. rewrite <- id_cmp_lt. unfold id_ltb. destruct (id_cmp a b); split; congruence. Qed.

Lemma cmp3_lt {k} (a b c a' b' c' : Id k) :
  match id_cmp a a' with
  | Eq => match id_cmp b b' with Eq => id_cmp c c' | r => r end
  | r => r
  end = Lt <-> lex3 a b c a' b' c'.
Proof.
  unfold lex3. rewrite <- !id_cmp_lt. pose proof (id_cmp_ok k) as C.
  rewrite <- (cmp_eq _ C a a'), <- (cmp_eq _ C b b').
  destruct (id_cmp a a'), (id_cmp b b'), (id_cmp c c'); intuition congruence.
Qed.

Lemma comps_cmp_lt {k} o (t u : triple (Id k)) : comps_cmp o t u = Lt <-> edge_lt o t u.
Proof. destruct o; unfold comps_cmp; simpl; apply cmp3_lt. Qed.

Lemma enc_lt {k} o (t u : triple (Id k)) :
  bytes_cmp (enc o t) (enc o u) = Lt <-> edge_lt o t u.
Proof. rewrite enc_cmp. apply comps_cmp_lt. Qed.

Lemma key_order k (t u : triple (Id k)) :
  (bytes_cmp (encode_spo t) (encode_spo u) = Lt <-> edge_lt SPO t u) /\
  (bytes_cmp (encode_pos t) (encode_pos u) = Lt <-> edge_lt POS t u) /\
  (bytes_cmp (encode_osp t) (encode_osp u) = Lt <-> edge_lt OSP t u).
Proof. split; [|split]; [apply (enc_lt SPO)|apply (enc_lt POS)|apply (enc_lt OSP)]. Qed.

Lemma enc_cmp_eq {k} o (t u : triple (Id k)) :
  bytes_cmp (enc o t) (enc o u) = Eq <-> t = u.
Proof. rewrite (cmp_eq _ bytes_cmp_ok). split; [apply enc_inj | congruence]. Qed.

Lemma key_eq k (t u : triple (Id k)) :
  (bytes_cmp (encode_spo t) (encode_spo u) = Eq <-> t = u) /\
  (bytes_cmp (encode_pos t) (encode_pos u) = Eq <-> t = u) /\
  (bytes_cmp (encode_osp t) (encode_osp u) = Eq <-> t = u).
Proof.
  split; [|split]; [apply (enc_cmp_eq SPO)|apply (enc_cmp_eq POS)|apply (enc_cmp_eq OSP)].
Qed.

Lemma bytes_lt_iff (a b : bytes) :
  bytes_cmp a b = Lt <->
  (exists s, s <> [] /\ b = a ++ s) \/
  (exists p x y a' b', a = p ++ x :: a' /\ b = p ++ y :: b' /\ (Byte.to_N x < Byte.to_N y)%N).
Proof.
  split.
  - revert b. induction a as [|x a IH]; intros [|y b]; simpl; try discriminate.
    + intros _. left. exists (y :: b). split; [discriminate | reflexivity].
    + destruct (byte_cmp x y) eqn:E; try discriminate.
      * apply (cmp_eq _ byte_cmp_ok) in E. subst y. intros H.
        destruct (IH _ H) as [(s & N & ->)|(p & u & v & a' & b' & -> & -> & L)].
        -- left. exists s. auto.
        -- right. exists (x :: p), u, v, a', b'. auto.
      * intros _. right. exists [], x, y, a, b. split; [|split]; auto.
  - intros [(s & N & ->)|(p & x & y & a' & b' & -> & -> & L)].
    + induction a as [|x a IH]; simpl.
      * destruct s; congruence.
      * now rewrite (cmp_refl byte_cmp_ok).
    + induction p as [|z p IH]; simpl.
      * unfold byte_cmp. apply N.compare_lt_iff in L. now rewrite L.
      * now rewrite (cmp_refl byte_cmp_ok).
Qed.

Lemma bounds_1 k (a : Id k) (t : triple (Id k)) :
  let (lo, hi) := key_bounds_1 a in
  (in_range bytes_cmp lo hi (encode_spo t) = true <-> sub t = a) /\
  (in_range bytes_cmp lo hi (encode_pos t) = true <-> pred t = a) /\
  (in_range bytes_cmp lo hi (encode_osp t) = true <-> obj t = a).
Proof.
  destruct (key_bounds_1 a) as [lo hi] eqn:E.
  replace lo with (fst (key_bounds_1 a)) by now rewrite E.
  replace hi with (snd (key_bounds_1 a)) by now rewrite E.
  rewrite encode_spo_eq, encode_pos_eq, encode_osp_eq. rewrite !in_bounds_1_concat3. tauto.
Qed.

Lemma bounds_2 k (a b : Id k) (t : triple (Id k)) :
  let (lo, hi) := key_bounds_2 a b in
  (in_range bytes_cmp lo hi (encode_spo t) = true <-> sub t = a /\ pred t = b) /\
  (in_range bytes_cmp lo hi (encode_pos t) = true <-> pred t = a /\ obj t = b) /\
  (in_range bytes_cmp lo hi (encode_osp t) = true <-> obj t = a /\ sub t = b).
Proof.
  destruct (key_bounds_2 a b) as [lo hi] eqn:E.
  replace lo with (fst (key_bounds_2 a b)) by now rewrite E.
  replace hi with (snd (key_bounds_2 a b)) by now rewrite E.
  rewrite encode_spo_eq, encode_pos_eq, encode_osp_eq. rewrite !in_bounds_2_concat3. tauto.
Qed.

Lemma bounds_no_panic k (a b : Id k) :
  range_panics bytes_cmp (fst (key_bounds_1 a)) (snd (key_bounds_1 a)) = false /\
  range_panics bytes_cmp (fst (key_bounds_2 a b)) (snd (key_bounds_2 a b)) = false.
Proof. split; [apply key_bounds_1_no_panic | apply key_bounds_2_no_panic]. Qed.

Lemma tr_ltb_lt {k} (a b : triple (Id k)) : tr_ltb a b = true <-> edge_lt SPO a b.
Proof.
  rewrite <- comps_cmp_lt, <- tr_cmp_spo. unfold tr_ltb. destruct (tr_cmp a b); split; congruence.
Qed.

Lemma tr_ltb_cmp {k} (a b : triple (Id k)) : tr_ltb a b = true <-> tr_cmp a b = Lt.
Proof. unfold tr_ltb. destruct (tr_cmp a b); split; congruence. Qed.

Lemma triple_order_laws k (a b c : triple (Id k)) :
  tr_ltb a a = false /\
  (tr_ltb a b = true -> tr_ltb b c = true -> tr_ltb a c = true) /\
  (tr_ltb a b = true \/ tr_eqb a b = true \/ tr_ltb b a = true) /\
  (tr_ltb a b = true -> tr_eqb a b = false /\ tr_ltb b a = false).
Proof.
  pose proof (tr_cmp_ok k) as C. split; [|split; [|split]].
  - unfold tr_ltb. now rewrite (cmp_refl C).
  - rewrite !tr_ltb_cmp. apply (cmp_trans _ C).
  - rewrite !tr_ltb_cmp, tr_eqb_eq. destruct (tr_cmp a b) eqn:E; auto.
    + right. left. now apply (cmp_eq _ C).
    + right. right. now apply (cmp_gt_lt C).
  - rewrite tr_ltb_cmp. intros H. split.
    + destruct (tr_eqb a b) eqn:E; auto. apply tr_eqb_eq in E.
      now apply (cmp_lt_neq C) in H.
    + destruct (tr_ltb b a) eqn:E; auto. apply tr_ltb_cmp in E.
      rewrite (cmp_opp _ C), H in E. discriminate.
Qed.

Lemma triple_order_spec k (a b : triple (Id k)) :
  (tr_ltb a b = true <-> edge_lt SPO a b) /\ (tr_eqb a b = true <-> a = b).
Proof. split; [apply tr_ltb_lt | apply tr_eqb_eq]. Qed.
