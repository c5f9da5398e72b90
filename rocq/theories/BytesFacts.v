(** Facts about Bytes.v *)
From Coq Require Import NArith List Lia Eqdep_dec Bool ZifyN ZifyNat ZifyBool.
From Coq.Init Require Import Byte.
From Coq.Strings Require Import Byte.
From Verif Require Import Bytes.
Import ListNotations.
Local Open Scope N_scope.

(** ** Comparison functions that are total orders *)
Record cmp_ok {K} (cmp : K -> K -> comparison) : Prop := {
  cmp_eq : forall a b, cmp a b = Eq <-> a = b;
  cmp_opp : forall a b, cmp b a = CompOpp (cmp a b);
  cmp_trans : forall a b c, cmp a b = Lt -> cmp b c = Lt -> cmp a c = Lt
}.

Lemma cmp_refl {K} {cmp : K -> K -> comparison} (H : cmp_ok cmp) a : cmp a a = Eq.
Proof. apply (cmp_eq _ H). reflexivity. Qed.

Lemma cmp_gt_lt {K} {cmp : K -> K -> comparison} (H : cmp_ok cmp) a b :
  cmp a b = Gt <-> cmp b a = Lt.
Proof. rewrite (cmp_opp _ H a b). destruct (cmp a b); simpl; split; congruence. Qed.

Lemma cmp_lt_irrefl {K} {cmp : K -> K -> comparison} (H : cmp_ok cmp) a : cmp a a <> Lt.
Proof. rewrite (cmp_refl H). discriminate. Qed.

Lemma cmp_lt_neq {K} {cmp : K -> K -> comparison} (H : cmp_ok cmp) a b :
  cmp a b = Lt -> a <> b.
Proof. intros L ->. now apply (cmp_lt_irrefl H) in L. Qed.

(** ** Integers *)
Lemma modulus_pos w : 0 < modulus w.
Proof. unfold modulus. apply N.neq_0_lt_0, N.pow_nonzero. discriminate. Qed.

Lemma modulus_S w : modulus (S w) = 256 * modulus w.
Proof. unfold modulus. rewrite Nnat.Nat2N.inj_succ, N.pow_succ_r'. reflexivity. Qed.

Lemma modulus_0 : modulus 0 = 1.
Proof. reflexivity. Qed.

Lemma uval_lt {w} (u : uint w) : uval u < modulus w.
Proof. destruct u as [n H]. simpl. now apply N.ltb_lt. Qed.

Lemma uint_ext {w} (a b : uint w) : uval a = uval b -> a = b.
Proof.
  destruct a as [n H], b as [m J]. simpl. intros ->. f_equal.
  apply UIP_dec. apply bool_dec.
Qed.

Lemma uval_mk w n : uval (uint_mk w n) = n mod modulus w.
Proof. reflexivity. Qed.

Lemma uval_mk_small w n : n < modulus w -> uval (uint_mk w n) = n.
Proof. intros. rewrite uval_mk. now apply N.mod_small. Qed.

Lemma uint_mk_uval {w} (u : uint w) : uint_mk w (uval u) = u.
Proof. apply uint_ext. apply uval_mk_small, uval_lt. Qed.

Lemma uval_min w : uval (uint_min w) = 0.
Proof. unfold uint_min. apply uval_mk_small, modulus_pos. Qed.

Lemma uval_max w : uval (uint_max w) = modulus w - 1.
Proof.
  unfold uint_max. apply uval_mk_small. pose proof (modulus_pos w). lia.
Qed.

Lemma uint_cmp_ok w : cmp_ok (@uint_cmp w).
Proof.
  unfold uint_cmp. split.
  - intros a b. rewrite N.compare_eq_iff. split; [apply uint_ext | congruence].
  - intros a b. apply N.compare_antisym.
  - intros a b c. rewrite !N.compare_lt_iff. lia.
Qed.

Lemma uint_eqb_eq {w} (a b : uint w) : uint_eqb a b = true <-> a = b.
Proof.
  unfold uint_eqb. rewrite N.eqb_eq. split; [apply uint_ext | congruence].
Qed.

Lemma uint_eq_dec {w} (a b : uint w) : {a = b} + {a <> b}.
Proof.
  destruct (uint_eqb a b) eqn:E; [left | right].
  - now apply uint_eqb_eq.
  - intros H. apply uint_eqb_eq in H. congruence.
Defined.

(** ** Bytes *)
Lemma to_N_lt (b : byte) : Byte.to_N b < 256.
Proof. pose proof (Byte.to_N_bounded b). lia. Qed.

Lemma to_N_byte_of n : Byte.to_N (byte_of n) = n mod 256.
Proof.
  unfold byte_of.
  destruct (Byte.of_N (n mod 256)) eqn:E.
  - now apply Byte.to_of_N.
  - apply Byte.of_N_None_iff in E.
    assert (n mod 256 < 256) by (apply N.mod_lt; discriminate). lia.
Qed.

Lemma to_N_inj a b : Byte.to_N a = Byte.to_N b -> a = b.
Proof.
  intros H. pose proof (Byte.of_to_N a) as Ha. rewrite H, Byte.of_to_N in Ha.
  congruence.
Qed.

Lemma byte_of_to_N b : byte_of (Byte.to_N b) = b.
Proof. apply to_N_inj. rewrite to_N_byte_of. apply N.mod_small, to_N_lt. Qed.

Lemma be_bytes_length w n : length (be_bytes w n) = w.
Proof. induction w; simpl; auto. Qed.

Lemma be_val_acc l : forall a,
  fold_left (fun acc b => acc * 256 + Byte.to_N b) l a = a * modulus (length l) + be_val l.
Proof.
  unfold be_val.
  induction l as [|b l IH]; intros a; simpl length; cbn [fold_left].
  - rewrite modulus_0. lia.
  - rewrite IH. rewrite (IH (0 * 256 + _)). rewrite modulus_S. lia.
Qed.

Lemma be_val_cons b l : be_val (b :: l) = Byte.to_N b * modulus (length l) + be_val l.
Proof. unfold be_val at 1. cbn [fold_left]. rewrite be_val_acc. f_equal. Qed.

Lemma be_val_lt l : be_val l < modulus (length l).
Proof.
  induction l as [|b l IH]; simpl length.
  - reflexivity.
  - rewrite be_val_cons, modulus_S. pose proof (to_N_lt b).
    assert ((Byte.to_N b + 1) * modulus (length l) <= 256 * modulus (length l))
      by (apply N.mul_le_mono_r; lia). lia.
Qed.

Lemma be_bytes_mod w : forall n, be_bytes w (n mod modulus w) = be_bytes w n.
Proof.
  assert (G : forall w n m, n mod modulus w = m mod modulus w -> be_bytes w n = be_bytes w m).
  { clear. induction w as [|w IH]; intros n m H; simpl; auto.
    pose proof (modulus_pos w).
    rewrite modulus_S in H. rewrite (N.mul_comm 256) in H.
    rewrite !N.mod_mul_r in H by lia.
    assert (n mod modulus w < modulus w) by (apply N.mod_lt; lia).
    assert (m mod modulus w < modulus w) by (apply N.mod_lt; lia).
    rewrite !(N.add_comm _ (modulus w * _)) in H.
    apply N.div_mod_unique in H; auto. destruct H as [E1 E2].
    f_equal; [|now apply IH].
    apply to_N_inj. now rewrite !to_N_byte_of. }
  intros n. apply G. apply N.mod_mod. pose proof (modulus_pos w). lia.
Qed.

Lemma be_val_be_bytes w : forall n, be_val (be_bytes w n) = n mod modulus w.
Proof.
  induction w as [|w IH]; intros n.
  - rewrite modulus_0, N.mod_1_r. reflexivity.
  - cbn [be_bytes]. rewrite be_val_cons, be_bytes_length, IH, to_N_byte_of.
    rewrite modulus_S, (N.mul_comm 256). pose proof (modulus_pos w).
    rewrite N.mod_mul_r by lia. lia.
Qed.

Lemma be_bytes_be_val l : be_bytes (length l) (be_val l) = l.
Proof.
  induction l as [|b l IH]; simpl length; cbn [be_bytes]; auto.
  pose proof (be_val_lt l). pose proof (modulus_pos (length l)).
  rewrite be_val_cons. f_equal.
  - rewrite N.div_add_l by lia. rewrite N.div_small by auto.
    rewrite N.add_0_r. apply byte_of_to_N.
  - rewrite <- be_bytes_mod. rewrite N.add_comm, N.mod_add by lia.
    rewrite N.mod_small by auto. exact IH.
Qed.

(** ** Order of byte strings *)
Lemma byte_cmp_ok : cmp_ok byte_cmp.
Proof.
  unfold byte_cmp. split.
  - intros a b. rewrite N.compare_eq_iff. split; [apply to_N_inj | congruence].
  - intros a b. apply N.compare_antisym.
  - intros a b c. rewrite !N.compare_lt_iff. lia.
Qed.

Lemma bytes_cmp_ok : cmp_ok bytes_cmp.
Proof.
  pose proof byte_cmp_ok as B. split.
  - induction a as [|x a IH]; destruct b as [|y b]; simpl; try (split; congruence).
    destruct (byte_cmp x y) eqn:E.
    + apply (cmp_eq _ B) in E. subst y. rewrite IH. split; congruence.
    + split; try congruence. intros [= -> ->]. rewrite (cmp_refl B) in E. congruence.
    + split; try congruence. intros [= -> ->]. rewrite (cmp_refl B) in E. congruence.
  - induction a as [|x a IH]; destruct b as [|y b]; simpl; auto.
    rewrite (cmp_opp _ B x y). destruct (byte_cmp x y); simpl; auto.
  - induction a as [|x a IH]; destruct b as [|y b]; destruct c as [|z c]; simpl;
      try congruence.
    destruct (byte_cmp x y) eqn:E1; try congruence.
    + apply (cmp_eq _ B) in E1. subst y.
      destruct (byte_cmp x z) eqn:E2; try congruence. apply IH.
    + intros _. destruct (byte_cmp y z) eqn:E2; try congruence.
      * apply (cmp_eq _ B) in E2. subst z. now rewrite E1.
      * now rewrite (cmp_trans _ B _ _ _ E1 E2).
Qed.

Lemma bytes_cmp_app a : forall a' b b', length a = length a' ->
  bytes_cmp (a ++ b) (a' ++ b') =
  match bytes_cmp a a' with Eq => bytes_cmp b b' | c => c end.
Proof.
  induction a as [|x a IH]; destruct a' as [|y a']; simpl; intros b b' H; try discriminate.
  - reflexivity.
  - rewrite IH by congruence. now destruct (byte_cmp x y).
Qed.

Lemma bytes_cmp_be w : forall n m,
  bytes_cmp (be_bytes w n) (be_bytes w m) = (n mod modulus w ?= m mod modulus w).
Proof.
  induction w as [|w IH]; intros n m.
  - rewrite modulus_0, !N.mod_1_r. reflexivity.
  - cbn [be_bytes bytes_cmp]. rewrite IH. unfold byte_cmp. rewrite !to_N_byte_of.
    rewrite modulus_S, (N.mul_comm 256). pose proof (modulus_pos w).
    rewrite !(N.mod_mul_r _ (modulus w)) by lia.
    assert (n mod modulus w < modulus w) by (apply N.mod_lt; lia).
    assert (m mod modulus w < modulus w) by (apply N.mod_lt; lia).
    set (a := n mod modulus w) in *. set (b := m mod modulus w) in *.
    set (c := (n / modulus w) mod 256) in *. set (d := (m / modulus w) mod 256) in *.
    clearbody a b c d.
    destruct (N.compare_spec c d) as [->|L|L]; symmetry.
    + destruct (N.compare_spec a b) as [->|L|L].
      * apply N.compare_refl.
      * apply N.compare_lt_iff. lia.
      * apply N.compare_gt_iff. lia.
    + apply N.compare_lt_iff.
      assert (modulus w * (c + 1) <= modulus w * d) by (apply N.mul_le_mono_l; lia). lia.
    + apply N.compare_gt_iff.
      assert (modulus w * (d + 1) <= modulus w * c) by (apply N.mul_le_mono_l; lia). lia.
Qed.

Lemma uint_to_be_bytes_length {w} (u : uint w) : length (uint_to_be_bytes u) = w.
Proof. apply be_bytes_length. Qed.

Lemma uint_roundtrip {w} (u : uint w) : uint_from_be_bytes w (uint_to_be_bytes u) = u.
Proof.
  apply uint_ext. unfold uint_from_be_bytes, uint_to_be_bytes.
  rewrite uval_mk, be_val_be_bytes. pose proof (modulus_pos w).
  rewrite N.mod_mod by lia. apply N.mod_small, uval_lt.
Qed.

Lemma uint_roundtrip_bytes w l :
  length l = w -> uint_to_be_bytes (uint_from_be_bytes w l) = l.
Proof.
  intros <-. unfold uint_to_be_bytes, uint_from_be_bytes.
  rewrite uval_mk, be_bytes_mod. apply be_bytes_be_val.
Qed.

Lemma uint_to_be_bytes_inj {w} (a b : uint w) :
  uint_to_be_bytes a = uint_to_be_bytes b -> a = b.
Proof. intros H. rewrite <- (uint_roundtrip a), <- (uint_roundtrip b). now rewrite H. Qed.

Lemma uint_to_be_bytes_cmp {w} (a b : uint w) :
  bytes_cmp (uint_to_be_bytes a) (uint_to_be_bytes b) = uint_cmp a b.
Proof.
  unfold uint_to_be_bytes, uint_cmp. rewrite bytes_cmp_be.
  now rewrite !N.mod_small by apply uval_lt.
Qed.
