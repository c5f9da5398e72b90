(** Facts about OMap.v *)
From Coq Require Import List Sorted Bool Permutation.
From Verif Require Import BytesFacts OMap.
Import ListNotations.

Section Facts.
Context {K V : Type} {cmp : K -> K -> comparison} (C : cmp_ok cmp).
Notation get := (om_get cmp).
Notation ins := (om_insert cmp).
Notation rem := (om_remove cmp).

Lemma get_insert_eq k v (m : omap K V) : get k (ins k v m) = Some v.
Proof.
  induction m as [|[k' v'] m IH]; simpl.
  - now rewrite (cmp_refl C).
  - destruct (cmp k k') eqn:E; simpl; rewrite ?(cmp_refl C), ?E; auto.
Qed.

Lemma get_insert_neq j k v (m : omap K V) : j <> k -> get j (ins k v m) = get j m.
Proof.
  intros N. assert (cmp j k <> Eq) as NE by (intros H; apply (cmp_eq _ C) in H; auto).
  induction m as [|[k' v'] m IH]; simpl.
  - destruct (cmp j k); congruence.
  - destruct (cmp k k') eqn:E; simpl.
    + apply (cmp_eq _ C) in E. subst k'. destruct (cmp j k); congruence.
    + destruct (cmp j k); congruence.
    + now rewrite IH.
Qed.

Lemma get_remove_eq k (m : omap K V) : get k (rem k m) = None.
Proof.
  induction m as [|[k' v'] m IH]; simpl; auto.
  destruct (cmp k k') eqn:E; simpl; rewrite ?E; auto.
Qed.

Lemma get_remove_neq j k (m : omap K V) : j <> k -> get j (rem k m) = get j m.
Proof.
  intros N. induction m as [|[k' v'] m IH]; simpl; auto.
  destruct (cmp k k') eqn:E; simpl; rewrite IH; auto.
  apply (cmp_eq _ C) in E. subst k'.
  destruct (cmp j k) eqn:F; auto. apply (cmp_eq _ C) in F. congruence.
Qed.

Lemma in_remove j v k (m : omap K V) : In (j, v) (rem k m) <-> In (j, v) m /\ j <> k.
Proof.
  unfold om_remove. rewrite filter_In. simpl. split.
  - intros [H E]. split; auto. intros ->. rewrite (cmp_refl C) in E. discriminate.
  - intros [H N]. split; auto. destruct (cmp k j) eqn:E; auto.
    apply (cmp_eq _ C) in E. congruence.
Qed.

(** ** Sortedness *)
Definition key_lt (a b : K * V) : Prop := cmp (fst a) (fst b) = Lt.
Definition om_sorted (m : omap K V) : Prop := StronglySorted key_lt m.

Lemma om_sorted_empty : om_sorted [].
Proof. constructor. Qed.

Lemma in_insert_weak j w k v (m : omap K V) :
  In (j, w) (ins k v m) -> (j = k /\ w = v) \/ In (j, w) m.
Proof.
  induction m as [|[k' v'] m IH]; simpl.
  - intros [[= <- <-]|[]]; auto.
  - destruct (cmp k k') eqn:E; simpl.
    + intros [[= <- <-]|H]; auto.
    + intros [[= <- <-]|[H|H]]; auto.
    + intros [H|H]; auto. destruct (IH H); auto.
Qed.

Lemma om_sorted_insert k v (m : omap K V) : om_sorted m -> om_sorted (ins k v m).
Proof.
  unfold om_sorted. induction m as [|[k' v'] m IH]; intros S; simpl.
  - repeat constructor.
  - inversion S as [|? ? S' F]; subst.
    destruct (cmp k k') eqn:E.
    + apply (cmp_eq _ C) in E. subst k'. constructor; auto.
    + constructor; auto. constructor; auto.
      eapply Forall_impl; [|exact F]. intros [a b]. unfold key_lt. simpl.
      now apply (cmp_trans _ C).
    + constructor; auto. rewrite Forall_forall in *. intros [a b] H.
      apply in_insert_weak in H. destruct H as [[-> ->]|H].
      * unfold key_lt. simpl. now apply (cmp_gt_lt C).
      * now apply (F (a, b)).
Qed.

Lemma om_sorted_filter f (m : omap K V) : om_sorted m -> om_sorted (filter f m).
Proof.
  unfold om_sorted. induction m as [|a m IH]; intros S; simpl; auto.
  inversion S as [|? ? S' F]; subst. destruct (f a); auto.
  constructor; auto. rewrite Forall_forall in *. intros x H.
  apply filter_In in H. apply F. tauto.
Qed.

Lemma om_sorted_remove k (m : omap K V) : om_sorted m -> om_sorted (rem k m).
Proof. apply om_sorted_filter. Qed.

Lemma get_in k v (m : omap K V) : get k m = Some v -> In (k, v) m.
Proof.
  induction m as [|[k' v'] m IH]; simpl; [discriminate|].
  destruct (cmp k k') eqn:E; auto.
  intros [= ->]. apply (cmp_eq _ C) in E. subst. auto.
Qed.

Lemma get_none_notin k (m : omap K V) : get k m = None <-> forall v, ~ In (k, v) m.
Proof.
  split.
  - induction m as [|[k' v'] m IH]; simpl; auto.
    destruct (cmp k k') eqn:E; try discriminate; intros H v [[= -> ->]|I];
      try (rewrite (cmp_refl C) in E; discriminate); eapply IH; eauto.
  - intros H. destruct (get k m) eqn:E; auto. apply get_in in E. exfalso. eapply H; eauto.
Qed.

Lemma get_iff_in k v (m : omap K V) : om_sorted m -> (get k m = Some v <-> In (k, v) m).
Proof.
  intros S. split; [apply get_in|].
  unfold om_sorted in S. induction m as [|[k' v'] m IH]; simpl; [tauto|].
  inversion S as [|? ? S' F]; subst. intros [[= -> ->]|H].
  - now rewrite (cmp_refl C).
  - destruct (cmp k k') eqn:E; auto.
    apply (cmp_eq _ C) in E. subst k'.
    rewrite Forall_forall in F. apply F in H. unfold key_lt in H. simpl in H.
    now apply (cmp_lt_irrefl C) in H.
Qed.

Lemma om_sorted_NoDup_keys (m : omap K V) : om_sorted m -> NoDup (map fst m).
Proof.
  unfold om_sorted. induction m as [|[k v] m IH]; intros S; simpl; constructor.
  - inversion S as [|? ? S' F]; subst. rewrite in_map_iff. intros [[a b] [E H]].
    simpl in E. subst a. rewrite Forall_forall in F. apply F in H.
    unfold key_lt in H. simpl in H. now apply (cmp_lt_irrefl C) in H.
  - inversion S; auto.
Qed.

Lemma om_sorted_NoDup (m : omap K V) : om_sorted m -> NoDup m.
Proof.
  intros S. apply om_sorted_NoDup_keys in S. now apply NoDup_map_inv in S.
Qed.

Lemma in_insert_iff j w k v (m : omap K V) : om_sorted m ->
  (In (j, w) (ins k v m) <-> (j = k /\ w = v) \/ (j <> k /\ In (j, w) m)).
Proof.
  intros S. rewrite <- (get_iff_in j w _ (om_sorted_insert k v m S)).
  rewrite <- (get_iff_in j w m S).
  destruct (cmp j k) eqn:E.
  - apply (cmp_eq _ C) in E. subst j. rewrite get_insert_eq. split.
    + intros [= ->]; auto.
    + intros [[_ ->]|[N _]]; congruence.
  - assert (j <> k) by (intros ->; rewrite (cmp_refl C) in E; discriminate).
    rewrite get_insert_neq by auto. split; [|intros [[-> _]|[_ ?]]]; intuition.
  - assert (j <> k) by (intros ->; rewrite (cmp_refl C) in E; discriminate).
    rewrite get_insert_neq by auto. split; [|intros [[-> _]|[_ ?]]]; intuition.
Qed.

Lemma in_range_spec lo hi k :
  in_range cmp lo hi k = true <-> cmp lo k <> Gt /\ cmp k hi <> Gt.
Proof.
  unfold in_range. destruct (cmp lo k), (cmp k hi); split; intros; try tauto;
    try discriminate; try (split; congruence); destruct H; congruence.
Qed.

(** Two sorted maps with the same lookups are the same list. *)
Lemma om_sorted_ext (m1 : omap K V) : forall m2, om_sorted m1 -> om_sorted m2 ->
  (forall k v, In (k, v) m1 <-> In (k, v) m2) -> m1 = m2.
Proof.
  unfold om_sorted.
  induction m1 as [|[k1 v1] m1 IH]; intros [|[k2 v2] m2] S1 S2 H; auto.
  - exfalso. apply (proj2 (H k2 v2)). now left.
  - exfalso. apply (proj1 (H k1 v1)). now left.
  - inversion S1 as [|? ? S1' F1]; subst. inversion S2 as [|? ? S2' F2]; subst.
    rewrite Forall_forall in F1, F2.
    assert ((k1, v1) = (k2, v2)) as Eh.
    { destruct (proj1 (H k1 v1) (or_introl eq_refl)) as [E|I1]; auto.
      destruct (proj2 (H k2 v2) (or_introl eq_refl)) as [E|I2]; auto.
      apply F2 in I1. apply F1 in I2. unfold key_lt in *. simpl in *.
      exfalso. apply (cmp_lt_irrefl C k1). eapply (cmp_trans _ C); eauto. }
    inversion Eh; subst. f_equal. apply IH; auto.
    intros k v. split; intros I.
    + destruct (proj1 (H k v) (or_intror I)) as [[= <- <-]|]; auto.
      apply F1 in I. unfold key_lt in I. simpl in I. now apply (cmp_lt_irrefl C) in I.
    + destruct (proj2 (H k v) (or_intror I)) as [[= <- <-]|]; auto.
      apply F2 in I. unfold key_lt in I. simpl in I. now apply (cmp_lt_irrefl C) in I.
Qed.

Lemma om_get_ext (m1 m2 : omap K V) : om_sorted m1 -> om_sorted m2 ->
  (forall k, get k m1 = get k m2) -> m1 = m2.
Proof.
  intros S1 S2 H. apply om_sorted_ext; auto. intros k v.
  rewrite <- !get_iff_in by auto. now rewrite H.
Qed.

End Facts.

Arguments om_sorted {K V} cmp m.
Arguments key_lt {K V} cmp a b.
