(** Facts about lists, results and listings used by the store proofs. *)
From Coq Require Import List Sorted Lia Bool Permutation.
From Verif Require Import Core Store Spec.
Import ListNotations.

Lemma filter_map_in {A B} (f : A -> option B) l b :
  In b (filter_map f l) <-> exists a, In a l /\ f a = Some b.
Proof.
  induction l as [|a l IH]; simpl.
  - split; [tauto | intros (? & [] & _)].
  - destruct (f a) eqn:E; simpl; rewrite IH; split.
    + intros [->|(x & H & F)]; eauto.
    + intros (x & [->|H] & F); [left; congruence | eauto].
    + intros (x & H & F); eauto.
    + intros (x & [->|H] & F); [congruence | eauto].
Qed.

Lemma filter_map_sorted {A B} (f : A -> option B) (R : A -> A -> Prop) (R' : B -> B -> Prop) l :
  StronglySorted R l ->
  (forall x y x' y', In x l -> In y l -> R x y -> f x = Some x' -> f y = Some y' -> R' x' y') ->
  StronglySorted R' (filter_map f l).
Proof.
  induction 1 as [|a l S IH F]; intros H; simpl; [constructor|].
  assert (StronglySorted R' (filter_map f l)) as S'.
  { apply IH. intros x y x' y' Hx Hy. apply H; simpl; auto. }
  destruct (f a) eqn:E; auto. constructor; auto.
  rewrite Forall_forall in *. intros y' Hy. apply filter_map_in in Hy.
  destruct Hy as (y & Hy & E'). apply (H a y); simpl; auto.
Qed.

Lemma filter_map_map_ok {A B E} (f : A -> option B) (g : A -> option (result E B)) l :
  (forall a, g a = option_map Ok (f a)) -> filter_map g l = map Ok (filter_map f l).
Proof.
  intros H. induction l as [|a l IH]; simpl; auto. rewrite H.
  destruct (f a); simpl; congruence.
Qed.

Lemma filter_map_ext_in {A B} (f g : A -> option B) l :
  (forall a, In a l -> f a = g a) -> filter_map f l = filter_map g l.
Proof.
  induction l as [|a l IH]; intros H; simpl; auto.
  rewrite (H a) by (simpl; auto). rewrite IH; auto. intros; apply H; simpl; auto.
Qed.

Lemma filter_map_map {A B C} (f : B -> option C) (g : A -> B) l :
  filter_map f (map g l) = filter_map (fun a => f (g a)) l.
Proof. induction l; simpl; auto. rewrite IHl. reflexivity. Qed.

Lemma map_ok_inj {E A} (l l' : list A) : map (@Ok E A) l = map Ok l' -> l = l'.
Proof.
  revert l'. induction l as [|a l IH]; intros [|b l'] H; simpl in H; try congruence.
  inversion H. f_equal; auto.
Qed.

Lemma before_error_ok {E A} (l : list A) : before_error (map (@Ok E A) l) = l.
Proof. induction l; simpl; congruence. Qed.

Lemma first_error_ok {E A} (l : list A) : first_error (map (@Ok E A) l) = None.
Proof. induction l; simpl; congruence. Qed.

Lemma no_error_map {E A} (l : list (result E A)) :
  first_error l = None -> l = map Ok (before_error l).
Proof. induction l as [|[a|e] l IH]; simpl; intros H; try discriminate; auto. f_equal; auto. Qed.

(** Two lists with the same elements, both strictly sorted, are equal. *)
Lemma sorted_unique {A} (R : A -> A -> Prop) :
  (forall a, ~ R a a) -> (forall a b c, R a b -> R b c -> R a c) ->
  forall l l', StronglySorted R l -> StronglySorted R l' ->
  (forall a, In a l <-> In a l') -> l = l'.
Proof.
  intros Irr Tr. induction l as [|a l IH]; intros [|b l'] S S' H; auto.
  - exfalso. apply (H b). simpl. auto.
  - exfalso. apply (H a). simpl. auto.
  - inversion S as [|? ? S1 F]; inversion S' as [|? ? S1' F']; subst.
    rewrite Forall_forall in F, F'.
    assert (a = b) as ->.
    { destruct (proj1 (H a)) as [E|Hin]; [now left | congruence|].
      destruct (proj2 (H b)) as [E|Hin']; [now left | congruence|].
      exfalso. apply (Irr a). eapply Tr; [apply F; exact Hin' | apply F'; exact Hin]. }
    f_equal. apply IH; auto. intros c. split; intros Hc.
    + destruct (proj1 (H c)) as [->|]; [now right| |auto]. exfalso. now apply (Irr c), F.
    + destruct (proj2 (H c)) as [->|]; [now right| |auto]. exfalso. now apply (Irr c), F'.
Qed.

Lemma sorted_NoDup {A} (R : A -> A -> Prop) :
  (forall a, ~ R a a) -> forall l, StronglySorted R l -> NoDup l.
Proof.
  intros Irr. induction 1 as [|a l S IH F]; constructor; auto.
  intros H. rewrite Forall_forall in F. now apply (Irr a), F.
Qed.

(** ** Listings *)
Section Listings.
Context {A P : Type} (lt : A -> A -> Prop).
Context (irr : forall a, ~ lt a a) (tr : forall a b c, lt a b -> lt b c -> lt a c).

Lemma lists_unique {E} (l l' : list (result E (A * P))) f f' :
  lists lt l f -> lists lt l' f' -> (forall a, f a = f' a) -> l = l'.
Proof.
  intros (x & -> & S & H) (y & -> & S' & H') Ef. f_equal.
  apply (sorted_unique (fun u v => lt (fst u) (fst v))); auto.
  - intros ? ? ?. apply tr.
  - intros [a p]. rewrite H, H', Ef. tauto.
Qed.

Lemma lists_fun {E} (l : list (result E (A * P))) f f' :
  lists lt l f -> lists lt l f' -> forall a, f a = f' a.
Proof.
  intros (x & -> & S & H) (y & Hy & S' & H') a. apply map_ok_inj in Hy. subst y.
  destruct (f a) as [p|] eqn:E1.
  - symmetry. apply H', H, E1.
  - destruct (f' a) as [q|] eqn:E2; auto. apply H', H in E2. congruence.
Qed.

Lemma lists_ext {E} (l : list (result E (A * P))) f f' :
  (forall a, f a = f' a) -> lists lt l f -> lists lt l f'.
Proof.
  intros Ef (x & -> & S & H). exists x. split; [|split]; auto.
  intros a p. now rewrite H, Ef.
Qed.

(** The items of a listing have distinct keys. *)
Lemma items_NoDup (x : list (A * P)) :
  StronglySorted (fun u v => lt (fst u) (fst v)) x -> NoDup (map fst x).
Proof.
  intros S. induction S as [|a l S IH F]; simpl; constructor; auto.
  rewrite in_map_iff. intros (b & E & Hb). rewrite Forall_forall in F. apply F in Hb.
  rewrite E in Hb. now apply irr in Hb.
Qed.

End Listings.
