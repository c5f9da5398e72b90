(** Reasoning about programs: weakest preconditions that also speak about crash points and
    storage failures. *)
From Coq Require Import List Lia.
From Verif Require Import Core Prog.
Import ListNotations.

Section Wp.
Context {D SE : Type}.
Notation P A := (prog D SE A).

(** [F] are the storage failures that may happen, [R] holds of the database at every moment,
    [Q] holds of the result and the final database. *)
Fixpoint wp {A} (F : SE -> Prop) (R : D -> Prop) (Q : A -> D -> Prop) (p : P A) (d : D) : Prop :=
  match p with
  | Ret a => R d /\ Q a d
  | Look k => wp F R Q (k d) d
  | Act u k e => R d /\ wp F R Q (k d) (u d) /\ forall x, F x -> wp F R Q (e x) d
  end.

Definition allowed (F : SE -> Prop) (faults : list (option SE)) : Prop :=
  forall x, In (Some x) faults -> F x.

Lemma allowed_nil F : allowed F [].
Proof. intros x []. Qed.
Lemma allowed_tl F f l : allowed F (f :: l) -> allowed F l.
Proof. intros H x Hx. apply H. simpl. auto. Qed.
Lemma allowed_hd F x l : allowed F (Some x :: l) -> F x.
Proof. intros H. apply H. simpl. auto. Qed.
Lemma allowed_all l : allowed (fun _ => True) l.
Proof. intros x _. exact I. Qed.

Lemma wp_exec {A} F R (Q : A -> D -> Prop) p : forall faults d,
  allowed F faults -> wp F R Q p d ->
  R (db_of p faults d) /\ Q (ret_of p faults d) (db_of p faults d) /\ allowed F (snd (exec p faults d)).
Proof.
  unfold db_of, ret_of. induction p as [a|k IH|u k IHk e IHe]; intros faults d Hf H; simpl in *.
  - tauto.
  - apply IH; auto.
  - destruct H as (_ & H1 & H2). destruct faults as [|[x|] faults].
    + apply IHk; auto.
    + apply IHe; [eapply allowed_tl; eauto|]. apply H2. eapply allowed_hd; eauto.
    + apply IHk; auto. eapply allowed_tl; eauto.
Qed.

Lemma wp_crash {A} F R (Q : A -> D -> Prop) p : forall n faults d,
  allowed F faults -> wp F R Q p d -> R (crash n p faults d).
Proof.
  induction p as [a|k IH|u k IHk e IHe]; intros n faults d Hf H; simpl in *.
  - tauto.
  - apply IH; auto.
  - destruct H as (H0 & H1 & H2). destruct n as [|n]; auto. destruct faults as [|[x|] faults].
    + apply IHk; auto.
    + apply IHe; [eapply allowed_tl; eauto|]. apply H2. eapply allowed_hd; eauto.
    + apply IHk; auto. eapply allowed_tl; eauto.
Qed.

Lemma wp_mono {A} F (R R' : D -> Prop) (Q Q' : A -> D -> Prop) p : forall d,
  (forall d, R d -> R' d) -> (forall a d, R d -> Q a d -> Q' a d) -> wp F R Q p d -> wp F R' Q' p d.
Proof.
  induction p as [a|k IH|u k IHk e IHe]; intros d HR HQ H; simpl in *.
  - destruct H. auto.
  - auto.
  - destruct H as (H0 & H1 & H2). auto.
Qed.

Lemma wp_faults {A} (F F' : SE -> Prop) R (Q : A -> D -> Prop) p : forall d,
  (forall x, F' x -> F x) -> wp F R Q p d -> wp F' R Q p d.
Proof.
  induction p as [a|k IH|u k IHk e IHe]; intros d HF H; simpl in *.
  - exact H.
  - apply IH; assumption.
  - destruct H as (H0 & H1 & H2). split; [exact H0|split].
    + apply IHk; assumption.
    + intros x Hx. apply IHe; auto.
Qed.

Lemma wp_bind {A B} F R (Q : B -> D -> Prop) (p : P A) (f : A -> P B) : forall d,
  wp F R (fun a d' => wp F R Q (f a) d') p d -> wp F R Q (bind p f) d.
Proof.
  induction p as [a|k IH|u k IHk e IHe]; intros d H; simpl in *; auto.
  - tauto.
  - destruct H as (H0 & H1 & H2). auto.
Qed.

Lemma wp_bind_ok {A B E} F R (Q : result E B -> D -> Prop) (p : P (result E A)) (f : A -> P (result E B)) d :
  wp F R (fun r d' => match r with Ok a => wp F R Q (f a) d' | Err e => R d' /\ Q (Err e) d' end) p d ->
  wp F R Q (bind_ok p f) d.
Proof.
  intros H. apply wp_bind. eapply wp_mono; [ | |exact H]; auto.
  intros [a|e] d' _ H'; exact H'.
Qed.

Lemma wp_ret {A} F (R : D -> Prop) (Q : A -> D -> Prop) a d : R d -> Q a d -> wp F R Q (Ret a) d.
Proof. simpl. auto. Qed.

(** Loops. *)
Lemma wp_for_ok {X S E} F (R : D -> Prop) (Q : result E S -> D -> Prop) (f : X -> S -> P (result E S)) (J : list X -> S -> D -> Prop) l :
  (forall s d, J [] s d -> R d /\ Q (Ok s) d) ->
  (forall x l' s d, In x l -> J (x :: l') s d ->
     wp F R (fun r d' => match r with Ok s' => J l' s' d' | Err e => Q (Err e) d' end) (f x s) d) ->
  forall s d, J l s d -> wp F R Q (for_ok f l s) d.
Proof.
  intros Hn Hc. induction l as [|x l IH]; intros s d H; simpl.
  - apply Hn in H. destruct H. auto.
  - apply wp_bind_ok. eapply wp_mono; [ | |apply (Hc x l); simpl; eauto]; auto.
    intros [s'|e] d' Rd H'; auto. apply IH; auto. intros. apply Hc; simpl; auto.
Qed.

(** ** Exact execution *)
Lemma exec_bind {A B} (p : P A) (f : A -> P B) : forall faults d,
  exec (bind p f) faults d =
  let '(a, d', faults') := exec p faults d in exec (f a) faults' d'.
Proof.
  induction p as [a|k IH|u k IHk e IHe]; intros faults d; simpl; auto.
  destruct faults as [|[x|] faults]; auto.
Qed.

Lemma exec_bind_ok {A B E} (p : P (result E A)) (f : A -> P (result E B)) faults d :
  exec (bind_ok p f) faults d =
  let '(r, d', faults') := exec p faults d in
  match r with Ok a => exec (f a) faults' d' | Err e => (Err e, d', faults') end.
Proof.
  unfold bind_ok. rewrite exec_bind. destruct (exec p faults d) as [[[a|e] d'] faults']; reflexivity.
Qed.

(** A program that changes nothing. *)
Inductive readonly {A} : P A -> Prop :=
| RO_ret a : readonly (Ret a)
| RO_look k : (forall d, readonly (k d)) -> readonly (Look k)
| RO_act u k e : (forall d, u d = d) -> (forall d, readonly (k d)) -> (forall x, readonly (e x)) ->
    readonly (Act u k e).

Lemma readonly_exec {A} (p : P A) : readonly p -> forall faults d, db_of p faults d = d.
Proof.
  unfold db_of. induction 1 as [a|k _ IH|u k e Hu _ IHk _ IHe]; intros faults d; simpl; auto.
  rewrite Hu. destruct faults as [|[x|] faults]; auto.
Qed.

Lemma readonly_crash {A} (p : P A) : readonly p -> forall n faults d, crash n p faults d = d.
Proof.
  induction 1 as [a|k _ IH|u k e Hu _ IHk _ IHe]; intros n faults d; simpl; auto.
  rewrite Hu. destruct n; auto. destruct faults as [|[x|] faults]; auto.
Qed.

Lemma readonly_bind {A B} (p : P A) (f : A -> P B) :
  readonly p -> (forall a, readonly (f a)) -> readonly (bind p f).
Proof. induction 1; intros Hf; simpl; auto; constructor; auto. Qed.

Lemma readonly_bind_ok {A B E} (p : P (result E A)) (f : A -> P (result E B)) :
  readonly p -> (forall a, readonly (f a)) -> readonly (bind_ok p f).
Proof. intros Hp Hf. apply readonly_bind; auto. intros [a|e]; auto. constructor. Qed.

Lemma readonly_map_prog {X Y} (f : X -> P Y) l : (forall x, readonly (f x)) -> readonly (map_prog f l).
Proof.
  intros H. induction l as [|x l IH]; simpl; [constructor|].
  apply readonly_bind; auto. intros y. apply readonly_bind; auto. intros. constructor.
Qed.

Lemma readonly_for_ok {X S E} (f : X -> S -> P (result E S)) l :
  (forall x s, readonly (f x s)) -> forall s, readonly (for_ok f l s).
Proof.
  intros H. induction l as [|x l IH]; intros s; simpl; [constructor|].
  apply readonly_bind_ok; auto.
Qed.

(** ** Atomic programs: at every moment the database is as before or as after the call. *)
Definition atomic {A} (p : P A) : Prop :=
  forall n faults d, crash n p faults d = d \/ crash n p faults d = db_of p faults d.

Lemma crash_bind {A B} (p : P A) (f : A -> P B) : forall n faults d,
  (exists m, crash n (bind p f) faults d = crash m p faults d) \/
  (exists m, crash n (bind p f) faults d =
     crash m (f (ret_of p faults d)) (snd (exec p faults d)) (db_of p faults d)).
Proof.
  unfold ret_of, db_of. induction p as [a|k IH|u k IHk e IHe]; intros n faults d; simpl.
  - right. eauto.
  - apply IH.
  - destruct n as [|n].
    + left. exists 0. reflexivity.
    + destruct faults as [|[x|] faults].
      * destruct (IHk d n [] (u d)) as [[m H]|[m H]]; [left; exists (S m) | right; exists m]; exact H.
      * destruct (IHe x n faults d) as [[m H]|[m H]]; [left; exists (S m) | right; exists m]; exact H.
      * destruct (IHk d n faults (u d)) as [[m H]|[m H]]; [left; exists (S m) | right; exists m]; exact H.
Qed.

Lemma db_of_bind {A B} (p : P A) (f : A -> P B) faults d :
  db_of (bind p f) faults d = db_of (f (ret_of p faults d)) (snd (exec p faults d)) (db_of p faults d).
Proof.
  unfold db_of, ret_of. rewrite exec_bind. destruct (exec p faults d) as [[a d'] faults']. reflexivity.
Qed.

Lemma ret_of_bind {A B} (p : P A) (f : A -> P B) faults d :
  ret_of (bind p f) faults d = ret_of (f (ret_of p faults d)) (snd (exec p faults d)) (db_of p faults d).
Proof.
  unfold db_of, ret_of. rewrite exec_bind. destruct (exec p faults d) as [[a d'] faults']. reflexivity.
Qed.

Lemma atomic_readonly_then {A B} (p : P A) (f : A -> P B) :
  readonly p -> (forall a, atomic (f a)) -> atomic (bind p f).
Proof.
  intros Hp Hf n faults d. rewrite db_of_bind, (readonly_exec p Hp).
  destruct (crash_bind p f n faults d) as [[m ->]|[m ->]].
  - left. now apply readonly_crash.
  - rewrite (readonly_exec p Hp). apply Hf.
Qed.

Lemma atomic_then_readonly {A B} (p : P A) (f : A -> P B) :
  atomic p -> (forall a, readonly (f a)) -> atomic (bind p f).
Proof.
  intros Hp Hf n faults d. rewrite db_of_bind, (readonly_exec _ (Hf _)).
  destruct (crash_bind p f n faults d) as [[m ->]|[m ->]].
  - apply Hp.
  - right. now apply readonly_crash.
Qed.

Lemma atomic_readonly {A} (p : P A) : readonly p -> atomic p.
Proof. intros H n faults d. left. now apply readonly_crash. Qed.

Lemma atomic_act {A} u (k : D -> P A) e :
  (forall d, readonly (k d)) -> (forall x, readonly (e x)) -> atomic (Act u k e).
Proof.
  intros Hk He n faults d. unfold db_of. simpl. destruct n as [|n]; auto.
  destruct faults as [|[x|] faults].
  - right. rewrite (readonly_crash _ (Hk d)). symmetry. apply (readonly_exec _ (Hk d)).
  - left. apply (readonly_crash _ (He x)).
  - right. rewrite (readonly_crash _ (Hk d)). symmetry. apply (readonly_exec _ (Hk d)).
Qed.

End Wp.

Ltac ro :=
  repeat match goal with
  | |- readonly (Ret _) => constructor
  | |- readonly (Look _) => constructor; intros
  | |- readonly (bind_ok _ _) => apply readonly_bind_ok; intros
  | |- readonly (bind _ _) => apply readonly_bind; intros
  | |- readonly (match ?x with _ => _ end) => destruct x
  | |- readonly (map_prog _ _) => apply readonly_map_prog; intros
  | |- readonly (for_ok _ _ _) => apply readonly_for_ok; intros
  | |- readonly (Act _ _ _) => constructor; [reflexivity | intros | intros]
  end.
