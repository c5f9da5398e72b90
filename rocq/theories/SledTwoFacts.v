(** Runs of one program on two databases: what happens on each of them is what happens to a program
    on that one alone that does the same steps there. *)
From Coq Require Import NArith List Bool.
From Verif Require Import Bytes OMap Core IdType Store Prog Mem Spec History Sled SledHistory SledLeaf SledLazy SledBeside SledTables SledCopy SledTwo.
Import ListNotations.

(** ** The steps of a program that is through *)
Section Trace.
Context {SE : Type}.
Inductive ev (D : Type) : Type := ELook (d : D) | EOk (d d' : D) | EErr (x : SE).
Arguments ELook {D} d.
Arguments EOk {D} d d'.
Arguments EErr {D} x.

Fixpoint follows {D X} (p : prog D SE X) (m : list (ev D)) (x : X) : Prop :=
  match p, m with
  | Ret y, [] => x = y
  | Look k, ELook d :: m' => follows (k d) m' x
  | Act u k e, EOk d d' :: m' => d' = u d /\ follows (k d) m' x
  | Act u k e, EErr y :: m' => follows (e y) m' x
  | _, _ => False
  end.

Lemma follows_bind {D X Y} (p : prog D SE X) (f : X -> prog D SE Y) : forall m1 m2 x y,
  follows p m1 x -> follows (f x) m2 y -> follows (bind p f) (m1 ++ m2) y.
Proof.
  induction p as [a|k IH|u k IH e IHe]; intros [|[d|d d'|z] m1] m2 x y; simpl; try contradiction.
  - intros -> H. exact H.
  - intros H1 H2. eapply IH; eauto.
  - intros [E H1] H2. split; auto. eapply IH; eauto.
  - intros H1 H2. eapply IHe; eauto.
Qed.

Context {DA DB : Type}.
Notation ev2 := (ev DA + ev DB)%type.
Definition lefts (m : list ev2) : list (ev DA) := flat_map (fun e => match e with inl a => [a] | inr _ => [] end) m.
Definition rights (m : list ev2) : list (ev DB) := flat_map (fun e => match e with inl _ => [] | inr b => [b] end) m.
Lemma lefts_app m m' : lefts (m ++ m') = lefts m ++ lefts m'.
Proof. unfold lefts. now rewrite flat_map_app. Qed.
Lemma rights_app m m' : rights (m ++ m') = rights m ++ rights m'.
Proof. unfold rights. now rewrite flat_map_app. Qed.
Lemma lefts_inl m : lefts (map inl m) = m.
Proof. induction m; simpl; congruence. Qed.
Lemma rights_inl m : rights (map inl m) = [].
Proof. induction m; simpl; congruence. Qed.
Lemma lefts_inr m : lefts (map inr m) = [].
Proof. induction m; simpl; congruence. Qed.
Lemma rights_inr m : rights (map inr m) = m.
Proof. induction m; simpl; congruence. Qed.

(** Every step is on one of the databases; and [G] holds of the steps and the outcome. *)
Fixpoint acct {X} (p : prog (DA * DB) SE X) (G : list ev2 -> X -> Prop) : Prop :=
  match p with
  | Ret x => G [] x
  | Look k =>
      (forall d, acct (k d) (fun m x => G (inl (ELook (fst d)) :: m) x)) \/
      (forall d, acct (k d) (fun m x => G (inr (ELook (snd d)) :: m) x))
  | Act u k e =>
      ((forall d, snd (u d) = snd d) /\ (forall d, acct (k d) (fun m x => G (inl (EOk (fst d) (fst (u d))) :: m) x)) /\
        (forall y, acct (e y) (fun m x => G (inl (EErr y) :: m) x))) \/
      ((forall d, fst (u d) = fst d) /\ (forall d, acct (k d) (fun m x => G (inr (EOk (snd d) (snd (u d))) :: m) x)) /\
        (forall y, acct (e y) (fun m x => G (inr (EErr y) :: m) x)))
  end.
Lemma acct_mono {X} (p : prog (DA * DB) SE X) : forall (G G' : list ev2 -> X -> Prop), (forall m x, G m x -> G' m x) -> acct p G -> acct p G'.
Proof.
  induction p as [a|k IH|u k IH e IHe]; intros G G' HG; simpl.
  - apply HG.
  - intros [H|H]; [left|right]; intros d; (eapply IH; [|apply H]); simpl; auto.
  - intros [(H1 & H2 & H3)|(H1 & H2 & H3)]; [left|right]; (split; [exact H1|split; [intros d; eapply IH; [|apply H2]|intros y; eapply IHe; [|apply H3]]]); simpl; auto.
Qed.
Lemma acct_bind {X Y} (p : prog (DA * DB) SE X) (f : X -> prog (DA * DB) SE Y) : forall G,
  acct p (fun m x => acct (f x) (fun m' y => G (m ++ m') y)) -> acct (bind p f) G.
Proof.
  induction p as [a|k IH|u k IH e IHe]; intros G; simpl.
  - auto.
  - intros [H|H]; [left|right]; intros d; apply IH, H.
  - intros [(H1 & H2 & H3)|(H1 & H2 & H3)]; [left|right]; (split; [exact H1|split; [intros d; apply IH, H2|intros y; apply IHe, H3]]).
Qed.
Lemma acct_first {X} (q : prog DA SE X) : forall G : list ev2 -> X -> Prop, (forall m x, follows q m x -> G (map inl m) x) -> acct (on_first q) G.
Proof.
  induction q as [a|k IH|u k IH e IHe]; intros G HG; simpl.
  - apply (HG []). reflexivity.
  - left. intros d. apply IH. intros m x Hf. apply (HG (ELook (fst d) :: m)). exact Hf.
  - left. split; [reflexivity|]. split.
    + intros d. apply IH. intros m x Hf. apply (HG (EOk (fst d) (u (fst d)) :: m)). split; auto.
    + intros y. apply IHe. intros m x Hf. apply (HG (EErr y :: m)). exact Hf.
Qed.
Lemma acct_second {X} (q : prog DB SE X) : forall G : list ev2 -> X -> Prop, (forall m x, follows q m x -> G (map inr m) x) -> acct (on_second q) G.
Proof.
  induction q as [a|k IH|u k IH e IHe]; intros G HG; simpl.
  - apply (HG []). reflexivity.
  - right. intros d. apply IH. intros m x Hf. apply (HG (ELook (snd d) :: m)). exact Hf.
  - right. split; [reflexivity|]. split.
    + intros d. apply IH. intros m x Hf. apply (HG (EOk (snd d) (u (snd d)) :: m)). split; auto.
    + intros y. apply IHe. intros m x Hf. apply (HG (EErr y :: m)). exact Hf.
Qed.

(** ** Runs *)
Section Runs.
Context {X YA YB : Type}.
Implicit Types (p : prog (DA * DB) SE X) (psA : list (prog DA SE YA)) (psB : list (prog DB SE YB)).
Lemma during_nil {D Y} (ps : list (prog D SE Y)) d d1 : during [] ps d d1 <-> d1 = d.
Proof.
  split.
  - intros (s1 & s2 & E & ->). symmetry in E. apply app_eq_nil in E. destruct E as [-> ->]. reflexivity.
  - intros ->. exists [], []. auto.
Qed.
Lemma during_step {D Y} i f s (ps : list (prog D SE Y)) d d1 q q' d' : nth_error ps i = Some q -> step1 f q d = (q', d') ->
  during ((i, f) :: s) ps d d1 <-> d1 = d \/ during s (replace_nth i q' ps) d' d1.
Proof.
  intros Hq Hs. split.
  - intros (s1 & s2 & E & ->). destruct s1 as [|e s1]; [left; reflexivity|]. right. injection E as <- E. exists s1, s2. split; auto.
    simpl. now rewrite Hq, Hs.
  - intros [->|(s1 & s2 & -> & ->)]; [exists [], ((i, f) :: s); auto|]. exists ((i, f) :: s1), s2. split; auto. simpl. now rewrite Hq, Hs.
Qed.
Lemma during_first {D Y} s (ps : list (prog D SE Y)) d : during s ps d d.
Proof. exists [], s. auto. Qed.
Lemma during2_cons e s p psA psB d d1 : during2 (e :: s) p psA psB d d1 <->
  d1 = fst d \/ exists s1 s2, s = s1 ++ s2 /\ d1 = fst (snd (interleave2 (e :: s1) p psA psB d)).
Proof.
  split.
  - intros (s1 & s2 & E & ->). destruct s1 as [|e' s1]; [left; reflexivity|]. right. injection E as <- E. exists s1, s2. auto.
  - intros [->|(s1 & s2 & -> & ->)]; [exists [], (e :: s)|exists (e :: s1), s2]; auto.
Qed.
Lemma during2_first s p psA psB d : during2 s p psA psB d (fst d).
Proof. exists [], s. auto. Qed.

Definition seen_alike (schedule : list (who * option SE)) p psA psB d (sA : list (nat * option SE)) (q : prog DA SE YA) : Prop :=
  forall d1, during sA (q :: psA) (fst d) d1 <-> during2 schedule p psA psB d d1.

Lemma run2 schedule : forall p psA psB d (G : list ev2 -> X -> Prop) x psA' psB' d',
  acct p G -> interleave2 schedule p psA psB d = (Ret x, psA', psB', d') ->
  exists m sA sB, G m x /\
    (forall q y, follows q (lefts m) y -> interleave sA (q :: psA) (fst d) = (Ret y :: psA', fst d') /\ seen_alike schedule p psA psB d sA q) /\
    (forall q y, follows q (rights m) y -> interleave sB (q :: psB) (snd d) = (Ret y :: psB', snd d')) /\
    (forall i f, In (i, f) sA -> In (first_of i, f) schedule) /\
    (forall i f, In (i, f) sB -> In (second_of i, f) schedule).
Proof.
  induction schedule as [|[w f] schedule IH]; intros p psA psB d G x psA' psB' d' Ha Hi.
  - simpl in Hi. injection Hi as -> <- <- <-. simpl in Ha. exists [], [], []. split; auto. split; [|split; [|split]].
    + intros q y Hf. destruct q; simpl in Hf; try contradiction. subst. split; [reflexivity|].
      intros d1. rewrite during_nil. unfold during2. split; [intros ->; exists [], []; auto|].
      intros (s1 & s2 & E & ->). symmetry in E. apply app_eq_nil in E. now destruct E as [-> ->].
    + intros q y Hf. destruct q; simpl in Hf; try contradiction. subst. reflexivity.
    + intros j f' [].
    + intros j f' [].
  - destruct w as [|i|i].
    + destruct p as [a|k|u k e].
      * simpl in Hi. destruct (IH _ _ _ _ _ _ _ _ _ Ha Hi) as (m & sA & sB & HG & HA & HB & H1 & H2).
        exists m, sA, sB. split; auto. split; [|split; [|split]]; auto; try (solve [intros; right; eauto]).
        intros q y Hf. destruct (HA q y Hf) as [Er Es]. split; auto. intros d1. rewrite (Es d1), during2_cons. simpl. split; [auto|].
        intros [->|H]; auto. apply during2_first.
      * simpl in Hi. simpl in Ha. destruct Ha as [Ha|Ha].
        -- destruct (IH _ _ _ _ _ _ _ _ _ (Ha d) Hi) as (m & sA & sB & HG & HA & HB & H1 & H2).
           exists (inl (ELook (fst d)) :: m), ((0, f) :: sA), sB. split; auto. split; [|split; [|split]]; auto; try (solve [intros; right; eauto]).
           ++ intros q y Hf. destruct q as [|kq|]; simpl in Hf; try contradiction. destruct (HA _ _ Hf) as [Er Es]. split; [exact Er|].
              intros d1. rewrite (during_step 0 f sA (Look kq :: psA) (fst d) d1 (Look kq) (kq (fst d)) (fst d)) by reflexivity.
              rewrite during2_cons. simpl. rewrite (Es d1). reflexivity.
           ++ intros j f' [[= <- <-]|Hin]; [left; reflexivity|right; eauto].
        -- destruct (IH _ _ _ _ _ _ _ _ _ (Ha d) Hi) as (m & sA & sB & HG & HA & HB & H1 & H2).
           exists (inr (ELook (snd d)) :: m), sA, ((0, f) :: sB). split; auto. split; [|split; [|split]]; auto; try (solve [intros; right; eauto]).
           ++ intros q y Hf. destruct (HA q y Hf) as [Er Es]. split; auto. intros d1. rewrite (Es d1), during2_cons. simpl. split; [auto|].
              intros [->|H]; auto. apply during2_first.
           ++ intros q y Hf. destruct q as [|kq|]; simpl in Hf; try contradiction. exact (HB _ _ Hf).
           ++ intros j f' [[= <- <-]|Hin]; [left; reflexivity|right; eauto].
      * simpl in Ha. destruct Ha as [(Hu & Hk & He)|(Hu & Hk & He)]; destruct f as [z|]; simpl in Hi.
        -- destruct (IH _ _ _ _ _ _ _ _ _ (He z) Hi) as (m & sA & sB & HG & HA & HB & H1 & H2).
           exists (inl (EErr z) :: m), ((0, Some z) :: sA), sB. split; auto. split; [|split; [|split]]; auto; try (solve [intros; right; eauto]).
           ++ intros q y Hf. destruct q as [| |uq kq eq]; simpl in Hf; try contradiction. destruct (HA _ _ Hf) as [Er Es]. split; [exact Er|].
              intros d1. rewrite (during_step 0 (Some z) sA (Act uq kq eq :: psA) (fst d) d1 (Act uq kq eq) (eq z) (fst d)) by reflexivity.
              rewrite during2_cons. simpl. rewrite (Es d1). reflexivity.
           ++ intros j f' [[= <- <-]|Hin]; [left; reflexivity|right; eauto].
        -- destruct (IH _ _ _ _ _ _ _ _ _ (Hk d) Hi) as (m & sA & sB & HG & HA & HB & H1 & H2). rewrite Hu in HB.
           exists (inl (EOk (fst d) (fst (u d))) :: m), ((0, None) :: sA), sB. split; auto. split; [|split; [|split]]; auto; try (solve [intros; right; eauto]).
           ++ intros q y Hf. destruct q as [| |uq kq eq]; simpl in Hf; try contradiction. destruct Hf as [Eu Hf]. destruct (HA _ _ Hf) as [Er Es].
              rewrite Eu in Er. split; [exact Er|]. unfold seen_alike in Es. rewrite Eu in Es.
              intros d1. rewrite (during_step 0 None sA (Act uq kq eq :: psA) (fst d) d1 (Act uq kq eq) (kq (fst d)) (uq (fst d))) by reflexivity.
              rewrite during2_cons. simpl. rewrite (Es d1). reflexivity.
           ++ intros j f' [[= <- <-]|Hin]; [left; reflexivity|right; eauto].
        -- destruct (IH _ _ _ _ _ _ _ _ _ (He z) Hi) as (m & sA & sB & HG & HA & HB & H1 & H2).
           exists (inr (EErr z) :: m), sA, ((0, Some z) :: sB). split; auto. split; [|split; [|split]]; auto; try (solve [intros; right; eauto]).
           ++ intros q y Hf. destruct (HA q y Hf) as [Er Es]. split; auto. intros d1. rewrite (Es d1), during2_cons. simpl. split; [auto|].
              intros [->|H]; auto. apply during2_first.
           ++ intros q y Hf. destruct q as [| |uq kq eq]; simpl in Hf; try contradiction. exact (HB _ _ Hf).
           ++ intros j f' [[= <- <-]|Hin]; [left; reflexivity|right; eauto].
        -- destruct (IH _ _ _ _ _ _ _ _ _ (Hk d) Hi) as (m & sA & sB & HG & HA & HB & H1 & H2).
           exists (inr (EOk (snd d) (snd (u d))) :: m), sA, ((0, None) :: sB). split; auto. split; [|split; [|split]]; auto; try (solve [intros; right; eauto]).
           ++ intros q y Hf. destruct (HA q y Hf) as [Er Es]. rewrite Hu in Er. split; auto. unfold seen_alike in Es.
              intros d1. rewrite <- Hu at 1. rewrite (Es d1), during2_cons. simpl. split; [auto|].
              intros [->|H]; auto. rewrite <- Hu. apply during2_first.
           ++ intros q y Hf. destruct q as [| |uq kq eq]; simpl in Hf; try contradiction. destruct Hf as [Eu Hf]. rewrite Eu in HB. exact (HB _ _ Hf).
           ++ intros j f' [[= <- <-]|Hin]; [left; reflexivity|right; eauto].
    + simpl in Hi. destruct (nth_error psA i) as [q0|] eqn:Eq0.
      * destruct (step1 f q0 (fst d)) as [q1 a1] eqn:Es1. destruct (IH _ _ _ _ _ _ _ _ _ Ha Hi) as (m & sA & sB & HG & HA & HB & H1 & H2).
        exists m, ((S i, f) :: sA), sB. split; auto. split; [|split; [|split]]; auto; try (solve [intros; right; eauto]).
        -- intros q y Hf. destruct (HA _ _ Hf) as [Er Es]. split; [simpl; now rewrite Eq0, Es1|].
           intros d1. rewrite (during_step (S i) f sA (q :: psA) (fst d) d1 q0 q1 a1) by assumption. rewrite during2_cons. simpl. rewrite Eq0, Es1, (Es d1). reflexivity.
        -- intros j f' [[= <- <-]|Hin]; [left; reflexivity|right; eauto].
      * destruct (IH _ _ _ _ _ _ _ _ _ Ha Hi) as (m & sA & sB & HG & HA & HB & H1 & H2).
        exists m, sA, sB. split; auto. split; [|split; [|split]]; auto; try (solve [intros; right; eauto]).
        intros q y Hf. destruct (HA q y Hf) as [Er Es]. split; auto. intros d1. rewrite (Es d1), during2_cons. simpl. rewrite Eq0. split; [auto|].
        intros [->|H]; auto. apply during2_first.
    + simpl in Hi. destruct (nth_error psB i) as [q0|] eqn:Eq0.
      * destruct (step1 f q0 (snd d)) as [q1 b1] eqn:Es1. destruct (IH _ _ _ _ _ _ _ _ _ Ha Hi) as (m & sA & sB & HG & HA & HB & H1 & H2).
        exists m, sA, ((S i, f) :: sB). split; auto. split; [|split; [|split]]; auto; try (solve [intros; right; eauto]).
        -- intros q y Hf. destruct (HA q y Hf) as [Er Es]. split; auto. intros d1. rewrite during2_cons. simpl. rewrite Eq0, Es1.
           change (fst d) with (fst (fst d, b1)). rewrite (Es d1). split; [auto|]. intros [->|H]; auto. apply (during2_first schedule p psA _ (fst d, b1)).
        -- intros q y Hf. simpl. rewrite Eq0, Es1. exact (HB _ _ Hf).
        -- intros j f' [[= <- <-]|Hin]; [left; reflexivity|right; eauto].
      * destruct (IH _ _ _ _ _ _ _ _ _ Ha Hi) as (m & sA & sB & HG & HA & HB & H1 & H2).
        exists m, sA, sB. split; auto. split; [|split; [|split]]; auto; try (solve [intros; right; eauto]).
        intros q y Hf. destruct (HA q y Hf) as [Er Es]. split; auto. intros d1. rewrite (Es d1), during2_cons. simpl. rewrite Eq0. split; [auto|].
        intros [->|H]; auto. apply during2_first.
Qed.
End Runs.
End Trace.
