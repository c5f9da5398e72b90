(** try_eq of two sled stores that are both in use: the steps on each database. *)
From Coq Require Import Arith NArith List Bool Sorted.
From Verif Require Import Bytes OMap Core IdType Store Mem Spec History Prog Sled SledHistory SledLeaf SledLazy SledTables SledCopy SledEqLive
  SledTwo SledTwoFacts SledTwoTop SledEqTwo SledBeside.
Import ListNotations.

(** ** Runs: what is seen of the second database *)
Section Runs.
Context {SE DA DB X YA YB : Type}.
Notation ev2 := (ev (SE := SE) DA + ev (SE := SE) DB)%type.
Implicit Types (p : prog (DA * DB) SE X) (psA : list (prog DA SE YA)) (psB : list (prog DB SE YB)).
Notation during2_second := (during2_second (X := X)).
Notation ELook := (ELook _).
Notation EOk := (EOk _).
Notation EErr := (EErr _).
Definition seen_second (schedule : list (who * option SE)) p psA psB d (sB : list (nat * option SE)) (q : prog DB SE YB) : Prop :=
  forall d1, during sB (q :: psB) (snd d) d1 -> during2_second schedule p psA psB d d1.
Lemma during2_second_first s p psA psB d : during2_second s p psA psB d (snd d).
Proof. exists [], s. auto. Qed.
Lemma seen_step e s p psA psB d d1 :
  (let '(p1, a1, b1, dd) := interleave2 [e] p psA psB d in during2_second s p1 a1 b1 dd d1) ->
  during2_second (e :: s) p psA psB d d1.
Proof.
  destruct (interleave2 [e] p psA psB d) as [[[p1 a1] b1] dd] eqn:E. intros (s1 & s2 & -> & ->). exists (e :: s1), s2. split; auto.
  destruct e as [[|i|i] f]; cbn [interleave2] in *.
  - destruct (step1 f p d). now injection E as <- <- <- <-.
  - destruct (nth_error psA i) as [q|]; [|now injection E as <- <- <- <-]. destruct (step1 f q (fst d)). now injection E as <- <- <- <-.
  - destruct (nth_error psB i) as [q|]; [|now injection E as <- <- <- <-]. destruct (step1 f q (snd d)). now injection E as <- <- <- <-.
Qed.
Ltac same_second :=
  let q := fresh in let y := fresh in let Hf := fresh in let d1 := fresh in let Hd1 := fresh in let Er := fresh in let Es := fresh in
  intros q y Hf; match goal with HB : forall q y, follows q (rights _) y -> _ |- _ => destruct (HB q y Hf) as [Er Es] end;
  split; [exact Er|]; intros d1 Hd1; apply seen_step; simpl; repeat match goal with H : nth_error _ _ = _ |- _ => rewrite H | H : step1 _ _ _ = _ |- _ => rewrite H end;
  apply Es; exact Hd1.
Ltac own_second := match goal with H : _ \/ _ |- _ => destruct H as [->|H] end; [apply during2_second_first|]; apply seen_step; simpl; auto.
Lemma run2_second schedule : forall p psA psB d (G : list ev2 -> X -> Prop) x psA' psB' d',
  acct p G -> interleave2 schedule p psA psB d = (Ret x, psA', psB', d') ->
  exists m sA sB, G m x /\
    (forall q y, follows q (lefts m) y -> interleave sA (q :: psA) (fst d) = (Ret y :: psA', fst d') /\ seen_alike schedule p psA psB d sA q) /\
    (forall q y, follows q (rights m) y -> interleave sB (q :: psB) (snd d) = (Ret y :: psB', snd d') /\ seen_second schedule p psA psB d sB q) /\
    (forall i f, In (i, f) sA -> In (first_of i, f) schedule) /\
    (forall i f, In (i, f) sB -> In (second_of i, f) schedule).
Proof.
  induction schedule as [|[w f] schedule IH]; intros p psA psB d G x psA' psB' d' Ha Hi.
  - simpl in Hi. injection Hi as -> <- <- <-. simpl in Ha. exists [], [], []. split; auto. split; [|split; [|split]].
    + intros q y Hf. destruct q; simpl in Hf; try contradiction. subst. split; [reflexivity|].
      intros d1. rewrite during_nil. unfold during2. split; [intros ->; exists [], []; auto|].
      intros (s1 & s2 & E & ->). symmetry in E. apply app_eq_nil in E. now destruct E as [-> ->].
    + intros q y Hf. destruct q; simpl in Hf; try contradiction. subst. split; [reflexivity|]. intros d1 H1. apply during_nil in H1. subst. exists [], []. auto.
    + intros j f' [].
    + intros j f' [].
  - destruct w as [|i|i].
    + destruct p as [a|k|u k e].
      * simpl in Hi. destruct (IH _ _ _ _ _ _ _ _ _ Ha Hi) as (m & sA & sB & HG & HA & HB & H1 & H2).
        exists m, sA, sB. split; auto. split; [|split; [|split]]; auto; try (solve [intros; right; eauto]); try (solve [same_second]).
        intros q y Hf. destruct (HA q y Hf) as [Er Es]. split; auto. intros d1. rewrite (Es d1), during2_cons. simpl. split; [auto|].
        intros [->|H]; auto. apply during2_first.
      * simpl in Hi. simpl in Ha. destruct Ha as [Ha|Ha].
        -- destruct (IH _ _ _ _ _ _ _ _ _ (Ha d) Hi) as (m & sA & sB & HG & HA & HB & H1 & H2).
           exists (inl (ELook (fst d)) :: m), ((0, f) :: sA), sB. split; auto. split; [|split; [|split]]; auto; try (solve [intros; right; eauto]); try (solve [same_second]).
           ++ intros q y Hf. destruct q as [|kq|]; simpl in Hf; try contradiction. destruct (HA _ _ Hf) as [Er Es]. split; [exact Er|].
              intros d1. rewrite (during_step 0 f sA (Look kq :: psA) (fst d) d1 (Look kq) (kq (fst d)) (fst d)) by reflexivity.
              rewrite during2_cons. simpl. rewrite (Es d1). reflexivity.
           ++ intros j f' [[= <- <-]|Hin]; [left; reflexivity|right; eauto].
        -- destruct (IH _ _ _ _ _ _ _ _ _ (Ha d) Hi) as (m & sA & sB & HG & HA & HB & H1 & H2).
           exists (inr (ELook (snd d)) :: m), sA, ((0, f) :: sB). split; auto. split; [|split; [|split]]; auto; try (solve [intros; right; eauto]); try (solve [same_second]).
           ++ intros q y Hf. destruct (HA q y Hf) as [Er Es]. split; auto. intros d1. rewrite (Es d1), during2_cons. simpl. split; [auto|].
              intros [->|H]; auto. apply during2_first.
           ++ intros q y Hf. destruct q as [|kq|]; simpl in Hf; try contradiction. destruct (HB _ _ Hf) as [Er Es]. split; [exact Er|].
              intros d1 Hd1. apply (during_step 0 f sB (Look kq :: psB) (snd d) d1 (Look kq) (kq (snd d)) (snd d)) in Hd1; [|reflexivity|reflexivity]. own_second.
           ++ intros j f' [[= <- <-]|Hin]; [left; reflexivity|right; eauto].
      * simpl in Ha. destruct Ha as [(Hu & Hk & He)|(Hu & Hk & He)]; destruct f as [z|]; simpl in Hi.
        -- destruct (IH _ _ _ _ _ _ _ _ _ (He z) Hi) as (m & sA & sB & HG & HA & HB & H1 & H2).
           exists (inl (EErr z) :: m), ((0, Some z) :: sA), sB. split; auto. split; [|split; [|split]]; auto; try (solve [intros; right; eauto]); try (solve [same_second]).
           ++ intros q y Hf. destruct q as [| |uq kq eq]; simpl in Hf; try contradiction. destruct (HA _ _ Hf) as [Er Es]. split; [exact Er|].
              intros d1. rewrite (during_step 0 (Some z) sA (Act uq kq eq :: psA) (fst d) d1 (Act uq kq eq) (eq z) (fst d)) by reflexivity.
              rewrite during2_cons. simpl. rewrite (Es d1). reflexivity.
           ++ intros j f' [[= <- <-]|Hin]; [left; reflexivity|right; eauto].
        -- destruct (IH _ _ _ _ _ _ _ _ _ (Hk d) Hi) as (m & sA & sB & HG & HA & HB & H1 & H2). unfold seen_second in HB. rewrite Hu in HB.
           exists (inl (EOk (fst d) (fst (u d))) :: m), ((0, None) :: sA), sB. split; auto. split; [|split; [|split]]; auto; try (solve [intros; right; eauto]); try (solve [same_second]).
           ++ intros q y Hf. destruct q as [| |uq kq eq]; simpl in Hf; try contradiction. destruct Hf as [Eu Hf]. destruct (HA _ _ Hf) as [Er Es].
              rewrite Eu in Er. split; [exact Er|]. unfold seen_alike in Es. rewrite Eu in Es.
              intros d1. rewrite (during_step 0 None sA (Act uq kq eq :: psA) (fst d) d1 (Act uq kq eq) (kq (fst d)) (uq (fst d))) by reflexivity.
              rewrite during2_cons. simpl. rewrite (Es d1). reflexivity.
           ++ intros j f' [[= <- <-]|Hin]; [left; reflexivity|right; eauto].
        -- destruct (IH _ _ _ _ _ _ _ _ _ (He z) Hi) as (m & sA & sB & HG & HA & HB & H1 & H2).
           exists (inr (EErr z) :: m), sA, ((0, Some z) :: sB). split; auto. split; [|split; [|split]]; auto; try (solve [intros; right; eauto]); try (solve [same_second]).
           ++ intros q y Hf. destruct (HA q y Hf) as [Er Es]. split; auto. intros d1. rewrite (Es d1), during2_cons. simpl. split; [auto|].
              intros [->|H]; auto. apply during2_first.
           ++ intros q y Hf. destruct q as [| |uq kq eq]; simpl in Hf; try contradiction. destruct (HB _ _ Hf) as [Er Es]. split; [exact Er|].
              intros d1 Hd1. apply (during_step 0 (Some z) sB (Act uq kq eq :: psB) (snd d) d1 (Act uq kq eq) (eq z) (snd d)) in Hd1; [|reflexivity|reflexivity]. own_second.
           ++ intros j f' [[= <- <-]|Hin]; [left; reflexivity|right; eauto].
        -- destruct (IH _ _ _ _ _ _ _ _ _ (Hk d) Hi) as (m & sA & sB & HG & HA & HB & H1 & H2).
           exists (inr (EOk (snd d) (snd (u d))) :: m), sA, ((0, None) :: sB). split; auto. split; [|split; [|split]]; auto; try (solve [intros; right; eauto]); try (solve [same_second]).
           ++ intros q y Hf. destruct (HA q y Hf) as [Er Es]. rewrite Hu in Er. split; auto. unfold seen_alike in Es.
              intros d1. rewrite <- Hu at 1. rewrite (Es d1), during2_cons. simpl. split; [auto|].
              intros [->|H]; auto. rewrite <- Hu. apply during2_first.
           ++ intros q y Hf. destruct q as [| |uq kq eq]; simpl in Hf; try contradiction. destruct Hf as [Eu Hf]. destruct (HB _ _ Hf) as [Er Es]. rewrite Eu in Er. unfold seen_second in Es. rewrite Eu in Es. split; [exact Er|].
              intros d1 Hd1. apply (during_step 0 None sB (Act uq kq eq :: psB) (snd d) d1 (Act uq kq eq) (kq (snd d)) (uq (snd d))) in Hd1; [|reflexivity|reflexivity]. own_second.
           ++ intros j f' [[= <- <-]|Hin]; [left; reflexivity|right; eauto].
    + simpl in Hi. destruct (nth_error psA i) as [q0|] eqn:Eq0.
      * destruct (step1 f q0 (fst d)) as [q1 a1] eqn:Es1. destruct (IH _ _ _ _ _ _ _ _ _ Ha Hi) as (m & sA & sB & HG & HA & HB & H1 & H2).
        exists m, ((S i, f) :: sA), sB. split; auto. split; [|split; [|split]]; auto; try (solve [intros; right; eauto]); try (solve [same_second]).
        -- intros q y Hf. destruct (HA _ _ Hf) as [Er Es]. split; [simpl; now rewrite Eq0, Es1|].
           intros d1. rewrite (during_step (S i) f sA (q :: psA) (fst d) d1 q0 q1 a1) by assumption. rewrite during2_cons. simpl. rewrite Eq0, Es1, (Es d1). reflexivity.
        -- intros j f' [[= <- <-]|Hin]; [left; reflexivity|right; eauto].
      * destruct (IH _ _ _ _ _ _ _ _ _ Ha Hi) as (m & sA & sB & HG & HA & HB & H1 & H2).
        exists m, sA, sB. split; auto. split; [|split; [|split]]; auto; try (solve [intros; right; eauto]); try (solve [same_second]).
        intros q y Hf. destruct (HA q y Hf) as [Er Es]. split; auto. intros d1. rewrite (Es d1), during2_cons. simpl. rewrite Eq0. split; [auto|].
        intros [->|H]; auto. apply during2_first.
    + simpl in Hi. destruct (nth_error psB i) as [q0|] eqn:Eq0.
      * destruct (step1 f q0 (snd d)) as [q1 b1] eqn:Es1. destruct (IH _ _ _ _ _ _ _ _ _ Ha Hi) as (m & sA & sB & HG & HA & HB & H1 & H2).
        exists m, sA, ((S i, f) :: sB). split; auto. split; [|split; [|split]]; auto; try (solve [intros; right; eauto]); try (solve [same_second]).
        -- intros q y Hf. destruct (HA q y Hf) as [Er Es]. split; auto. intros d1. rewrite during2_cons. simpl. rewrite Eq0, Es1.
           change (fst d) with (fst (fst d, b1)). rewrite (Es d1). split; [auto|]. intros [->|H]; auto. apply (during2_first schedule p psA _ (fst d, b1)).
        -- intros q y Hf. destruct (HB _ _ Hf) as [Er Es]. split; [simpl; rewrite Eq0, Es1; exact Er|].
           intros d1 Hd1. apply (during_step (S i) f sB (q :: psB) (snd d) d1 q0 q1 b1) in Hd1; [|assumption|assumption]. destruct Hd1 as [->|Hd1]; [apply during2_second_first|].
           apply seen_step with (s := schedule). simpl. rewrite Eq0, Es1. apply Es, Hd1.
        -- intros j f' [[= <- <-]|Hin]; [left; reflexivity|right; eauto].
      * destruct (IH _ _ _ _ _ _ _ _ _ Ha Hi) as (m & sA & sB & HG & HA & HB & H1 & H2).
        exists m, sA, sB. split; auto. split; [|split; [|split]]; auto; try (solve [intros; right; eauto]); try (solve [same_second]).
        intros q y Hf. destruct (HA q y Hf) as [Er Es]. split; auto. intros d1. rewrite (Es d1), during2_cons. simpl. rewrite Eq0. split; [auto|].
        intros [->|H]; auto. apply during2_first.
Qed.
End Runs.

(** ** An iterator that is asked, and a loop over it *)
Lemma follows_bind_inv {D SE X Y} (p : prog D SE X) (f : X -> prog D SE Y) : forall m y, follows (bind p f) m y ->
  exists m1 m2 x, m = m1 ++ m2 /\ follows p m1 x /\ follows (f x) m2 y.
Proof.
  induction p as [a|k IH|u k IH e IHe]; intros m y H.
  - exists [], m, a. split; [reflexivity|]. split; [reflexivity|exact H].
  - destruct m as [|[d|d d'|z] m]; simpl in H; try contradiction. destruct (IH _ _ _ H) as (m1 & m2 & x & -> & H1 & H2).
    exists (ELook _ d :: m1), m2, x. auto.
  - destruct m as [|[d|d d'|z] m]; simpl in H; try contradiction.
    + destruct H as [E H]. destruct (IH _ _ _ H) as (m1 & m2 & x & -> & H1 & H2). exists (EOk _ d d' :: m1), m2, x. simpl. auto.
    + destruct (IHe _ _ _ H) as (m1 & m2 & x & -> & H1 & H2). exists (EErr _ z :: m1), m2, x. auto.
Qed.

Section Push.
Context {D SE EL ER A H : Type} (entries : D -> list (bytes * bytes)) (item : bytes * bytes -> prog D SE (result ER A))
  (f : A -> H -> result EL unit * H).
Notation own := (fun a h => Ret (f a h)).
Definition from_cursor (c : cursor) (h : H) : prog D SE (result (lr_error EL ER) unit * H) :=
  leaf_loop item own
    (match c_next c with Some (lo, cuts) => loop_from entries item own lo cuts | None => fun h => Ret (Ok tt, h) end) (c_have c) h.
Definition onward (o : option (result ER A)) (c : cursor) (h : H) : prog D SE (result (lr_error EL ER) unit * H) :=
  match o with
  | None => Ret (Ok tt, h)
  | Some (Err e) => Ret (Err (RightE e), h)
  | Some (Ok a) => match f a h with (Ok _, h') => from_cursor c h' | (Err e, h') => Ret (Err (LeftE e), h') end
  end.
Lemma item_pushed kv kvs nxt h m1 o c1 m2 out :
  follows (bind (item kv) (fun r => Ret (Some r, Cursor kvs nxt))) m1 (o, c1) -> follows (onward o c1 h) m2 out ->
  follows (from_cursor (Cursor (kv :: kvs) nxt) h) (m1 ++ m2) out.
Proof.
  intros H1 H2. apply follows_bind_inv in H1. destruct H1 as (ma & mb & r & -> & H1 & Hb).
  destruct mb; simpl in Hb; [|contradiction]. injection Hb as -> ->. rewrite app_nil_r.
  unfold from_cursor. cbn [c_have c_next leaf_loop]. eapply follows_bind; [exact H1|].
  destruct r as [a|e]; cbn [onward] in H2; [|exact H2]. cbn [bind fst snd]. destruct (f a h) as [[u|e] h'] eqn:Ef; cbn [fst snd] in *; exact H2.
Qed.
Lemma leaf_pushed cuts : forall lo h m1 o c1 m2 out,
  follows (bind (next_leaf entries lo cuts) (fun x => match fst x with
    | Some kv => bind (item kv) (fun r => Ret (Some r, snd x)) | None => Ret (None, snd x) end)) m1 (o, c1) ->
  follows (onward o c1 h) m2 out -> follows (loop_from entries item own lo cuts h) (m1 ++ m2) out.
Proof.
  induction cuts as [|c cuts IH]; intros lo h m1 o c1 m2 out H1 H2; cbn [next_leaf bind loop_from] in *.
  - destruct m1 as [|[d|d d'|z] m1]; simpl in H1; try contradiction. cbn [app follows].
    destruct (piece lo None (entries d)) as [|kv kvs]; cbn [bind fst snd] in H1.
    + destruct m1; simpl in H1; [|contradiction]. injection H1 as -> ->. exact H2.
    + exact (item_pushed kv kvs None h m1 o c1 m2 out H1 H2).
  - destruct m1 as [|[d|d d'|z] m1]; simpl in H1; try contradiction. cbn [app follows].
    destruct (piece lo (Some c) (entries d)) as [|kv kvs]; cbn [bind fst snd] in H1.
    + cbn [leaf_loop]. exact (IH _ h m1 o c1 m2 out H1 H2).
    + exact (item_pushed kv kvs (Some (Some (later lo c), cuts)) h m1 o c1 m2 out H1 H2).
Qed.
Lemma ask_pushed c h m1 o c1 m2 out : follows (ask entries item c) m1 (o, c1) -> follows (onward o c1 h) m2 out ->
  follows (from_cursor c h) (m1 ++ m2) out.
Proof.
  unfold ask, next_entry. destruct c as [[|kv kvs] [[lo cuts]|]]; cbn [c_have c_next]; intros H1 H2.
  - unfold from_cursor. cbn [c_have c_next leaf_loop]. exact (leaf_pushed cuts lo h m1 o c1 m2 out H1 H2).
  - cbn [bind fst snd] in H1. destruct m1; simpl in H1; [|contradiction]. injection H1 as -> ->. exact H2.
  - exact (item_pushed _ _ _ h m1 o c1 m2 out H1 H2).
  - exact (item_pushed _ _ _ h m1 o c1 m2 out H1 H2).
Qed.
End Push.

(** ** One loop of try_eq *)
Section Zip.
Context {DA DB SE EA EB A : Type} (eqb : A -> A -> bool)
  (entries : DA -> list (bytes * bytes)) (item : bytes * bytes -> prog DA SE (result EA A))
  (entries' : DB -> list (bytes * bytes)) (item' : bytes * bytes -> prog DB SE (result EB A)).
Notation answer := (result (lr_error EA EB) bool).
Notation ev := (ev (SE := SE)).
Notation body := (same_next (EA := EA) eqb entries' item').
Notation push := (from_cursor entries' item' (same_item eqb)).
Definition ended (y : option (result EB A)) : result (lr_error unit EB) unit :=
  match y with None => Ok tt | Some (Ok _) => Err (LeftE tt) | Some (Err e) => Err (RightE e) end.
Definition stopped (o : result (lr_error unit EB) unit) : answer :=
  match o with Err (RightE e) => Err (RightE e) | _ => Ok false end.

Lemma feed_pushed (ns : list A) : forall c m (P : Prop) r c' m' (P' : Prop),
  feed (ER := EA) (by_list body) (map Ok ns) (Some (c, m, P)) = (r, Some (c', m', P')) -> P' ->
  P /\ match r with
  | Ok _ => exists m0, m = m0 ++ m' /\ forall m2 y c2, follows (ask entries' item' c') m2 (y, c2) -> follows (push c ns) (m0 ++ m2) (ended y, [])
  | Err (LeftE a) => exists m0 o l ls, m = m0 ++ m' /\ follows (push c ns) m0 (o, l :: ls) /\ a = stopped o
  | Err (RightE _) => False
  end.
Proof.
  induction ns as [|n ns IH]; intros c m P r c' m' P' E HP.
  - simpl in E. injection E as <- <- <- <-. split; auto. exists []. split; auto. intros m2 y c2 Hy. simpl.
    rewrite <- (app_nil_r m2). eapply ask_pushed; [exact Hy|]. destruct y as [[a|e]|]; reflexivity.
  - cbn [map feed by_list] in E. destruct (replay (body n c) m P) as [[[[r1 c1] m1] P1]|] eqn:Er; cbn [fst snd] in E.
    2:{ exfalso. clear - E. revert E. generalize (map (@Ok EA A) ns). intros l. induction l as [|[a|e] l IH]; simpl; intros E; try discriminate. auto. }
    destruct r1 as [[]|a].
    + destruct (IH _ _ _ _ _ _ _ E HP) as [HP1 Hr]. destruct (replay_follows _ _ _ _ _ _ Er HP1) as (HP0 & m0 & -> & Hf). split; auto.
      unfold same_next in Hf. apply follows_bind_inv in Hf. destruct Hf as (ma & mb & [y c2] & -> & Ha & Hb). cbn [fst snd] in Hb.
      destruct mb; simpl in Hb; [|contradiction]. rewrite app_nil_r in *. injection Hb as Eb ->.
      destruct y as [[b|e]|]; try discriminate. destruct (eqb n b) eqn:En; try discriminate.
      assert (forall m2 out, follows (push c2 ns) m2 out -> follows (push c (n :: ns)) (ma ++ m2) out) as Hstep.
      { intros m2 out H2. eapply ask_pushed; [exact Ha|]. cbn [onward same_item]. rewrite En. exact H2. }
      destruct r as [u|[a|e]].
      * destruct Hr as (m0 & -> & Hr). exists (ma ++ m0). split; [now rewrite app_assoc|]. intros m2 y c3 Hy. rewrite <- app_assoc. eapply Hstep, Hr, Hy.
      * destruct Hr as (m0 & o & l & ls & -> & Hr & ->). exists (ma ++ m0), o, l, ls. split; [now rewrite app_assoc|]. split; auto.
      * exact Hr.
    + injection E as <- <- <- <-. destruct (replay_follows _ _ _ _ _ _ Er HP) as (HP0 & m0 & -> & Hf). split; auto.
      unfold same_next in Hf. apply follows_bind_inv in Hf. destruct Hf as (ma & mb & [y c2] & -> & Ha & Hb). cbn [fst snd] in Hb.
      destruct mb; simpl in Hb; [|contradiction]. rewrite app_nil_r in *. injection Hb as Eb ->.
      exists ma.
      destruct y as [[b|e]|].
      * destruct (eqb n b) eqn:En; try discriminate. injection Eb as ->. exists (Err (LeftE tt)), n, ns.
        split; auto. split; [|reflexivity]. rewrite <- (app_nil_r ma). eapply ask_pushed; [exact Ha|]. cbn [onward same_item]. rewrite En. reflexivity.
      * injection Eb as ->. exists (Err (RightE e)), n, ns. split; auto. split; [|reflexivity].
        rewrite <- (app_nil_r ma). eapply ask_pushed; [exact Ha|]. reflexivity.
      * injection Eb as ->. exists (Ok tt), n, ns. split; auto. split; [|reflexivity].
        rewrite <- (app_nil_r ma). eapply ask_pushed; [exact Ha|]. reflexivity.
Qed.

(** What a run of the loop has done. *)
Definition zipped (cuts cuts' : list bytes) (m : list (ev DA + ev DB)) (a : answer) : Prop :=
  exists mL mF r c, m = mL ++ map inr mF /\
    alone (loop_from entries item (fun l st => Ret (by_list body l st)) None cuts) (cursor_new cuts') mL (r, c) /\
    match r with
    | Err (LeftE b) => mF = [] /\ a = b
    | Err (RightE e) => a = Ok false \/ a = Err (LeftE e)
    | Ok _ => exists y c', follows (ask entries' item' c) mF (y, c') /\ a = Ok (match y with Some _ => false | None => true end)
    end.
Lemma acct_zip cuts cuts' : acct (zip_both eqb entries item entries' item' cuts cuts') (zipped cuts cuts').
Proof.
  unfold zip_both. apply acct_bind. eapply acct_mono; [|apply alone_loop]. intros mL [[u|[b|e]] c] HL; cbn [fst snd].
  - apply acct_bind, acct_second. intros mF [y c'] Hy. cbn [acct fst snd]. rewrite app_nil_r. exists mL, mF, (Ok u), c.
    split; auto. split; auto. exists y, c'. split; auto. destruct y; reflexivity.
  - cbn [acct]. exists mL, [], (Err (LeftE b)), c. auto.
  - apply acct_bind, acct_second. intros mF [y c'] Hy. cbn [acct fst snd]. rewrite app_nil_r. exists mL, mF, (Err (RightE e)), c.
    split; auto. split; auto. destruct y; auto.
Qed.

(** The steps on the first database are those of a loop, and, when this has read [ns], those on the second one are
    those of a loop that compares with [ns]. *)
Lemma zipped_loops cuts cuts' m a : zipped cuts cuts' m a ->
  exists st r st', follows (loop_from entries item (fun l st => Ret (by_list body l st)) None cuts st) (lefts m) (r, st') /\
    (forall e, r = Err (RightE e) -> a = Ok false \/ a = Err (LeftE e)) /\
    forall ns, feed (by_list body) (map Ok ns) st = (r, st') ->
      exists out, follows (loop_from entries' item' (fun l st => Ret (same_item eqb l st)) None cuts' ns) (rights m) out /\
        a = match same_items out with Ok b => Ok b | Err e => Err (RightE e) end /\ (r = Ok tt \/ snd out <> []).
Proof.
  intros (mL & mF & r & c & -> & HL & Ha). destruct (HL [] True) as (P' & HP & Hf). rewrite app_nil_r in Hf. cbn [fst snd] in Hf.
  exists (Some (cursor_new cuts', rights mL, True)), r, (Some (c, [], P')). rewrite lefts_app, lefts_inr, app_nil_r.
  split; [exact Hf|]. split.
  - intros e ->. exact Ha.
  - intros ns En. destruct (feed_pushed _ _ _ _ _ _ _ _ En (HP Logic.I)) as [_ Hr]. rewrite rights_app, rights_inr.
    destruct r as [[]|[b|e]]; [| |contradiction].
    + destruct Hr as (m0 & E0 & Hr). rewrite app_nil_r in E0. subst m0. destruct Ha as (y & c' & Hy & ->).
      exists (ended y, []). split; [exact (Hr _ _ _ Hy)|]. split; [destruct y as [[]|]; reflexivity|auto].
    + destruct Hr as (m0 & o & l & ls & E0 & Hr & ->). rewrite app_nil_r in E0. subst m0. destruct Ha as [-> ->]. rewrite app_nil_r.
      exists (o, l :: ls). split; [exact Hr|]. split; [destruct o as [|[]]; reflexivity|]. right. discriminate.
Qed.
End Zip.
