(** Readers next to writers. *)
From Coq Require Import Arith NArith List Bool Sorted Lia.
From Verif Require Import Bytes BytesFacts OMap OMapFacts Core IdType IdTypeFacts Store Mem Spec
  CodecFacts ListFacts MemFacts MemSim History Prog ProgFacts Sled SledHistory SledDb SledOps SledBulk SledRead SledTables
  SledAny SledRun SledTop SledLeaf SledLeafFacts SledBeside SledRely SledOwn SledOwnOps.
Import ListNotations.

Lemma nth_replace {X} (l : list X) i j x : nth_error (replace_nth i x l) j =
  if Nat.eq_dec i j then match nth_error l j with Some _ => Some x | None => None end else nth_error l j.
Proof.
  revert i j. induction l as [|y l IH]; intros i j; simpl.
  - destruct (Nat.eq_dec i j), i, j; reflexivity.
  - destruct i, j; simpl; try reflexivity. rewrite IH.
    destruct (Nat.eq_dec i j), (Nat.eq_dec (S i) (S j)); congruence || reflexivity.
Qed.

Section World.
Context {k : idkind} {NP EP SE BE : Type} (cn : codec BE NP) (ce : codec BE EP) (keep : triple (Id k) -> Prop).
Notation P A := (prog db SE A).
Notation keys := (bytes -> triple (Id k) -> Prop).
Notation room := (bytes -> Prop).
Notation sane := (sane (k := k) cn ce keep).
Notation own := (own (k := k) cn ce keep).
Notation lasting := (lasting keep).

(** The database now, the record keys in use, and what the database was before. *)
Record st : Type := St {
  s_used : keys;
  s_now : db;
  s_past : list db;
  s_in : In s_now s_past;
  s_sane : sane s_used s_now
}.
Definition ext (w w' : st) : Prop :=
  within (s_used w) (s_used w') /\ lasting (s_used w) (s_now w) (s_now w') /\
  (forall d, In d (s_past w) -> In d (s_past w')).
Lemma ext_refl w : ext w w.
Proof. split; [apply within_refl|]. split; [apply lasting_refl|auto]. Qed.
Lemma ext_trans a b c : ext a b -> ext b c -> ext a c.
Proof.
  intros (H1 & H2 & H3) (H4 & H5 & H6). split; [eapply within_trans; eauto|]. split; auto. eapply lasting_trans; eauto.
Qed.
Lemma between_past w w' d : between s_now ext w w' d -> In d (s_past w').
Proof. intros (w1 & _ & (_ & _ & H) & ->). apply H, s_in. Qed.

(** The writers, each with its own keys. *)
Definition world {X} (U : keys) (d : db) (ws : list (P X)) : Prop :=
  exists (A : nat -> keys) (K : nat -> room),
    (forall i p, nth_error ws i = Some p -> own (fun _ _ _ => True) (A i) (K i) p) /\
    (forall i, within (A i) U) /\
    (forall i r, K i r -> (forall t, ~ U r t) /\ bget r (t_edge d) = None) /\
    (forall i j r, i <> j -> K i r -> ~ K j r).

Lemma sane_more (U N : keys) d : one N -> (forall r t t', N r t -> ~ U r t') ->
  (forall r t, N r t -> bget r (t_edge d) = None) -> sane U d -> sane (union U N) d.
Proof.
  intros H1 H2 HN [S0 S1 S2 S3 S4]. split; auto.
  - intros r t t' [H|H] [H'|H'].
    + eapply S0; eauto.
    + destruct (H2 r t' t H' H).
    + destruct (H2 r t t' H H').
    + eapply H1; eauto.
  - intros o key r H. destruct (S3 o key r H) as (t & Ha & Hb & Hc). exists t. unfold union. auto.
  - intros r t b [Hr|Hr]; eauto. rewrite (HN r t) by auto. discriminate.
Qed.

Lemma world_step {X} U d (ws : list (P X)) i p f : nth_error ws i = Some p -> sane U d -> world U d ws ->
  exists U' : keys, within U U' /\ lasting U d (snd (step1 f p d)) /\ sane U' (snd (step1 f p d)) /\
    world U' (snd (step1 f p d)) (replace_nth i (fst (step1 f p d)) ws).
Proof.
  intros Hi Hs (A & K & H1 & H2 & H3 & H4). pose proof (H1 i p Hi) as Hp.
  assert (forall B p', within B U -> own (fun _ _ _ => True) B (K i) p' -> world U d (replace_nth i p' ws)) as Same.
  { intros B p' HB Hp'. exists (fun j => if Nat.eq_dec i j then B else A j), K. split; [|split; [|split]]; auto.
    - intros j q. rewrite nth_replace. destruct (Nat.eq_dec i j) as [->|Nj]; [|apply H1].
      rewrite Hi. intros [= <-]. exact Hp'.
    - intros j. destruct (Nat.eq_dec i j); auto. }
  destruct p as [x|c|u c e]; simpl in *.
  - exists U. split; [apply within_refl|]. split; [apply lasting_refl|]. split; [exact Hs|]. exact (Same (A i) (Ret x) (H2 i) Logic.I).
  - exists U. split; [apply within_refl|]. split; [apply lasting_refl|]. split; [exact Hs|]. apply (Same U); [apply within_refl|]. apply Hp; auto.
  - destruct f as [x|].
    { exists U. destruct Hp as (N & K1 & _ & _ & _ & _ & _ & He). split; [apply within_refl|]. split; [apply lasting_refl|]. split; [exact Hs|].
      exact (Same (A i) (e x) (H2 i) (He x)). }
    simpl. destruct Hp as (N & K1 & HN & HK & HNK & HN1 & Hc & He).
    assert (forall r t t', N r t -> ~ U r t') as HNU by (intros r t t' Hr; apply (H3 i r); eauto).
    assert (sane (union U N) d) as Hs' by (apply sane_more; auto; intros r t Hr; apply (H3 i r); eauto).
    destruct (Hc U d (H2 i) Hs) as [Hu Hc'].
    destruct (tame_spec cn ce keep _ _ _ _ Hu) as (S1 & S2 & S3); auto.
    exists (union U N). split; [apply within_union|]. split; auto. split; auto.
    exists (fun j => if Nat.eq_dec i j then union U N else A j), (fun j => if Nat.eq_dec i j then K1 else K j).
    split; [|split; [|split]].
    + intros j q. rewrite nth_replace. destruct (Nat.eq_dec i j) as [->|Nj]; [|apply H1].
      rewrite Hi. intros [= <-]. exact Hc'.
    + intros j. destruct (Nat.eq_dec i j) as [->|Nj]; [apply within_refl|]. eapply within_trans; [apply H2|apply within_union].
    + intros j r Hr. destruct (Nat.eq_dec i j) as [->|Nj].
      * destruct (H3 j r (HK r Hr)) as [E1 E2]. assert (forall t, ~ N r t) as Nr by (intros t Hn; exact (HNK r t Hn Hr)). split.
        -- intros t [?|Hn]; [eapply E1; eauto|eapply Nr; eauto].
        -- apply S3; auto.
      * destruct (H3 j r Hr) as [E1 E2]. assert (forall t, ~ N r t) as Nr by (intros t Hn; apply (H4 i j r Nj); eauto). split.
        -- intros t [?|Hn]; [eapply E1; eauto|eapply Nr; eauto].
        -- apply S3; auto.
    + intros j j' r Nj. destruct (Nat.eq_dec i j), (Nat.eq_dec i j'); subst; intros Hr; try congruence.
      * apply (H4 j j'); auto.
      * intros Hr'. apply (H4 j j' r Nj); auto.
      * apply (H4 j j'); auto.
Qed.

Lemma during_nil {X} (ps : list (P X)) d s : during s ps d d.
Proof. exists [], s. auto. Qed.
Lemma during_cons {X} (ps ps' : list (P X)) d d' d1 i f s :
  (forall s', interleave ((i, f) :: s') ps d = interleave s' ps' d') -> during s ps' d' d1 -> during ((i, f) :: s) ps d d1.
Proof. intros H (s1 & s2 & -> & ->). exists ((i, f) :: s1), s2. split; auto. now rewrite H. Qed.

Lemma run_beside {X} (F : SE -> Prop) (Q : X -> st -> Prop) schedule : forall (p : P X) ws w,
  (forall a w1 w2, ext w1 w2 -> Q a w1 -> Q a w2) -> (forall x, met schedule x -> F x) -> world (s_used w) (s_now w) ws -> rg s_now ext F Q p w ->
  exists p' ws' w', interleave schedule (p :: ws) (s_now w) = (p' :: ws', s_now w') /\
    rg s_now ext F Q p' w' /\ ext w w' /\
    (forall d1, In d1 (s_past w') -> In d1 (s_past w) \/ during schedule (p :: ws) (s_now w) d1).
Proof.
  induction schedule as [|[i f] s IH]; intros p ws w HQ HF Hw Hp.
  - exists p, ws, w. split; auto. split; auto. split; auto. apply ext_refl.
  - assert (forall x, met s x -> F x) as HF' by (intros x Hx; apply HF; right; exact Hx).
    destruct i as [|i].
    + assert (exists p', step1 f p (s_now w) = (p', s_now w) /\ rg s_now ext F Q p' w) as (p' & E & Hp').
      { destruct p as [x|c|u c e]; simpl in Hp |- *.
        - eauto.
        - eexists. split; [reflexivity|]. apply Hp, ext_refl.
        - destruct (Hp w (ext_refl w)) as (Hu & Hc & He). destruct f as [x|].
          + eexists. split; [reflexivity|]. apply He, HF. left. reflexivity.
          + rewrite Hu. eexists. split; [reflexivity|]. exact Hc. }
      destruct (IH p' ws w HQ HF' Hw Hp') as (p2 & ws2 & w2 & H1 & H2 & H3 & H4).
      exists p2, ws2, w2. split; [simpl; rewrite E; exact H1|]. split; auto. split; auto.
      intros d1 Hd. destruct (H4 d1 Hd) as [?|Hd']; auto. right.
      eapply during_cons; [|exact Hd']. intros s'. simpl. now rewrite E.
    + destruct (nth_error ws i) as [q|] eqn:Hi.
      * destruct (world_step (s_used w) (s_now w) ws i q f Hi (s_sane w) Hw) as (U' & W1 & W2 & W3 & W4).
        destruct (step1 f q (s_now w)) as [q' d'] eqn:E. cbn [fst snd] in *.
        set (w1 := St U' d' (d' :: s_past w) (or_introl eq_refl) W3).
        assert (ext w w1) as Hx by (split; [exact W1|split; [exact W2|intros d Hd; right; exact Hd]]).
        assert (rg s_now ext F Q p w1) as Hp1 by (eapply rg_later; [exact ext_trans|exact HQ|exact Hx|exact Hp]).
        destruct (IH p _ w1 HQ HF' W4 Hp1) as (p2 & ws2 & w2 & H1 & H2 & H3 & H4).
        exists p2, ws2, w2. split; [simpl; rewrite Hi, E; exact H1|]. split; auto. split; [eapply ext_trans; eauto|].
        intros d1 Hd. assert (forall s', interleave ((S i, f) :: s') (p :: ws) (s_now w) =
          interleave s' (p :: replace_nth i q' ws) (s_now w1)) as Hst by (intros s'; simpl; now rewrite Hi, E).
        destruct (H4 d1 Hd) as [[<-|?]|Hd']; auto; right; eapply during_cons; eauto. apply during_nil.
      * destruct (IH p ws w HQ HF' Hw Hp) as (p2 & ws2 & w2 & H1 & H2 & H3 & H4).
        exists p2, ws2, w2. split; [simpl; rewrite Hi; exact H1|]. split; auto. split; auto.
        intros d1 Hd. destruct (H4 d1 Hd) as [?|Hd']; auto. right.
        eapply during_cons; [|exact Hd']. intros s'. simpl. now rewrite Hi.
Qed.
End World.
