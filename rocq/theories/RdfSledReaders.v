(** What the readers of an RDF store over sled return next to writers. *)
From Coq Require Import Arith NArith List Bool Sorted Lia.
From Verif Require Import Bytes BytesFacts OMap OMapFacts Core IdType IdTypeFacts Store Mem MemIndex Spec GenSpec
  CodecFacts ListFacts MemFacts MemSim History MemTop Prog ProgFacts Sled SledHistory SledSched SledDb SledOps SledBulk SledRead SledTables
  SledAny SledRun SledTop SledMain SledLeaf SledLeafFacts SledBeside SledRely SledOwn SledOwnOps SledBesideTop SledReaders
  SledIndex SledIndexFacts Rdf RdfSpec RdfTop RdfQuery RdfSled RdfSledSpec RdfSledSafe RdfSledConc RdfSledTop RdfSledRead RdfSledMain RdfSledLeaf RdfSledOwn.
Import ListNotations.

Section World.
Context {S NP EP SE BE : Type}.
Context (cs : codec BE S) (cu : codec BE (Id KUlid)) (cn : codec BE NP) (ce : codec BE EP).
Context (Hcs : codec_ok cs) (Hcu : codec_ok cu) (keep : triple (Id KUlid) -> Prop) (Fin : rdb -> Prop).
Notation I := (Id KUlid).
Notation ent := (entity S).
Notation P A := (prog rdb SE A).
Notation keys := (bytes -> triple (Id KUlid) -> Prop).
Notation room := (bytes -> Prop).
Notation sane := (sane (k := KUlid) cn ce keep).
Notation rown := (rown (S := S) (SE := SE) cs cu cn ce keep Fin).
Notation lasting := (lasting keep).
Notation nu := (name_now (SE := SE) cs cu).
Notation rho := (id_now (SE := SE) cs cu).
Notation idx_ok := (index_ok cs cu).
Notation st := (st (k := KUlid) cn ce keep).
Notation ext := (ext (k := KUlid) cn ce keep).
Implicit Types d : rdb.

(** The database now, the record keys in use, and what the database was before. *)
Record rst : Type := RSt {
  u_used : keys;
  u_now : rdb;
  u_past : list rdb;
  u_in : In u_now u_past;
  u_sane : sane u_used (r_trees u_now);
  u_ok : forall d, In d u_past -> idx_ok (r_names d);
  u_grew : forall d, In d u_past -> below (nu d) (nu u_now)
}.
Definition gst (w : rst) : st :=
  St cn ce keep (u_used w) (r_trees (u_now w)) (map r_trees (u_past w)) (in_map r_trees _ _ (u_in w)) (u_sane w).
Definition rext (w w' : rst) : Prop :=
  within (u_used w) (u_used w') /\ lasting (u_used w) (r_trees (u_now w)) (r_trees (u_now w')) /\
  (forall d, In d (u_past w) -> In d (u_past w')).
Lemma rext_refl w : rext w w.
Proof. split; [apply within_refl|]. split; [apply lasting_refl|auto]. Qed.
Lemma rext_trans a b c : rext a b -> rext b c -> rext a c.
Proof.
  intros (H1 & H2 & H3) (H4 & H5 & H6). split; [eapply within_trans; eauto|]. split; auto. eapply lasting_trans; eauto.
Qed.
Lemma rext_gst w w' : rext w w' -> ext (gst w) (gst w').
Proof.
  intros (H1 & H2 & H3). split; auto. split; auto. simpl. intros d Hd. apply in_map_iff in Hd. destruct Hd as (x & <- & Hx).
  apply in_map. auto.
Qed.

(** A program on the graph. *)
Lemma rg_graph {X} (F : SE -> Prop) (Q : X -> st -> Prop) (p : prog db SE X) : forall w,
  rg (s_now (k := KUlid) cn ce keep) ext F Q p (gst w) -> rg u_now rext F (fun a w' => Q a (gst w')) (on_graph p) w.
Proof.
  induction p as [a|c IH|u c IH e IHe]; simpl; intros w Hp; auto.
  - intros w' Hw. apply IH. exact (Hp (gst w') (rext_gst _ _ Hw)).
  - intros w' Hw. destruct (Hp (gst w') (rext_gst _ _ Hw)) as (H1 & H2 & H3). simpl in H1. split; [|split].
    + rewrite H1. apply db_same.
    + apply IH. exact H2.
    + intros x Hx. apply IHe. exact (H3 x Hx).
Qed.

(** ** The writers, each with its own keys. *)
Definition rworld {X} (U : keys) d (ws : list (P X)) : Prop :=
  exists (A : nat -> keys) (K : nat -> room),
    (forall i p, nth_error ws i = Some p -> rown (fun _ _ _ => True) (A i) (K i) p) /\
    (forall i, within (A i) U) /\
    (forall i r, K i r -> (forall t, ~ U r t) /\ bget r (t_edge (r_trees d)) = None) /\
    (forall i j r, i <> j -> K i r -> ~ K j r).

Lemma rworld_step {X} U d (ws : list (P X)) i p f : nth_error ws i = Some p -> sane U (r_trees d) -> idx_ok (r_names d) -> rworld U d ws ->
  let d' := snd (step1 f p d) in Fin d -> Fin d' ->
  exists U' : keys, within U U' /\ lasting U (r_trees d) (r_trees d') /\ sane U' (r_trees d') /\
    idx_ok (r_names d') /\ below (nu d) (nu d') /\
    rworld U' d' (replace_nth i (fst (step1 f p d)) ws).
Proof.
  intros Hi Hs Hok (A & K & H1 & H2 & H3 & H4) d' Hf Hf'. unfold d' in *. clear d'. pose proof (H1 i p Hi) as Hp.
  assert (forall B p', within B U -> rown (fun _ _ _ => True) B (K i) p' -> rworld U d (replace_nth i p' ws)) as Same.
  { intros B p' HB Hp'. exists (fun j => if Nat.eq_dec i j then B else A j), K. split; [|split; [|split]]; auto.
    - intros j q. rewrite nth_replace. destruct (Nat.eq_dec i j) as [->|Nj]; [|apply H1].
      rewrite Hi. intros [= <-]. exact Hp'.
    - intros j. destruct (Nat.eq_dec i j); auto. }
  assert (forall B p', within B U -> rown (fun _ _ _ => True) B (K i) p' -> exists U' : keys, within U U' /\ lasting U (r_trees d) (r_trees d) /\
    sane U' (r_trees d) /\ idx_ok (r_names d) /\ below (nu d) (nu d) /\ rworld U' d (replace_nth i p' ws)) as Stay.
  { intros B p' HB Hp'. exists U. split; [apply within_refl|]. split; [apply lasting_refl|]. split; auto. split; auto. split; [apply below_refl|eauto]. }
  destruct p as [x|c|u c e]; simpl in *.
  - exact (Stay (A i) (Ret x) (H2 i) Logic.I).
  - apply (Stay U); [apply within_refl|]. apply Hp; auto.
  - destruct f as [x|].
    { destruct Hp as (N & K1 & _ & _ & _ & _ & _ & He). exact (Stay (A i) (e x) (H2 i) (He x)). }
    simpl in *. destruct Hp as (N & K1 & HN & HK & HNK & HN1 & Hc & He).
    assert (forall r t t', N r t -> ~ U r t') as HNU by (intros r t t' Hr; apply (H3 i r); eauto).
    assert (sane (union U N) (r_trees d)) as Hs' by (apply sane_more; auto; intros r t Hr; apply (H3 i r); eauto).
    destruct (Hc U d (H2 i) Hs Hf Hf') as [[Hut Hug] Hc'].
    destruct (tame_spec cn ce keep _ _ _ _ Hut) as (S1 & S2 & S3); auto.
    exists (union U N). split; [apply within_union|]. split; auto. split; auto.
    split; [eapply ok_grows; eauto|]. split.
    { pose proof (grows_below (SE := SE) cs cu Hcu d (r_names (u d)) Hok Hug) as Hb. intros n j Hn. specialize (Hb n j Hn).
      unfold name_now in *. exact Hb. }
    exists (fun j => if Nat.eq_dec i j then union U N else A j), (fun j => if Nat.eq_dec i j then K1 else K j).
    split; [|split; [|split]].
    + intros j q. rewrite nth_replace. destruct (Nat.eq_dec i j) as [->|Nj]; [|apply H1].
      rewrite Hi. intros [= <-]. exact Hc'.
    + intros j. destruct (Nat.eq_dec i j) as [->|Nj]; [apply within_refl|]. eapply within_trans; [apply H2|apply within_union].
    + intros j r Hr. destruct (Nat.eq_dec i j) as [->|Nj].
      * destruct (H3 j r (HK r Hr)) as [E1 E2]. assert (forall t, ~ N r t) as Nr by (intros t Hn; exact (HNK r t Hn Hr)). split.
        -- intros t [?|Hn]; [eapply E1; eauto|eapply Nr; eauto].
        -- apply S3; auto.
      * destruct (H3 j r Hr) as [E1 E2]. assert (forall t, ~ N r t) as Nr by (intros t Hn; apply (H4 i j r Nj); eauto). split.
        -- intros t [?|Hn]; [eapply E1; eauto|eapply Nr; eauto].
        -- apply S3; auto.
    + intros j j' r Nj. destruct (Nat.eq_dec i j), (Nat.eq_dec i j'); subst; intros Hr; try congruence.
      * apply (H4 j j'); auto.
      * intros Hr'. apply (H4 j j' r Nj); auto.
      * apply (H4 j j'); auto.
Qed.

Lemma rduring_nil {X} (ps : list (P X)) d s : during s ps d d.
Proof. exists [], s. auto. Qed.
Lemma rduring_cons {X} (ps ps' : list (P X)) d d' d1 i f s :
  (forall s', interleave ((i, f) :: s') ps d = interleave s' ps' d') -> during s ps' d' d1 -> during ((i, f) :: s) ps d d1.
Proof. intros H (s1 & s2 & -> & ->). exists ((i, f) :: s1), s2. split; auto. now rewrite H. Qed.

Lemma rduring_inv {X} (ps ps' : list (P X)) d d' d1 i f s :
  (forall s', interleave ((i, f) :: s') ps d = interleave s' ps' d') -> during ((i, f) :: s) ps d d1 -> d1 = d \/ during s ps' d' d1.
Proof.
  intros H (s1 & s2 & Hs & ->). destruct s1 as [|x s1]; [now left|]. simpl in Hs. injection Hs as <- ->. right.
  exists s1, s2. split; auto. now rewrite H.
Qed.

Lemma rrun_beside {X} (F : SE -> Prop) (Q : X -> rst -> Prop) schedule : forall (p : P X) ws w,
  (forall a w1 w2, rext w1 w2 -> Q a w1 -> Q a w2) -> (forall x, met schedule x -> F x) -> rworld (u_used w) (u_now w) ws -> rg u_now rext F Q p w ->
  (forall d1, during schedule (p :: ws) (u_now w) d1 -> Fin d1) ->
  exists p' ws' w', interleave schedule (p :: ws) (u_now w) = (p' :: ws', u_now w') /\
    rg u_now rext F Q p' w' /\ rext w w' /\
    (forall d1, In d1 (u_past w') -> In d1 (u_past w) \/ during schedule (p :: ws) (u_now w) d1) /\
    (forall d1, during schedule (p :: ws) (u_now w) d1 -> In d1 (u_past w')).
Proof.
  induction schedule as [|[i f] s IH]; intros p ws w HQ HF Hw Hp HN.
  - exists p, ws, w. split; auto. split; auto. split; [apply rext_refl|]. split; auto. intros d1 (s1 & s2 & Hs & ->). destruct s1; [apply u_in|discriminate].
  - assert (forall x, met s x -> F x) as HF' by (intros x Hx; apply HF; right; exact Hx).
    destruct i as [|i].
    + assert (exists p', step1 f p (u_now w) = (p', u_now w) /\ rg u_now rext F Q p' w) as (p' & E & Hp').
      { destruct p as [x|c|u c e]; simpl in Hp |- *.
        - eauto.
        - eexists. split; [reflexivity|]. apply Hp, rext_refl.
        - destruct (Hp w (rext_refl w)) as (Hu & Hc & He). destruct f as [x|].
          + eexists. split; [reflexivity|]. apply He, HF. left. reflexivity.
          + rewrite Hu. eexists. split; [reflexivity|]. exact Hc. }
      assert (forall s', interleave ((0, f) :: s') (p :: ws) (u_now w) = interleave s' (p' :: ws) (u_now w)) as Hst
        by (intros s'; simpl; now rewrite E).
      destruct (IH p' ws w HQ HF' Hw Hp') as (p2 & ws2 & w2 & H1 & H2 & H3 & H4 & H5).
      { intros d1 Hd. apply HN. eapply rduring_cons; eauto. }
      exists p2, ws2, w2. split; [simpl; rewrite E; exact H1|]. split; auto. split; auto. split.
      * intros d1 Hd. destruct (H4 d1 Hd) as [?|Hd']; auto. right. eapply rduring_cons; eauto.
      * intros d1 Hd. apply (rduring_inv _ _ _ _ _ _ _ _ Hst) in Hd. destruct Hd as [->|Hd]; auto. apply H3, u_in.
    + destruct (nth_error ws i) as [q|] eqn:Hi.
      * destruct (rworld_step (u_used w) (u_now w) ws i q f Hi (u_sane w) (u_ok w _ (u_in w)) Hw) as (U' & W1 & W2 & W3 & W5 & W6 & W4).
        { apply HN, rduring_nil. }
        { apply HN. exists [(Datatypes.S i, f)], s. split; auto. simpl. rewrite Hi. now destruct (step1 f q (u_now w)). }
        destruct (step1 f q (u_now w)) as [q' d'] eqn:E. cbn [fst snd] in *.
        assert (forall d, In d (d' :: u_past w) -> idx_ok (r_names d)) as O1 by (intros d [<-|Hd]; [exact W5|now apply (u_ok w)]).
        assert (forall d, In d (d' :: u_past w) -> below (nu d) (nu d')) as O2.
        { intros d [<-|Hd]; [apply below_refl|]. eapply below_trans; [apply (u_grew w d Hd)|exact W6]. }
        set (w1 := RSt U' d' (d' :: u_past w) (or_introl eq_refl) W3 O1 O2).
        assert (rext w w1) as Hx by (split; [exact W1|split; [exact W2|intros d Hd; right; exact Hd]]).
        assert (rg u_now rext F Q p w1) as Hp1 by (eapply rg_later; [exact rext_trans|exact HQ|exact Hx|exact Hp]).
        assert (forall s', interleave ((Datatypes.S i, f) :: s') (p :: ws) (u_now w) =
          interleave s' (p :: replace_nth i q' ws) (u_now w1)) as Hst by (intros s'; simpl; now rewrite Hi, E).
        destruct (IH p _ w1 HQ HF' W4 Hp1) as (p2 & ws2 & w2 & H1 & H2 & H3 & H4 & H5).
        { intros d1 Hd. apply HN. eapply rduring_cons; eauto. }
        exists p2, ws2, w2. split; [simpl; rewrite Hi, E; exact H1|]. split; auto. split; [eapply rext_trans; eauto|]. split.
        -- intros d1 Hd. destruct (H4 d1 Hd) as [[<-|?]|Hd']; auto; right; eapply rduring_cons; eauto. apply rduring_nil.
        -- intros d1 Hd. apply (rduring_inv _ _ _ _ _ _ _ _ Hst) in Hd. destruct Hd as [->|Hd]; auto. apply H3, Hx, u_in.
      * assert (forall s', interleave ((Datatypes.S i, f) :: s') (p :: ws) (u_now w) = interleave s' (p :: ws) (u_now w)) as Hst
          by (intros s'; simpl; now rewrite Hi).
        destruct (IH p ws w HQ HF' Hw Hp) as (p2 & ws2 & w2 & H1 & H2 & H3 & H4 & H5).
        { intros d1 Hd. apply HN. eapply rduring_cons; eauto. }
        exists p2, ws2, w2. split; [simpl; rewrite Hi; exact H1|]. split; auto. split; auto. split.
        -- intros d1 Hd. destruct (H4 d1 Hd) as [?|Hd']; auto. right. eapply rduring_cons; eauto.
        -- intros d1 Hd. apply (rduring_inv _ _ _ _ _ _ _ _ Hst) in Hd. destruct Hd as [->|Hd]; auto. apply H3, u_in.
Qed.
End World.

(** ** The readers *)
Section Readers.
Context {S NP EP SE BE : Type}.
Context (cs : codec BE S) (cu : codec BE (Id KUlid)) (cn : codec BE NP) (ce : codec BE EP).
Context (Hcs : codec_ok cs) (Hcu : codec_ok cu) (Htu : codec_total cu) (keep : triple (Id KUlid) -> Prop) (F : SE -> Prop).
Notation I := (Id KUlid).
Notation ent := (entity S).
Notation ierr := (sled_index_error S (Id KUlid) SE BE).
Notation gerr := (sled_error SE BE).
Notation err := (rdf_error S ierr gerr).
Notation P A := (prog rdb SE A).
Notation PR A := (prog rdb SE (result err A)).
Notation nu := (name_now (SE := SE) cs cu).
Notation rho := (id_now (SE := SE) cs cu).
Notation st := (st (k := KUlid) cn ce keep).
Notation ext := (ext (k := KUlid) cn ce keep).
Notation rst := (rst (S := S) (SE := SE) cs cu cn ce keep).
Notation u_now := (u_now cs cu cn ce keep).
Notation u_past := (u_past cs cu cn ce keep).
Notation gst := (gst cs cu cn ce keep).
Notation rext := (rext cs cu cn ce keep).
Notation rext_refl := (rext_refl cs cu cn ce keep).
Notation rext_trans := (rext_trans cs cu cn ce keep).
Notation rg := (rg u_now rext F).
Notation grg := (SledRely.rg (s_now (k := KUlid) cn ce keep) ext F).
Implicit Types d : rdb.
Implicit Types w : rst.

(** What an identifier is called at some moment of the past of which [T] holds. *)
Definition was_shown (T : rdb -> Prop) w (i : I) (e : ent) : Prop := exists d, In d (u_past w) /\ T d /\ e = shown (rho d) i.
Lemma was_shown_later T w w' i e : rext w w' -> was_shown T w i e -> was_shown T w' i e.
Proof. intros (_ & _ & H) (d & Hd & He). exists d. auto. Qed.
(** From now on, what was known at [d] is known. *)
Definition since d d' : Prop := below (nu d) (nu d').
Lemma since_now d w w' : In d (u_past w) -> rext w w' -> since d (u_now w').
Proof. intros Hd (_ & _ & H). apply u_grew. auto. Qed.

Definition may {B} (Q : B -> rst -> Prop) (r : result err B) w : Prop :=
  match r with Ok b => Q b w | Err e => is_fault F e end.

Definition always (T : rdb -> Prop) w : Prop := forall w', rext w w' -> T (u_now w').
Lemma always_later T w w' : rext w w' -> always T w -> always T w'.
Proof. intros H HT w2 H2. apply HT. eapply rext_trans; eauto. Qed.

Lemma rg_lookup_id T i w : always T w -> rg (may (fun e w' => was_shown T w' i e)) (rs_lookup_id (SE := SE) cs cu i) w.
Proof.
  intros HT.
  unfold rs_lookup_id. apply rg_bind. unfold si_right_to_left. destruct (Htu i) as [b Hb].
  assert (forall d, index_ok cs cu (r_names d) -> match (de_opt cs (bget b (i_r2l (r_names d))) : result ierr (option S)) with
    | Ok o => o = rho d i | Err _ => False end) as Hd.
  { intros d Hok. pose proof (right_is (SE := SE) cs cu Hcs Htu d i Hok) as H. unfold right_now, si_right_to_left in H. rewrite Hb in H.
    unfold ret_of in H. simpl in H. rewrite H. reflexivity. }
  rewrite Hb. simpl. intros w' Hw. split; [apply db_same|]. split.
  - specialize (Hd _ (u_ok cs cu cn ce keep w' _ (u_in cs cu cn ce keep w'))).
    destruct (de_opt cs (bget b (i_r2l (r_names (u_now w')))) : result ierr (option S)) as [o|]; [|tauto]. subst o. simpl.
    assert (was_shown T w' i (shown (rho (u_now w')) i)) as H by (exists (u_now w'); split; [apply u_in|auto]).
    unfold shown in H. destruct (rho (u_now w') i); exact H.
  - intros x Hx. simpl. exists x. auto.
Qed.

Lemma rg_may_bind {A B} (Q : A -> rst -> Prop) (R : B -> rst -> Prop) (p : PR A) (f : A -> PR B) w :
  rg (may Q) p w -> (forall a w', rext w w' -> Q a w' -> rg (may R) (f a) w') -> rg (may R) (bind_ok p f) w.
Proof.
  intros Hp Hf. apply rg_bind. eapply rg_mono; [exact rext_refl|exact rext_trans| |exact Hp].
  cbv beta. intros [a|e] w' Hw Ha; simpl in *; auto.
Qed.

Definition pair_shown {X} T (ip : I * X) (ep : ent * X) w : Prop := snd ep = snd ip /\ was_shown T w (fst ip) (fst ep).
Definition triple_shown T (t : triple I) (t' : triple ent) w : Prop :=
  was_shown T w (sub t) (sub t') /\ was_shown T w (pred t) (pred t') /\ was_shown T w (obj t) (obj t').
Definition edge_shown T (te : triple I * EP) (te' : triple ent * EP) w : Prop := snd te' = snd te /\ triple_shown T (fst te) (fst te') w.
Definition props_shown T (t : props_triple I NP EP) (t' : props_triple ent NP EP) w : Prop :=
  pair_shown T (p_sub t) (p_sub t') w /\ pair_shown T (p_pred t) (p_pred t') w /\ pair_shown T (p_obj t) (p_obj t') w.
Lemma pair_shown_later {X} T (a : I * X) b w w' : rext w w' -> pair_shown T a b w -> pair_shown T a b w'.
Proof. intros H [H1 H2]. split; auto. eapply was_shown_later; eauto. Qed.
Lemma triple_shown_later T a b w w' : rext w w' -> triple_shown T a b w -> triple_shown T a b w'.
Proof. intros H (H1 & H2 & H3). repeat split; eapply was_shown_later; eauto. Qed.
Lemma edge_shown_later T a b w w' : rext w w' -> edge_shown T a b w -> edge_shown T a b w'.
Proof. intros H [H1 H2]. split; auto. eapply triple_shown_later; eauto. Qed.
Lemma props_shown_later T a b w w' : rext w w' -> props_shown T a b w -> props_shown T a b w'.
Proof. intros H (H1 & H2 & H3). repeat split; try apply H1; try apply H2; try apply H3; eapply was_shown_later; try exact H; [apply H1|apply H2|apply H3]. Qed.

Lemma rg_show_pair {X} T (ip : I * X) w : always T w -> rg (may (fun b w' => pair_shown T ip b w')) (rs_show_pair (SE := SE) cs cu ip) w.
Proof. intros HT. eapply rg_may_bind; [apply rg_lookup_id; exact HT|]. intros e w' _ H. simpl. split; auto. Qed.
Lemma rg_show_edge T te w : always T w -> rg (may (fun b w' => edge_shown T te b w')) (rs_show_edge (SE := SE) cs cu te) w.
Proof.
  intros HT. unfold rs_show_edge. apply rg_may_bind with (Q := fun b w' => triple_shown T (fst te) b w').
  - unfold try_map_prog. eapply rg_may_bind; [apply rg_lookup_id; exact HT|]. intros a w1 H1 A1.
    eapply rg_may_bind; [apply rg_lookup_id; eapply always_later; eauto|].
    intros b w2 H2 A2. assert (rext w w2) as H02 by (eapply rext_trans; eauto).
    eapply rg_may_bind; [apply rg_lookup_id; eapply always_later; eauto|]. intros c w3 H3 A3. simpl. split; [|split; auto]; simpl.
    + eapply was_shown_later; [eapply rext_trans; [exact H2|exact H3]|exact A1].
    + eapply was_shown_later; eauto.
  - intros t w' _ H. simpl. split; auto.
Qed.
Lemma rg_show_props T t w : always T w -> rg (may (fun b w' => props_shown T t b w')) (rs_show_props (SE := SE) cs cu t) w.
Proof.
  intros HT. unfold rs_show_props. eapply rg_may_bind; [apply rg_show_pair; exact HT|]. intros a w1 H1 A1.
  eapply rg_may_bind; [apply rg_show_pair; eapply always_later; eauto|].
  intros b w2 H2 A2. assert (rext w w2) as H02 by (eapply rext_trans; eauto).
  eapply rg_may_bind; [apply rg_show_pair; eapply always_later; eauto|]. intros c w3 H3 A3. simpl. split; [|split; auto]; simpl.
  - eapply pair_shown_later; [eapply rext_trans; [exact H2|exact H3]|exact A1].
  - eapply pair_shown_later; eauto.
Qed.

(** An item, and the moments at which its parts were there, and what they were called afterwards. *)
Definition node_made (ip : I * NP) (ep : ent * NP) w : Prop :=
  exists d, In d (u_past w) /\ In (Ok ip) (now SE (s_iter_vertices (BE := BE) cn) (r_trees d)) /\ pair_shown (since d) ip ep w.
Definition edge_made o (te : triple I * EP) (te' : triple ent * EP) w : Prop :=
  exists d, In d (u_past w) /\ In (Ok te) (now SE (s_iter_edges (BE := BE) ce o) (r_trees d)) /\ edge_shown (since d) te te' w.
Definition props_made o (t : props_triple I NP EP) (t' : props_triple ent NP EP) w : Prop :=
  exists d1 d2 d3, In d1 (u_past w) /\ In d2 (u_past w) /\ In d3 (u_past w) /\
    In (Ok (end_of t, snd (p_pred t))) (now SE (s_iter_edges (BE := BE) ce o) (r_trees d1)) /\
    In (Ok (p_sub t)) (now SE (s_iter_vertices (BE := BE) cn) (r_trees d2)) /\
    In (Ok (p_obj t)) (now SE (s_iter_vertices (BE := BE) cn) (r_trees d3)) /\
    props_shown (fun d => since d1 d /\ since d2 d /\ since d3 d) t t' w.
Lemma node_made_later a b w w' : rext w w' -> node_made a b w -> node_made a b w'.
Proof. intros H (d & H1 & H2 & H3). exists d. split; [apply H; auto|]. split; auto. eapply pair_shown_later; eauto. Qed.
Lemma edge_made_later o a b w w' : rext w w' -> edge_made o a b w -> edge_made o a b w'.
Proof. intros H (d & H1 & H2 & H3). exists d. split; [apply H; auto|]. split; auto. eapply edge_shown_later; eauto. Qed.
Lemma props_made_later o a b w w' : rext w w' -> props_made o a b w -> props_made o a b w'.
Proof.
  intros H (d1 & d2 & d3 & H1 & H2 & H3 & H4 & H5 & H6 & H7). exists d1, d2, d3.
  split; [apply H; auto|]. split; [apply H; auto|]. split; [apply H; auto|]. repeat (split; auto).
  all: eapply props_shown_later in H7; [|exact H]; apply H7.
Qed.

(** An item of the graph and what is made of it. *)
Definition rendered {A B} (Sh : A -> B -> rst -> Prop) (y : result gerr A) (x : result err B) w : Prop :=
  match x with
  | Ok b => exists a, y = Ok a /\ Sh a b w
  | Err e => (exists g, y = Err g /\ e = GraphStorageError g) \/ is_fault F e
  end.
Definition shown_out {A B} (V : bytes * bytes -> result gerr A -> st -> Prop) (Sh : A -> B -> rst -> Prop)
    (kv : bytes * bytes) (x : result err B) w : Prop := exists y, V kv y (gst w) /\ rendered Sh y x w.

Section Scan.
Context {A B : Type} (V : bytes * bytes -> result gerr A -> st -> Prop) (Sh : A -> B -> rst -> Prop).
Context (HV : forall x y (w1 w2 : st), ext w1 w2 -> V x y w1 -> V x y w2) (HSh : forall a b w1 w2, rext w1 w2 -> Sh a b w1 -> Sh a b w2).
Context (entries : db -> list (bytes * bytes)) (item : bytes * bytes -> prog db SE (result gerr A)) (show : A -> PR B).
Context (Hshow : forall kv a w, V kv (Ok a) (gst w) -> rg (may (fun b w' => Sh a b w')) (show a) w).
Context (Hsort : forall w : st, om_sorted bytes_cmp (entries (s_now cn ce keep w))).
Context (Hitem : forall kv (w1 w2 : st), In kv (entries (s_now cn ce keep w1)) -> ext w1 w2 -> grg (V kv) (next (item kv)) w2).
Notation cur := (fun w : rst => r_trees (u_now w)).

Lemma rendered_later y x w w' : rext w w' -> rendered Sh y x w -> rendered Sh y x w'.
Proof. intros H. destruct x as [b|e]; simpl; auto. intros (a & -> & Ha). exists a. split; auto. eapply HSh; eauto. Qed.
Lemma shown_out_later kv x w w' : rext w w' -> shown_out V Sh kv x w -> shown_out V Sh kv x w'.
Proof.
  intros H (y & Hy & Hr). exists y. split; [eapply HV; [apply rext_gst; eauto|exact Hy]|eapply rendered_later; eauto].
Qed.
Lemma rg_shown kv w w1 : In kv (entries (cur w1)) -> rext w1 w -> rg (shown_out V Sh kv) (shown_item item show kv) w.
Proof.
  intros Hin Hw. unfold shown_item. apply rg_bind. eapply rg_mono; [exact rext_refl|exact rext_trans| |apply rg_graph; apply (Hitem kv (gst w1)); [exact Hin|apply rext_gst; exact Hw]].
  cbv beta. intros [a|e] w2 H2 Hv.
  - eapply rg_mono; [exact rext_refl|exact rext_trans| |eapply Hshow; exact Hv]. intros [b|x] w3 H3 Hb; simpl in Hb.
    + exists (Ok a). split; [eapply HV; [apply rext_gst; eauto|exact Hv]|]. simpl. eauto.
    + exists (Ok a). split; [eapply HV; [apply rext_gst; eauto|exact Hv]|]. simpl. auto.
  - exists (Err e). split; auto. simpl. left. eauto.
Qed.

Lemma rg_rl_scan cuts : forall lo w,
  rg (fun xs w' => exists L, scanned cur rext entries lo w w' L /\ Forall2 (fun kv x => shown_out V Sh kv x w') L xs)
     (rl_scan_from entries item show lo cuts) w.
Proof.
  assert (forall w', om_sorted bytes_cmp (entries (cur w'))) as Hs by (intros w'; exact (Hsort (gst w'))).
  induction cuts as [|c cuts IH]; intros lo w.
  - cbn [rl_scan_from SledRely.rg]. intros w1 H1.
    eapply rg_mono; [exact rext_refl|exact rext_trans| |apply rg_map with (V := fun kv x w' => shown_out V Sh kv x w')];
      try exact rext_refl; try exact rext_trans.
    + cbv beta. intros xs w2 H2 Hxs. eexists. split; [|exact Hxs]. apply (scanned_last cur rext entries lo w w1 w2); auto.
    + intros; eapply shown_out_later; eauto.
    + intros kv w2 Hin H2. apply piece_in in Hin. apply rg_shown with (w1 := w1); [apply Hin|auto].
  - cbn [rl_scan_from Prog.bind SledRely.rg]. intros w1 H1. apply rg_bind.
    eapply rg_mono; [exact rext_refl|exact rext_trans| |apply rg_map with (V := fun kv x w' => shown_out V Sh kv x w')];
      try exact rext_refl; try exact rext_trans.
    + cbv beta. intros xs w2 H2 Hxs. apply rg_bind. eapply rg_mono; [exact rext_refl|exact rext_trans| |apply (IH _ w2)].
      cbv beta. intros ys w3 H3 (L & HL & Hys). simpl. eexists. split; [apply (scanned_cons cur rext rext_refl rext_trans entries lo c w w1 w2 w3 L); auto|].
      apply Forall2_app; auto. clear - HV HSh H3 Hxs. induction Hxs; constructor; auto. eapply shown_out_later; eauto.
    + intros; eapply shown_out_later; eauto.
    + intros kv w2 Hin H2. apply piece_in in Hin. apply rg_shown with (w1 := w1); [apply Hin|auto].
Qed.

Lemma scanned_gst lo w w' L : scanned cur rext entries lo w w' L ->
  scanned (s_now (k := KUlid) cn ce keep) ext entries lo (gst w) (gst w') L.
Proof.
  intros (H1 & H2 & H3). split; auto. split; auto. intros key Hk. destruct (H3 key Hk) as (d & (w1 & X1 & X2 & ->) & H).
  exists (cur w1). split; auto. exists (gst w1). split; [now apply rext_gst|]. split; [now apply rext_gst|reflexivity].
Qed.

Lemma out_split w L xs : Forall2 (fun kv x => shown_out V Sh kv x w) L xs ->
  exists ys, Forall2 (fun kv y => V kv y (gst w)) L ys /\ Forall2 (fun y x => rendered Sh y x w) ys xs.
Proof.
  induction 1 as [|kv x L xs (y & Hy & Hr) _ (ys & H1 & H2)]; [exists []; auto|]. exists (y :: ys). auto.
Qed.

(** All the items read, those of the graph and what is made of them. *)
Definition made (R : list (result gerr A) -> st -> Prop) (xs : list (result err B)) w : Prop :=
  exists ys, R ys (gst w) /\ Forall2 (fun y x => rendered Sh y x w) ys xs.
Lemma made_later (R : list (result gerr A) -> st -> Prop) xs w w' : (forall ys (w1 w2 : st), ext w1 w2 -> R ys w1 -> R ys w2) -> rext w w' -> made R xs w -> made R xs w'.
Proof.
  intros HR H (ys & Hy & Hr). exists ys. split; [eapply HR; [apply rext_gst; eauto|exact Hy]|].
  clear -H Hr HSh. induction Hr; constructor; auto. eapply rendered_later; eauto.
Qed.

Lemma rg_made (R : list (result gerr A) -> st -> Prop) cuts w : (forall (w1 w2 : st) L ys, scanned (s_now (k := KUlid) cn ce keep) ext entries None w1 w2 L ->
    Forall2 (fun kv y => V kv y w2) L ys -> R ys w2) ->
  rg (made R) (rl_scan cuts entries item show) w.
Proof.
  intros HR. eapply rg_mono; [exact rext_refl|exact rext_trans| |apply rg_rl_scan].
  cbv beta. intros xs w' _ (L & HL & Hxs). destruct (out_split _ _ _ Hxs) as (ys & H1 & H2). exists ys. split; auto.
  eapply HR; [apply scanned_gst; exact HL|exact H1].
Qed.
End Scan.

Lemma rg_rl_vertices cuts w : rg (made node_made (nodes_read cn ce keep F)) (rl_iter_vertices (SE := SE) cs cu cn cuts) w.
Proof.
  unfold rl_iter_vertices. apply rg_made with (V := node_out cn ce keep F).
  - intros; eapply node_out_later; eauto.
  - intros; eapply node_made_later; eauto.
  - intros kv [i p] w1 [_ (g & Hg & Hl)]. simpl in Hg. apply in_map_iff in Hg. destruct Hg as (d & <- & Hd).
    eapply rg_mono; [exact rext_refl|exact rext_trans| |apply (rg_show_pair (since d)); intros w2 H2; eapply since_now; eauto].
    intros [b|x] w2 H2 Hb; simpl in *; auto. exists d. split; [apply H2; auto|]. auto.
  - intros w'. exact (sn_order _ _ _ _ _ (s_sane _ _ _ w') TNode).
  - intros [key b] w1 w2 Hin Hx. now apply rg_node_item with (w1 := w1).
  - intros w1 w2 L ys HL Hys. eapply nodes_scanned; eauto.
Qed.

Lemma entries_idx o : edge_entries o = idx o.
Proof. now destruct o. Qed.
Lemma decode_dec o : edge_decode o = dec o.
Proof. now destruct o. Qed.

Lemma rg_rl_edges cuts o w : rg (made (edge_made o) (edges_read cn ce keep F o)) (rl_iter_edges (SE := SE) cs cu ce cuts o) w.
Proof.
  unfold rl_iter_edges. apply rg_made with (V := edge_out cn ce keep F o).
  - intros; eapply edge_out_later; eauto.
  - intros; eapply edge_made_later; eauto.
  - intros kv [t p] w1 [_ (g & Hg & Hl)]. simpl in Hg. apply in_map_iff in Hg. destruct Hg as (d & <- & Hd).
    eapply rg_mono; [exact rext_refl|exact rext_trans| |apply (rg_show_edge (since d)); intros w2 H2; eapply since_now; eauto].
    intros [b|x] w2 H2 Hb; simpl in *; auto. exists d. split; [apply H2; auto|]. auto.
  - intros w'. rewrite entries_idx. exact (sn_order _ _ _ _ _ (s_sane _ _ _ w') (tab o)).
  - intros [key b] w1 w2 Hin Hx. rewrite entries_idx in Hin. unfold edge_of_entry. rewrite decode_dec. now apply rg_edge_item with (w1 := w1).
  - intros w1 w2 L ys HL Hys. rewrite entries_idx in HL. eapply edges_scanned; eauto.
Qed.

Lemma props_out_moments o kv t w : props_out cn ce keep F o kv (Ok t) (gst w) ->
  (exists d, In d (u_past w) /\ In (Ok (end_of t, snd (p_pred t))) (now SE (s_iter_edges (BE := BE) ce o) (r_trees d))) /\
  (exists d, In d (u_past w) /\ In (Ok (p_sub t)) (now SE (s_iter_vertices (BE := BE) cn) (r_trees d))) /\
  (exists d, In d (u_past w) /\ In (Ok (p_obj t)) (now SE (s_iter_vertices (BE := BE) cn) (r_trees d))).
Proof.
  destruct t as [[s p] [q e] [ob po]]. intros Hv. destruct Hv as (_ & (g1 & G1 & L1) & (g2 & G2 & L2) & (g3 & G3 & L3)). simpl in *.
  apply in_map_iff in G1, G2, G3. destruct G1 as (d1 & <- & D1), G2 as (d2 & <- & D2), G3 as (d3 & <- & D3).
  split; [|split]; [exists d1|exists d2|exists d3]; auto.
Qed.
Lemma rg_rl_props cuts o w : rg (made (props_made o) (props_read cn ce keep F o)) (rl_iter_edges_with_props (SE := SE) cs cu cn ce cuts o) w.
Proof.
  unfold rl_iter_edges_with_props. apply rg_made with (V := props_out cn ce keep F o).
  - intros; eapply props_out_later; eauto.
  - intros; eapply props_made_later; eauto.
  - intros kv t w1 Hv. apply props_out_moments in Hv. destruct Hv as ((d1 & D1 & L1) & (d2 & D2 & L2) & (d3 & D3 & L3)).
    eapply rg_mono; [exact rext_refl|exact rext_trans| |apply (rg_show_props (fun d => since d1 d /\ since d2 d /\ since d3 d))].
    + intros [b|x] w2 H2 Hb; simpl in Hb |- *; auto. exists d1, d2, d3.
      split; [apply H2; auto|]. split; [apply H2; auto|]. split; [apply H2; auto|]. auto.
    + intros w2 H2. repeat split; eapply since_now; eauto.
  - intros w'. rewrite entries_idx. exact (sn_order _ _ _ _ _ (s_sane _ _ _ w') (tab o)).
  - intros [key b] w1 w2 Hin Hx. rewrite entries_idx in Hin. unfold props_of_entry. rewrite decode_dec. now apply rg_props_item with (w1 := w1).
  - intros w1 w2 L ys HL Hys. rewrite entries_idx in HL. eapply props_scanned; eauto.
Qed.

(** The vertices: the identifiers first, their names afterwards. *)
Definition vertex_made w (i : I) (e : ent) : Prop :=
  exists d p, In d (u_past w) /\ In (Ok (i, p)) (now SE (s_iter_vertices (BE := BE) cn) (r_trees d)) /\ was_shown (since d) w i e.
Lemma vertex_made_later w w' i e : rext w w' -> vertex_made w i e -> vertex_made w' i e.
Proof. intros H (d & p & H1 & H2 & H3). exists d, p. split; [apply H; auto|]. split; auto. eapply was_shown_later; eauto. Qed.
Definition names_read (r : result err (list ent)) w : Prop :=
  match r with
  | Err e => is_fault F e
  | Ok es => exists is, vertices_read cn ce keep F (Ok is) (gst w) /\ Forall2 (vertex_made w) is es
  end.
Lemma names_read_later r w w' : rext w w' -> names_read r w -> names_read r w'.
Proof.
  intros H. destruct r as [es|e]; simpl; auto. intros (is & H1 & H2). exists is. split.
  - eapply (vertices_read_later cn ce keep F (Ok is)); [apply rext_gst; exact H|exact H1].
  - clear -H H2. induction H2; constructor; auto. eapply vertex_made_later; eauto.
Qed.
Lemma rg_collect is : forall w, (forall i, In i is -> exists p, was_node (SE := SE) cn ce keep (gst w) i p) ->
  rg (may (fun es w' => Forall2 (vertex_made w') is es)) (collect_prog (rs_lookup_id (SE := SE) cs cu) is) w.
Proof.
  induction is as [|i is IH]; intros w Hi; [constructor|]. cbn [collect_prog].
  destruct (Hi i (or_introl eq_refl)) as (p & g & Hg & Hl). simpl in Hg. apply in_map_iff in Hg. destruct Hg as (d & <- & Hd).
  eapply rg_may_bind; [apply (rg_lookup_id (since d)); intros w2 H2; eapply since_now; eauto|]. intros e w1 H1 He.
  eapply rg_may_bind; [apply IH|].
  - intros j Hj. destruct (Hi j (or_intror Hj)) as (q & Hq). exists q. eapply was_node_later; [apply rext_gst; exact H1|exact Hq].
  - intros es w2 H2 Hes. simpl. constructor; auto. exists d, p. split; [apply H2, H1; auto|]. split; auto. eapply was_shown_later; eauto.
Qed.
Lemma rg_rl_names cuts w : rg names_read (rl_vertices (SE := SE) cs cu cuts) w.
Proof.
  unfold rl_vertices. apply rg_bind. eapply rg_mono; [exact rext_refl|exact rext_trans| |apply rg_graph, rg_vertices].
  cbv beta. intros [is|e] w1 H1 Hr; simpl in Hr.
  - eapply rg_mono; [exact rext_refl|exact rext_trans| |apply rg_collect; apply Hr]. intros [es|x] w2 H2 Hes; simpl in Hes |- *; auto.
    exists is. split; auto. eapply (vertices_read_later cn ce keep F (Ok is)); [apply rext_gst; exact H2|exact Hr].
  - simpl. destruct Hr as (y & Hy & ->). exists y. auto.
Qed.
End Readers.
