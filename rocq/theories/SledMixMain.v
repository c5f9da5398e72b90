(** All calls at the same time: the whole schedule. *)
From Coq Require Import Arith NArith List Bool Sorted Lia.
From Verif Require Import Bytes BytesFacts OMap OMapFacts Core IdType IdTypeFacts Store Mem Spec
  CodecFacts ListFacts MemSim History Prog ProgFacts Sled SledHistory SledSched SledDb SledOps SledBulk
  SledRun SledRead SledTop SledMain SledCrash SledLeak SledConc SledLeaf SledConcRm SledConcTop SledTornSpec
  SledMixSpec SledMixTree SledMixStep SledMixTop.
Import ListNotations.

Section Shuffles.
Context {A : Type}.

Lemma shuffle_front (ls : list (list A)) i l g s : nth_error ls i = Some l -> shuffle ls s ->
  shuffle (replace_nth i (g ++ l) ls) (g ++ s).
Proof.
  intros Hi Hs. induction g as [|x g IH].
  - simpl. rewrite replace_same; auto.
  - simpl. eapply Shuffle_cons; [eapply nth_replace_eq; eauto|]. now rewrite replace_twice.
Qed.

Lemma shuffle_concat (ls : list (list A)) : shuffle ls (concat ls).
Proof.
  assert (forall n (qs : list (list A)), shuffle (repeat [] n ++ qs) (concat qs)) as H.
  { intros n qs. revert n. induction qs as [|l qs IH]; intros n.
    - simpl. apply Shuffle_nil. rewrite app_nil_r. apply Forall_forall. intros y Hy. now apply repeat_spec in Hy.
    - simpl. induction l as [|x l IHl].
      + simpl. replace (repeat [] n ++ [] :: qs) with (repeat (@nil A) (S n) ++ qs); [apply IH|].
        simpl. clear. induction n as [|n IHn]; simpl; auto. now rewrite IHn.
      + simpl. eapply (Shuffle_cons _ n); [|].
        * rewrite nth_error_app2 by (rewrite repeat_length; auto). rewrite repeat_length, Nat.sub_diag. reflexivity.
        * replace (replace_nth n l (repeat [] n ++ (x :: l) :: qs)) with (repeat [] n ++ l :: qs); auto.
          clear. induction n as [|n IHn]; simpl; auto. now rewrite IHn. }
  apply (H 0 ls).
Qed.
End Shuffles.

Lemma pick {A B} (R : nat -> A -> B -> Prop) (l : list A) : (forall i a, nth_error l i = Some a -> exists b, R i a b) ->
  exists lb, length lb = length l /\ forall i a b, nth_error l i = Some a -> nth_error lb i = Some b -> R i a b.
Proof.
  revert R. induction l as [|x l IH]; intros R H.
  - exists []. split; auto. intros [|]; discriminate.
  - destruct (H 0 x eq_refl) as [b Hb]. destruct (IH (fun i => R (S i))) as (lb & H1 & H2).
    { intros i a Ha. apply (H (S i)). exact Ha. }
    exists (b :: lb). split; [simpl; auto|]. intros [|i] a b' Ha Hb'; simpl in *; [congruence|eauto].
Qed.

Lemma Forall2_of_nth {A B} (R : A -> B -> Prop) (l : list A) : forall lb, length l = length lb ->
  (forall i a b, nth_error l i = Some a -> nth_error lb i = Some b -> R a b) -> Forall2 R l lb.
Proof.
  induction l as [|x l IH]; intros [|b lb] Hl H; try discriminate; constructor.
  - apply (H 0); auto.
  - apply IH; [simpl in Hl; congruence|]. intros i. apply (H (S i)).
Qed.

Section Sim.
Context {k : idkind} {NP EP SE BE E : Type} (cn : codec BE NP) (ce : codec BE EP).
Context (Hcn : codec_ok cn) (Hce : codec_ok ce).
Context (mn : NP -> NP -> NP) (me : EP -> EP -> EP).
Notation I := (Id k).
Notation T := (triple (Id k)).
Notation G := (graph k NP EP).
Notation P A := (prog db SE A).
Notation op := (op k NP EP E).
Notation outcome := (outcome (SE := SE) (BE := BE) (E := E)).
Notation lapply := (l_apply (SE := SE) (E := E) cn ce mn me).
Notation apply := (sled_apply (SE := SE) (E := E) cn ce mn me).
Notation fair := (fair (k := k) cn ce).
Notation sabs := (sabs (k := k) cn ce).
Notation ct := (ct (k := k) (NP := NP) (EP := EP) (SE := SE) (BE := BE) (E := E) (list outcome)).
Notation run := (run_ct cn ce mn me).
Notation moves := (moves (k := k) (NP := NP) (EP := EP) (SE := SE) (BE := BE) (E := E) mn me).
Notation st := (st (k := k) (NP := NP) (EP := EP) (SE := SE) (BE := BE) (E := E)).
Notation rel := (rel (k := k) cn ce mn me).
Implicit Types d x : db.
Implicit Types h : handle k.
Implicit Types t : T.
Implicit Types U D : bytes -> Prop.
Implicit Types ops : list op.
Implicit Types ss : list st.

(** ** Through *)
Lemma finish_idle ops c : forall h n m z g, plain ops n m c -> peq (Ret z) (run c h) ->
  exists lg, path c lg (CRet (fst z)) /\ moves lg g g.
Proof.
  induction c as [a|a K IH]; intros h n m z g Hp Hq.
  - simpl in Hq. inversion Hq; subst. exists []. split; [apply Pa_here|apply g_equiv_refl].
  - destruct (plain_call _ _ _ _ _ Hp) as [(oo & Hoo & Hfrom) (n' & m' & -> & -> & Hp')].
    assert (forall (r : outcome) h', do_call (SE := SE) cn ce mn me a h = Ret (r, h') -> of_call r -> moved (SE := SE) (BE := BE) mn me (what a) r g g ->
      exists lg, path (CCall a K) lg (CRet (fst z)) /\ moves lg g g) as Hgo.
    { intros r h' Er Hr Hm. cbn [run_ct] in Hq. rewrite Er in Hq. cbn [bind fst snd] in Hq.
      destruct (IH r h' n' m' z g (Hp' r) Hq) as (lg & H1 & H2). exists ((what a, r) :: lg).
      split; [now apply Pa_call|]. exists g. auto. }
    cbn [run_ct] in Hq. destruct a as [cc o1|t e|t e r]; [| |destruct Hfrom].
    + destruct Hfrom as (Hin & Hone & _). cbn [do_call what] in *.
      assert (transactional o1 \/ (exists t, o1 = ORemoveEdge t) \/ exists v, o1 = ORemoveNode v) as [Htr|[[t ->]|[v ->]]].
      { destruct o1; simpl in *; eauto; contradiction. }
      * assert (lapply cc o1 h = apply o1 h) as El by (destruct o1; try contradiction; reflexivity).
        rewrite El in *. destruct (one_step (SE := SE) cn ce Hcn Hce mn me o1 h Htr) as [[b Ea]|(u & c & e & Ea & _)].
        -- eapply Hgo; [exact Ea|exact Logic.I|apply moved_not].
        -- rewrite Ea in Hq. inversion Hq.
      * destruct (remove_edge_quiet (SE := SE) (BE := BE) (E := E) cn ce mn me t h) as (u & c & e & Ea & _).
        cbn [l_apply] in Hq. change (sled_apply cn ce mn me (ORemoveEdge t) h) with (apply (ORemoveEdge t) h) in Hq. rewrite Ea in Hq. inversion Hq.
      * exfalso. revert Hq. cbn. unfold l_remove_node, l_for. destruct (fst cc); intros Hq; inversion Hq.
    + cbn [do_call what] in *. destruct (ser ce e) as [b|b] eqn:Es.
      * exfalso. revert Hq. unfold lift, s_extend_edge, draw_ulid, fresh, and_handle, bind_ok, bincode. rewrite Es. intros Hq. inversion Hq.
      * eapply (Hgo (Err (LeftE (SerializationError b)))); [|exact Logic.I|apply moved_not].
        unfold lift, s_extend_edge, draw_ulid, fresh, and_handle, bind_ok, bincode. rewrite Es. reflexivity.
Qed.

Lemma finish ops U D d fs z (s : st) g : rel ops U D d fs (Ret z) s ->
  s_p s = None /\ exists lg, path (s_c s) lg (CRet (fst z)) /\ moves lg g g.
Proof.
  intros H. inversion H as [c h n m Hp Hq|t h K n m j q He Hp Hq Ha Hr|v cc h K n m c2 nx rem done Hp Cf Hq|v cc h K n m Lf nx rem done Hp Cf Cb Hq
    |t e r h K n m b He Hp Hu Hd Hl Hb Hde Hq|t r old h K n m He Hp Hs Ho Hq|t r old h K n m He Hp Hs Hs' Ho Hq|y h K n m He Hp Hy Hl Hq]; subst.
  - split; auto. eapply finish_idle; eauto.
  - exfalso. inversion Hq; subst. inversion Hr.
  - exfalso. destruct rem as [|kv rem]; [|inversion Hq]. destruct nx as [[lo [|c cs]]|]; [inversion Hq|inversion Hq|].
    revert Hq. unfold fw, back, l_for. destruct c2; intros Hq; inversion Hq.
  - exfalso. destruct rem as [|kv rem]; [|inversion Hq]. destruct nx as [[lo [|c cs]]|]; inversion Hq.
  - exfalso. inversion Hq.
  - exfalso. inversion Hq.
  - exfalso. inversion Hq.
  - exfalso. inversion Hq.
Qed.

(** ** The world *)
Section Main.
Context (cs : list (handle k * list op)).
Context (Hap : apart cs).

Definition world ss d U D : Prop :=
  fair U d /\ (forall r, D r -> U r) /\
  (forall i s, nth_error ss i = Some s -> NoDup (skeys s) /\ forall r, In r (skeys s) -> ~ U r) /\
  (forall i j s s', i <> j -> nth_error ss i = Some s -> nth_error ss j = Some s' -> forall r, In r (owned s) -> ~ In r (owned s')) /\
  (forall t, agreed t d \/ exists i s, nth_error ss i = Some s /\ s_p s = Some t).

Definition joint (ps : list (P (list outcome * handle k))) ss d U D schedule : Prop :=
  length ps = length ss /\
  forall i p, nth_error ps i = Some p -> exists h ops s,
    nth_error cs i = Some (h, ops) /\ nth_error ss i = Some s /\ rel ops U D d (fut i schedule) p s.

Lemma apart_wrote i j hi hj li lj t : i <> j -> nth_error cs i = Some (hi, li) -> nth_error cs j = Some (hj, lj) ->
  erased li t \/ ext_by li t -> ~ wrote lj t.
Proof.
  intros Hne Hi Hj H (o' & a' & Ho' & Ha' & Hw). destruct H as [(o & a & Ho & Ha & He)|(o & Ho & Hx)].
  - eapply (Hap i j hi hj li lj o o' a a' t); eauto.
  - assert (exists a : op, In a (elements o)) as [a Ha].
    { destruct o; try destruct Hx. eauto. }
    eapply (Hap i j hi hj li lj o o' a a' t); eauto.
Qed.

Lemma ext_wrote ops t : ext_by ops t -> wrote ops t.
Proof.
  intros (o & Ho & Hx). destruct o as [| | | | | |s0|s0]; try destruct Hx. exists (OExtend s0), (OInsertEdge t x). simpl. auto.
Qed.

Lemma interleave_mix schedule : forall ps ss d U D, spared cs schedule -> world ss d U D -> joint ps ss d U D schedule ->
  exists ss' U' D', length ss' = length ss /\ world ss' (snd (interleave schedule ps d)) U' D' /\
    joint (fst (interleave schedule ps d)) ss' (snd (interleave schedule ps d)) U' D' [] /\
    (forall y, U' y -> U y \/ exists i s, nth_error ss i = Some s /\ In y (owned s)) /\
    forall ls0 r0 g, length ls0 = length ss' -> shuffle ls0 r0 -> moves r0 (sabs (snd (interleave schedule ps d))) g ->
    exists lgs r, length lgs = length ss /\ shuffle lgs r /\ moves r (sabs d) g /\
      forall i l0 s s', nth_error ls0 i = Some l0 -> nth_error ss i = Some s -> nth_error ss' i = Some s' ->
        exists lg, nth_error lgs i = Some (lg ++ l0) /\ path (s_c s) lg (s_c s').
Proof.
  induction schedule as [|[i f] schedule IH]; intros ps ss d U D Hsp Hw Hj.
  - exists ss, U, D. simpl. split; auto. split; auto. split; auto. split; auto. intros ls0 r0 g Hl Hs Hm.
    exists ls0, r0. split; auto. split; auto. split; auto. intros i l0 s s' H1 H2 H3. exists []. split; auto.
    rewrite H2 in H3. injection H3 as <-. apply Pa_here.
  - assert (spared cs schedule) as Hsp' by (intros i0 h l s e H1 H2 H3; apply (Hsp i0 h l s e H1 H2); simpl; auto).
    simpl. destruct Hj as [Hlen Hj]. destruct (nth_error ps i) as [p|] eqn:Hp.
    + destruct (Hj i p Hp) as (h & ops & s & Hc & Hs & Hr).
      assert (fut i ((i, f) :: schedule) = f :: fut i schedule) as Ef.
      { unfold fut. simpl. now rewrite Nat.eqb_refl. }
      rewrite Ef in Hr. destruct Hw as (Hf & HD & Hk & Hdis & Hag). destruct (Hk i s Hs) as [Hk1 Hk2].
      assert (f = None \/ forall t, ~ ext_by ops t) as Hfs.
      { destruct f as [e|]; auto. right. intros t (o & Ho & Hx). destruct o as [| | | | | |s0|s0]; try destruct Hx.
        eapply (Hsp i h ops s0 e); eauto. simpl. auto. }
      assert (s_p s = None -> erasable ops d) as Her.
      { intros Hn t He. destruct (Hag t) as [A|(j & s' & Hs' & Hpt)]; auto. exfalso.
        assert (i <> j) as Hne by (intros <-; rewrite Hs in Hs'; injection Hs' as <-; congruence).
        destruct (nth_error ps j) as [q|] eqn:Hq.
        2: { apply nth_error_None in Hq. assert (j < length ss) by (apply nth_error_Some; congruence). lia. }
        destruct (Hj j q Hq) as (hj & opsj & sj & Hcj & Hsj & Hrj). rewrite Hs' in Hsj. injection Hsj as <-.
        pose proof (rel_pend _ _ _ _ _ _ _ _ _ _ _ _ Hrj Hpt) as Hx. eapply (apart_wrote i j); eauto using ext_wrote. }
      destruct (step_rel cn ce Hcn Hce mn me ops U D d f (fut i schedule) Hf HD Hfs p s Hr Hk1 Hk2 Her)
        as (lg & s' & U1 & D1 & H1 & H2 & H3 & H4 & H5 & H6 & H7 & H8 & H9 & H10 & H11 & H12 & H13 & H14).
      destruct (step1 f p d) as [p' d1]. cbn [fst snd] in *.
      destruct (IH (replace_nth i p' ps) (replace_nth i s' ss) d1 U1 D1 Hsp') as (ss' & U' & D' & L2 & R4 & R5 & RU & R1).
      * split; auto. split; auto. split; [|split].
        -- intros j sj Hsj. destruct (Nat.eq_dec i j) as [<-|Hne].
           ++ erewrite nth_replace_eq in Hsj by exact Hs. injection Hsj as <-. auto.
           ++ rewrite nth_replace_neq in Hsj by auto. destruct (Hk j sj Hsj) as [A1 A2]. split; auto.
              intros y Hy Hu. destruct (H6 y Hu) as [Hu'|Hu']; [now apply (A2 y)|].
              apply (Hdis i j s sj Hne Hs Hsj y Hu'). unfold owned. apply in_app_iff. auto.
        -- intros j j' a b Hne Ha Hb y Hya Hyb.
           assert (exists a0, nth_error ss j = Some a0 /\ In y (owned a0)) as (a0 & Ha0 & Hya0).
           { destruct (Nat.eq_dec i j) as [<-|Hn1].
             - erewrite nth_replace_eq in Ha by exact Hs. injection Ha as <-. exists s. auto.
             - rewrite nth_replace_neq in Ha by auto. eauto. }
           assert (exists b0, nth_error ss j' = Some b0 /\ In y (owned b0)) as (b0 & Hb0 & Hyb0).
           { destruct (Nat.eq_dec i j') as [<-|Hn1].
             - erewrite nth_replace_eq in Hb by exact Hs. injection Hb as <-. exists s. auto.
             - rewrite nth_replace_neq in Hb by auto. eauto. }
           apply (Hdis j j' a0 b0 Hne Ha0 Hb0 y); auto.
        -- intros t. assert (s_p s = Some t \/ agreed t d \/ exists j sj, j <> i /\ nth_error ss j = Some sj /\ s_p sj = Some t) as [A|[A|(j & sj & Hne & Hsj & A)]].
           { destruct (Hag t) as [A|(j & sj & Hsj & A)]; auto. destruct (Nat.eq_dec j i) as [->|Hne].
             - rewrite Hs in Hsj. injection Hsj as <-. auto.
             - right. right. eauto. }
           ++ destruct (H14 t (or_introl A)) as [B|B]; auto. right. exists i, s'. split; auto. eapply nth_replace_eq; eauto.
           ++ destruct (H14 t (or_intror A)) as [B|B]; auto. right. exists i, s'. split; auto. eapply nth_replace_eq; eauto.
           ++ right. exists j, sj. split; auto. now rewrite nth_replace_neq by auto.
      * split; [now rewrite !replace_length|]. intros j q Hq. destruct (Nat.eq_dec i j) as [<-|Hne].
        -- erewrite nth_replace_eq in Hq by exact Hp. injection Hq as <-.
           exists h, ops, s'. split; auto. split; auto. eapply nth_replace_eq; eauto.
        -- rewrite nth_replace_neq in Hq by auto. destruct (Hj j q Hq) as (hj & opsj & sj & Hcj & Hsj & Hrj).
           exists hj, opsj, sj. split; auto. split; [now rewrite nth_replace_neq by auto|].
           assert (fut j ((i, f) :: schedule) = fut j schedule) as Efj.
           { unfold fut. simpl. apply Nat.eqb_neq in Hne. now rewrite Hne. }
           rewrite Efj in Hrj. eapply rel_stable; [exact H13|exact H5|exact H7|exact H9| | | |exact Hrj].
           ++ intros t He. eapply (apart_wrote j i); eauto.
           ++ intros t He. split; [eapply (apart_wrote j i); eauto|]. intros Hx.
              eapply (apart_wrote i j); eauto using ext_wrote.
           ++ intros y Hy Hn. apply (Hdis i j s sj Hne Hs Hsj y Hn Hy).
      * rewrite replace_length in L2. exists ss', U', D'. split; auto. split; auto. split; auto. split.
        { intros y Hy. destruct (RU y Hy) as [Hu|(j & sj & Hsj & Hyj)].
          - destruct (H6 y Hu); eauto.
          - right. destruct (Nat.eq_dec i j) as [<-|Hne].
            + erewrite nth_replace_eq in Hsj by exact Hs. injection Hsj as <-. exists i, s. auto.
            + rewrite nth_replace_neq in Hsj by auto. eauto. }
        intros ls0 r0 g G1 G2 G3. destruct (R1 ls0 r0 g G1 G2 G3) as (lgs & r & L1 & R2 & R3 & R6). rewrite replace_length in L1.
        destruct (nth_error lgs i) as [l0|] eqn:El.
        2: { apply nth_error_None in El. assert (i < length ss) by (apply nth_error_Some; congruence). lia. }
        exists (replace_nth i (lg ++ l0) lgs), (lg ++ r). split; [now rewrite replace_length|].
        split; [now apply shuffle_front|]. split; [eapply moves_app; eauto|].
        intros j l1 a b Hl1 Ha Hb. destruct (Nat.eq_dec i j) as [<-|Hne].
        -- rewrite Hs in Ha. injection Ha as <-.
           destruct (R6 i l1 s' b Hl1 (nth_replace_eq _ _ _ _ Hs) Hb) as (lg2 & E2 & P2).
           rewrite El in E2. injection E2 as ->. exists (lg ++ lg2). rewrite <- app_assoc. split; [eapply nth_replace_eq; eauto|].
           eapply path_trans; eauto.
        -- rewrite nth_replace_neq by auto. eapply R6; eauto. now rewrite nth_replace_neq by auto.
    + destruct (IH ps ss d U D Hsp' Hw) as (ss' & U' & D' & R); [|exists ss', U', D'; auto].
      split; auto. intros j q Hq. destruct (Hj j q Hq) as (hj & opsj & sj & Hcj & Hsj & Hrj).
      exists hj, opsj, sj. split; auto. split; auto.
      assert (fut j ((i, f) :: schedule) = fut j schedule) as Efj.
      { unfold fut. simpl. destruct (Nat.eqb_spec i j); [congruence|reflexivity]. }
      now rewrite <- Efj.
Qed.

(** ** From the start to the end *)
Section Whole.
Context (cuts : nat -> nat -> cutting).

Definition begin (i : nat) (hl : handle k * list op) : st :=
  St (plan (cuts i) 0 (snd hl)) (fst hl) (sum (map draws (snd hl))) (sum (map draws_ulid (snd hl))) None.
Fixpoint begins (i : nat) (l : list (handle k * list op)) : list st :=
  match l with [] => [] | hl :: l' => begin i hl :: begins (S i) l' end.

Lemma begins_length l : forall i, length (begins i l) = length l.
Proof. induction l as [|hl l IH]; intros i; simpl; auto. Qed.
Lemma begins_nth l : forall i0 i, nth_error (begins i0 l) i = option_map (begin (i0 + i)) (nth_error l i).
Proof.
  induction l as [|hl l IH]; intros i0 [|i]; simpl; auto.
  - now rewrite Nat.add_0_r.
  - now rewrite IH, Nat.add_succ_r.
Qed.

Lemma begin_plain i (hl : handle k * list op) : plain (snd hl) (sum (map draws (snd hl))) (sum (map draws_ulid (snd hl)))
  (plan (SE := SE) (BE := BE) (cuts i) 0 (snd hl)).
Proof. split; [apply all_plan|apply fits_plan]. Qed.

Lemma begin_owned i hl : owned (begin i hl) = history_keys (fst hl) (snd hl).
Proof.
  unfold owned, begin. cbn [s_c]. rewrite (plain_late _ _ _ _ (begin_plain i hl)). reflexivity.
Qed.

Lemma flat_map_at {X Y} (g : X -> list Y) l : NoDup (flat_map g l) ->
  (forall i a, nth_error l i = Some a -> NoDup (g a)) /\
  (forall i j a b, i <> j -> nth_error l i = Some a -> nth_error l j = Some b -> forall r, In r (g a) -> ~ In r (g b)).
Proof.
  induction l as [|x l IH]; simpl; intros H.
  - split; intros [|]; discriminate.
  - apply NoDup_app_iff in H. destruct H as (H1 & H2 & H3). destruct (IH H2) as [I1 I2].
    assert (forall i a r, nth_error l i = Some a -> In r (g a) -> In r (flat_map g l)) as Hin.
    { intros i a r Ha Hr. apply in_flat_map. exists a. split; auto. eapply nth_error_In; eauto. }
    split.
    + intros [|i] a; simpl; [intros [= <-]; auto|eauto].
    + intros [|i] [|j] a b Hne; simpl; try congruence.
      * intros [= <-] Hb r Hr Hr'. apply (H3 r); eauto.
      * intros Ha [= <-] r Hr Hr'. apply (H3 r); eauto.
      * intros Ha Hb. apply (I2 i j); auto.
Qed.

Lemma mix_run U schedule d : fair U d -> indexes_agree (k := k) d -> NoDup (session_keys cs) -> (forall r, In r (session_keys cs) -> ~ U r) ->
  spared cs schedule ->
  let (ps, d') := interleave schedule (l_callers (SE := SE) cn ce mn me cuts 0 cs) d in
  (forall p, In p ps -> exists r, p = Ret r) ->
  exists lgs r U', Forall2 accounts (logs cs ps) lgs /\ shuffle lgs r /\ moves r (sabs d) (sabs d') /\ fair U' d' /\ indexes_agree (k := k) d' /\
    forall y, U' y -> U y \/ In y (session_keys cs).
Proof.
  intros Hf A Hnd HU Hsp. destruct (flat_map_at _ _ Hnd) as [N1 N2].
  destruct (interleave_mix schedule (l_callers (SE := SE) cn ce mn me cuts 0 cs) (begins 0 cs) d U (fun _ => False) Hsp) as (ss & U' & D' & L2 & R4 & R5 & RU & R1).
  - split; auto. split; [intros ? []|]. split; [|split].
    + intros i s Hs. rewrite begins_nth in Hs. destruct (nth_error cs i) as [hl|] eqn:Hc; [|discriminate]. injection Hs as <-.
      split; [apply (N1 i hl Hc)|]. intros y Hy. apply HU. apply in_flat_map. exists hl. split; [eapply nth_error_In; eauto|exact Hy].
    + intros i j a b Hne Ha Hb. rewrite begins_nth in Ha, Hb.
      destruct (nth_error cs i) as [hl|] eqn:Hc; [|discriminate]. injection Ha as <-.
      destruct (nth_error cs j) as [hl'|] eqn:Hc'; [|discriminate]. injection Hb as <-.
      rewrite !begin_owned. apply (N2 i j); auto.
    + intros t. left. intros o. apply A.
  - split; [now rewrite callers_length, begins_length|]. intros i p Hp. rewrite callers_nth in Hp.
    destruct (nth_error cs i) as [[h l]|] eqn:Hc; [|discriminate]. injection Hp as <-.
    exists h, l, (begin i (h, l)). split; auto. rewrite begins_nth, Hc. split; auto.
    apply R_idle; [apply (begin_plain i (h, l))|apply plan_run].
  - pose proof (interleave_length schedule (l_callers (SE := SE) cn ce mn me cuts 0 cs) d) as Hlen. rewrite callers_length in Hlen.
    destruct (interleave schedule (l_callers (SE := SE) cn ce mn me cuts 0 cs) d) as [ps d']. cbn [fst snd] in *. intros Hret.
    rewrite begins_length in *. destruct R5 as [L3 Hj]. destruct R4 as (Hf' & _ & _ & _ & Hag).
    destruct (pick (fun i s (lg : list (op * outcome)) => s_p s = None /\ moves lg (sabs d') (sabs d') /\ exists z, nth_error ps i = Some (Ret z) /\ path (s_c s) lg (CRet (fst z))) ss) as (tl & T1 & T2).
    { intros i s Hs. assert (i < length ss) as Hlt by (apply nth_error_Some; congruence).
      destruct (nth_error ps i) as [p|] eqn:Hp; [|apply nth_error_None in Hp; lia].
      destruct (Hret p (nth_error_In _ _ Hp)) as [z ->]. destruct (Hj i _ Hp) as (h' & l' & s' & Hc' & Hs' & Hr).
      rewrite Hs in Hs'. injection Hs' as <-. destruct (finish _ _ _ _ _ _ _ (sabs d') Hr) as (F1 & lg' & F2 & F3).
      exists lg'. split; auto. split; auto. exists z. auto. }
    destruct (R1 tl (concat tl) (sabs d') T1 (shuffle_concat tl)) as (lgs & r & L1 & R2 & R3 & R6).
    { assert (Forall (fun lg => moves lg (sabs d') (sabs d')) tl) as Ht.
      { apply Forall_forall. intros lg Hin. apply In_nth_error in Hin. destruct Hin as [i Hi].
        destruct (nth_error ss i) as [s|] eqn:Hs; [apply (T2 i s lg Hs Hi)|].
        apply nth_error_None in Hs. assert (i < length tl) by (apply nth_error_Some; congruence). lia. }
      clear -Ht. induction Ht as [|lg tl H1 H2 IH]; simpl; [apply g_equiv_refl|]. eapply moves_app; eauto. }
    exists lgs, r, U'. split; [|split; [|split; [|split; [|split]]]]; auto.
    + apply Forall2_of_nth. { unfold logs. rewrite map_length, combine_length. lia. }
      intros i x lg Hx Hl. unfold logs in Hx. rewrite nth_error_map, nth_combine in Hx.
      destruct (nth_error cs i) as [[h l]|] eqn:Hc; [|discriminate].
      destruct (nth_error ps i) as [p|] eqn:Hp; [|discriminate]. injection Hx as <-. cbn [fst snd].
      assert (i < length ss) as Hlt by (assert (i < length cs) by (apply nth_error_Some; congruence); lia).
      destruct (nth_error ss i) as [s|] eqn:Hs; [|apply nth_error_None in Hs; lia].
      destruct (nth_error tl i) as [l0|] eqn:Ht; [|apply nth_error_None in Ht; lia].
      destruct (T2 i s l0 Hs Ht) as (_ & _ & z & Hz & Hpath). rewrite Hp in Hz. injection Hz as ->.
      destruct (R6 i l0 (begin i (h, l)) s Ht) as (lg1 & E1 & P1); auto.
      { rewrite begins_nth, Hc. reflexivity. }
      rewrite Hl in E1. injection E1 as ->. cbn [answers_of].
      eapply (plan_path (cuts i) l 0). eapply path_trans; [exact P1|exact Hpath].
    + intros o t. destruct (Hag t) as [B|(i & s & Hs & Hpt)]; [apply B|]. exfalso.
      destruct (nth_error tl i) as [l0|] eqn:Ht.
      * destruct (T2 i s l0 Hs Ht) as (Hn & _). congruence.
      * apply nth_error_None in Ht. assert (i < length ss) by (apply nth_error_Some; congruence). lia.
    + intros y Hy. destruct (RU y Hy) as [Hu|(i & s & Hs & Hys)]; auto. right. rewrite begins_nth in Hs.
      destruct (nth_error cs i) as [hl|] eqn:Hc; [|discriminate]. injection Hs as <-. rewrite begin_owned in Hys.
      apply in_flat_map. exists hl. split; auto. eapply nth_error_In; eauto.
Qed.
End Whole.
End Main.
End Sim.

Section End.
Context {k : idkind} {NP EP SE BE E : Type} (cn : codec BE NP) (ce : codec BE EP).
Context (mn : NP -> NP -> NP) (me : EP -> EP -> EP).
Notation op := (op k NP EP E).
Notation life := (life (k := k) (NP := NP) (EP := EP) (SE := SE) (E := E)).

Lemma mix_shows (ls : list life) (cs : list (handle k * list op)) (cuts : nat -> nat -> cutting) (schedule : list (nat * option SE)) :
  codec_ok cn -> codec_ok ce -> NoDup (life_keys ls ++ session_keys cs) ->
  extends_done cn ce mn me ls db_new -> apart cs -> spared cs schedule ->
  let d := lives cn ce mn me ls db_new in
  let (ps, d') := interleave schedule (l_callers cn ce mn me cuts 0 cs) d in
  (forall p, In p ps -> exists r, p = Ret r) ->
  exists g g' lgs s, sled_shows SE cn ce d g /\ Forall2 accounts (logs cs ps) lgs /\ shuffle lgs s /\
    moves mn me s g g' /\ sled_shows SE cn ce d' g'.
Proof.
  intros Hn He Hd Hx Hap Hsp. cbv zeta. apply NoDup_app_iff in Hd. destruct Hd as (D1 & D2 & D3).
  destruct (good_new (k := k) cn ce nothing) as [G0 A0].
  pose proof (fair_lives cn ce Hn He mn me ls nothing db_new D1 (fun _ _ H => H) G0) as Hf.
  destruct (moments_lives cn ce Hn He mn me ls nothing db_new D1 (fun _ _ H => H) G0 A0 Hx) as [A _].
  set (d := lives cn ce mn me ls db_new) in *.
  pose proof (mix_run cn ce Hn He mn me cs Hap cuts _ schedule d Hf A D2) as H.
  destruct (interleave schedule (l_callers cn ce mn me cuts 0 cs) d) as [ps d']. intros Hret.
  destruct H as (lgs & r & U' & H1 & H2 & H3 & H4 & H5 & _); auto.
  { intros y Hy [[]|Hl]. now apply (D3 y). }
  exists (sabs cn ce d), (sabs cn ce d'), lgs, r. split; [eapply good_shows; split; eauto|]. split; auto. split; auto. split; auto.
  eapply good_shows; split; eauto.
Qed.

Lemma mix_merge (ls : list life) (cs : list (handle k * list op)) (cuts : nat -> nat -> cutting) (schedule : list (nat * option SE)) :
  codec_ok cn -> codec_ok ce -> NoDup (life_keys ls ++ session_keys cs) ->
  extends_done cn ce mn me ls db_new ->
  (forall h l o, In (h, l) cs -> In o l ->
     match o with ORemoveNode _ | ORemoveEdge _ | OExtend _ => False | _ => True end) ->
  let d := lives cn ce mn me ls db_new in
  let (ps, d') := interleave schedule (l_callers cn ce mn me cuts 0 cs) d in
  (forall p, In p ps -> exists r, p = Ret r) ->
  exists g g' lgs s, sled_shows SE cn ce d g /\ Forall2 accounts (logs cs ps) lgs /\ shuffle lgs s /\
    moves mn me s g g' /\ sled_shows SE cn ce d' g'.
Proof.
  intros Hn He Hd Hx Ho. apply mix_shows; auto.
  - intros i j hi hj li lj o o' a a' t Hne Hi Hj Hin Hin' Ha Ha' [H|H] Hw.
    + specialize (Ho hi li o (nth_error_In _ _ Hi) Hin). destruct o as [v p|u p|v|u|v p|u p|s|s]; try contradiction; simpl in Ha;
        try (destruct Ha as [<-|[]]; exact H).
      apply in_app_iff in Ha. destruct Ha as [Ha|Ha]; [|destruct (first_error (src_nodes s)); [destruct Ha|]];
        apply in_map_iff in Ha; destruct Ha as (y & <- & _); exact H.
    + specialize (Ho hi li o (nth_error_In _ _ Hi) Hin). destruct o; contradiction.
  - intros i h l s e Hi Hin _. exact (Ho h l _ (nth_error_In _ _ Hi) Hin).
Qed.
End End.
