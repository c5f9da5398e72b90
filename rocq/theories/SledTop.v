(** Histories, sessions and processes on a SledTripleStore. *)
From Coq Require Import Arith NArith List Bool Sorted Lia.
From Verif Require Import Bytes BytesFacts OMap OMapFacts Core IdType IdTypeFacts Store Mem Spec
  CodecFacts ListFacts MemSim History Prog ProgFacts Sled SledHistory SledDb SledOps SledBulk SledRun SledRead.
Import ListNotations.

Section Top.
Context {k : idkind} {NP EP SE BE E : Type} (cn : codec BE NP) (ce : codec BE EP).
Context (Hcn : codec_ok cn) (Hce : codec_ok ce).
Context (mn : NP -> NP -> NP) (me : EP -> EP -> EP).
Notation I := (Id k).
Notation T := (triple (Id k)).
Notation G := (graph k NP EP).
Notation err := (sled_error SE BE).
Notation P A := (prog db SE A).
Notation fair := (fair (k := k) cn ce).
Notation agree := (indexes_agree (k := k)).
Notation sabs := (sabs (k := k) cn ce).
Notation op := (op k NP EP E).
Notation outcome := (outcome (SE := SE) (BE := BE) (E := E)).
Implicit Types F : SE -> Prop.
Implicit Types U : bytes -> Prop.

(** ** Steps of whole histories *)
Definition all_steps (l : list op) : list (G -> G) := flat_map (op_steps mn me) l.

Lemma all_steps_spec (l : list op) : forall g, run_steps (all_steps l) g = spec_history mn me l g.
Proof.
  induction l as [|o l IH]; intros g; simpl; auto.
  rewrite run_steps_app, op_steps_spec. apply IH.
Qed.

Lemma all_steps_proper (l : list op) : Forall proper (all_steps l).
Proof. induction l; simpl; [constructor|]. apply Forall_app'; auto. apply op_steps_proper. Qed.

Lemma spec_history_equiv (l : list op) g g' : g_equiv g g' ->
  g_equiv (spec_history mn me l g) (spec_history mn me l g').
Proof. intros H. rewrite <- !all_steps_spec. apply run_steps_equiv; auto. apply all_steps_proper. Qed.

Lemma effect_equiv (o : op) (r : outcome) g0 g g' g1 :
  g_equiv g0 g -> g_equiv g' g1 -> effect mn me o r g g' -> effect mn me o r g0 g1.
Proof.
  intros H0 H1. assert (g_equiv g g0) as H0' by now apply g_equiv_sym.
  assert (g_equiv g1 g') as H1' by now apply g_equiv_sym. unfold effect.
  assert (g_equiv g' (spec_apply mn me o g) -> g_equiv g1 (spec_apply mn me o g0)) as A.
  { intros H. eapply g_equiv_trans; [exact H1'|]. eapply g_equiv_trans; [exact H|].
    rewrite <- !op_steps_spec. apply run_steps_equiv; auto. apply op_steps_proper. }
  destruct r as [[]|[e|e]].
  - intros [-> H]. auto.
  - intros [c H]. exists c. eapply g_equiv_trans; [exact H1'|]. eapply g_equiv_trans; [exact H|].
    apply run_steps_equiv; auto. apply Forall_firstn, op_steps_proper.
  - intros [-> H]. auto.
Qed.

Lemma tracks_equiv (l : list op) : forall (rs : list outcome) g0 g g' g1,
  g_equiv g0 g -> g_equiv g' g1 -> tracks mn me l rs g g' -> tracks mn me l rs g0 g1.
Proof.
  induction l as [|o l IH]; intros [|r rs] g0 g g' g1 H0 H1 H; simpl in *; try contradiction.
  - eapply g_equiv_trans; [apply g_equiv_sym; exact H1|]. eapply g_equiv_trans; [exact H|]. now apply g_equiv_sym.
  - destruct H as (g2 & He & Ht). exists g2. split.
    + eapply effect_equiv; [exact H0|apply g_equiv_refl|exact He].
    + eapply IH; [apply g_equiv_refl|exact H1|exact Ht].
Qed.

Lemma moment_equiv (l : list op) g0 g g' g1 :
  g_equiv g0 g -> g_equiv g' g1 -> moment (SE := SE) (BE := BE) mn me l g g' -> moment (SE := SE) (BE := BE) mn me l g0 g1.
Proof.
  intros H0 H1 (l1 & l2 & rs & g2 & E0 & Ht & H). exists l1, l2, rs, g2. split; auto. split.
  - eapply tracks_equiv; [exact H0|apply g_equiv_refl|exact Ht].
  - apply g_equiv_sym in H1. destruct l2; [|destruct H as [c H]; exists c]; eapply g_equiv_trans; eauto.
Qed.

Lemma moment_cons (o : op) l (r : outcome) g g1 g' :
  effect mn me o r g g1 -> moment (SE := SE) (BE := BE) mn me l g1 g' -> moment (SE := SE) (BE := BE) mn me (o :: l) g g'.
Proof.
  intros He (l1 & l2 & rs & g2 & -> & Ht & H). exists (o :: l1), l2, (r :: rs), g2. split; auto. split; auto.
  simpl. eauto.
Qed.

Lemma moment_head (o : op) l g g' c :
  g_equiv g' (run_steps (firstn c (op_steps mn me o)) g) -> moment (SE := SE) (BE := BE) (E := E) mn me (o :: l) g g'.
Proof. intros H. exists [], (o :: l), [], g. split; auto. split; [apply g_equiv_refl|]. eauto. Qed.

Lemma moment_refl (l : list op) g : moment (SE := SE) (BE := BE) mn me l g g.
Proof.
  exists [], l, [], g. split; auto. split; [apply g_equiv_refl|].
  destruct l; [apply g_equiv_refl|]. exists 0. apply g_equiv_refl.
Qed.

Definition blamed F (r : outcome) : Prop := match r with Err (LeftE e) => blame cn ce F e | _ => True end.

(** ** Histories through one handle *)
Section Window.
Context (base : bytes -> Prop) (h0 : handle k) (n m : nat).
Notation used := (used base h0).
Notation at_ := (at_ h0).
Context (Hnd : NoDup (gkeys h0 n ++ ukeys h0 m)) (Hbase : forall x, In x (gkeys h0 n ++ ukeys h0 m) -> ~ base x).

Definition ends F (l : list op) (i j : nat) (rsh : list outcome * handle k) (x : db) : Prop :=
  Forall (blamed F) (fst rsh) /\
  exists i' j', i <= i' <= i + sum (map draws l) /\ j <= j' <= j + sum (map draws_ulid l) /\
    snd rsh = at_ i' j' /\ fair (used i' j') x.

Lemma used_up i j x : i <= n -> j <= m -> fair (used i j) x -> fair (used n m) x.
Proof. intros Hi Hj. apply fair_mono. intros r. now apply (used_mono base h0 n m Hbase). Qed.

(** Any calls. *)
Lemma wp_history F (l : list op) : forall i j d,
  i + sum (map draws l) <= n -> j + sum (map draws_ulid l) <= m -> fair (used i j) d ->
  wp F (fair (used n m))
    (fun rsh x => ends F l i j rsh x /\
       (agree d -> (forall r, In r (fst rsh) -> ~ failed r) ->
        agree x /\ fst rsh = map expected l /\ g_equiv (sabs x) (spec_history mn me l (sabs d))))
    (sled_history cn ce mn me l (at_ i j)) d.
Proof.
  induction l as [|o l IH]; intros i j d Hi Hj H; simpl in Hi, Hj |- *.
  - split; [eapply used_up; [| |exact H]; lia|]. split.
    + split; [constructor|]. exists i, j. simpl. split; [lia|]. split; [lia|]. auto.
    + intros A _. split; auto. split; auto. apply g_equiv_refl.
  - apply wp_bind.
    pose proof (wp_op cn ce Hcn Hce mn me base h0 n m Hnd Hbase F (partx cn ce) (between_partx cn ce)
      (part_partx cn ce) o (or_intror (fun _ _ _ Hp => Hp)) i j d) as W.
    eapply wp_mono; [| |apply W; auto; lia].
    + intros x Hx. apply Hx.
    + intros [r h] x _ (i' & j' & Hi' & Hj' & Eh & Hf & Hr). simpl in Eh, Hr. subst h. simpl.
      apply wp_bind. eapply wp_mono; [| |apply IH; [lia|lia|exact Hf]]; auto.
      intros [rs h] y Hy [[Hb (i2 & j2 & Hi2 & Hj2 & Eh & Hf2)] Hg]. simpl in Eh, Hg |- *. subst h. split; auto. split.
      * split; simpl.
        -- constructor; auto. destruct r as [[]|[e|e]]; simpl; auto.
        -- exists i2, j2. split; [lia|]. split; [lia|]. auto.
      * intros A Hno.
        assert (r = expected o /\ agree x /\ g_equiv (sabs x) (run_steps (op_steps mn me o) (sabs d))) as (-> & A1 & G1).
        { destruct r as [[]|[e|e]]; try (destruct Hr as [Hr1 Hr2]; split; auto; now apply Hr2).
          exfalso. apply (Hno (Err (LeftE e))); simpl; auto. }
        destruct (Hg A1) as (A2 & -> & G2); [intros; apply Hno; auto|].
        split; auto. split; auto. rewrite op_steps_spec in G1.
        eapply g_equiv_trans; [exact G2|]. now apply spec_history_equiv.
Qed.

(** Any calls but extend. *)
Lemma wp_history_tracks F (l : list op) : Forall not_extend l -> forall i j d,
  i + sum (map draws l) <= n -> j + sum (map draws_ulid l) <= m -> fair (used i j) d -> agree d ->
  wp F (fun x => fair (used n m) x /\ agree x /\ moment (SE := SE) (BE := BE) mn me l (sabs d) (sabs x))
    (fun rsh x => ends F l i j rsh x /\ agree x /\ tracks mn me l (fst rsh) (sabs d) (sabs x))
    (sled_history cn ce mn me l (at_ i j)) d.
Proof.
  induction 1 as [|o l Ho Hl IH]; intros i j d Hi Hj H A; simpl in Hi, Hj |- *.
  - split.
    + split; [eapply used_up; [| |exact H]; lia|]. split; auto. apply moment_refl.
    + split; [|split; auto; apply g_equiv_refl].
      split; [constructor|]. exists i, j. simpl. split; [lia|]. split; [lia|]. auto.
  - apply wp_bind.
    pose proof (wp_op cn ce Hcn Hce mn me base h0 n m Hnd Hbase F (part cn ce) (between_part cn ce)
      (fun _ _ _ Hp => Hp) o (or_introl Ho) i j d) as W.
    eapply wp_mono; [| |apply W; auto; lia].
    + intros x [Hx Hp]. destruct (Hp A) as [Ax [c Hc]]. split; auto. split; auto.
      apply (moment_head o l _ _ c Hc).
    + intros [r h] x [Hx Hp] (i' & j' & Hi' & Hj' & Eh & Hf & Hr). simpl in Eh, Hr. subst h. simpl.
      destruct (Hp A) as [Ax [c Hc]].
      assert (effect mn me o r (sabs d) (sabs x)) as He.
      { unfold effect. rewrite <- op_steps_spec. destruct r as [[]|[e|e]].
        - destruct Hr as [-> Hr]. split; auto. now apply Hr.
        - exists c. exact Hc.
        - destruct Hr as [-> Hr]. split; auto. now apply Hr. }
      apply wp_bind. eapply wp_mono; [| |apply IH; [lia|lia|exact Hf|exact Ax]].
      * intros y (H1 & H2 & H3). split; auto. split; auto. eapply moment_cons; eauto.
      * intros [rs h] y (H1 & H2 & H3) [[Hb (i2 & j2 & Hi2 & Hj2 & Eh & Hf2)] [A2 Ht]]. simpl in Eh, Ht |- *. subst h.
        split; [split; auto; split; auto; eapply moment_cons; eauto|]. split.
        -- split; simpl.
           ++ constructor; auto. destruct r as [[]|[e|e]]; simpl; auto.
           ++ exists i2, j2. split; [lia|]. split; [lia|]. auto.
        -- split; auto. exists (sabs x). auto.
Qed.

(** Working storage and serialiser: with [R0 := part] the database follows the history step by
    step, with [R0 := partx] its orders do, one step apart at most. *)
Lemma wp_history_steps F R0 (HR0 : between cn ce R0) (Hpart : forall steps g x, part cn ce steps g x -> R0 steps g x)
  (l : list op) : codec_total cn -> codec_total ce -> (forall x, ~ F x) ->
  (Forall not_extend l \/ forall steps g x, partx cn ce steps g x -> R0 steps g x) ->
  forall i j d,
  i + sum (map draws l) <= n -> j + sum (map draws_ulid l) <= m -> fair (used i j) d -> agree d ->
  wp F (fun x => fair (used n m) x /\ R0 (all_steps l) (sabs d) x)
    (fun rsh x => ends F l i j rsh x /\ agree x /\ fst rsh = map expected l /\
       g_equiv (sabs x) (spec_history mn me l (sabs d)))
    (sled_history cn ce mn me l (at_ i j)) d.
Proof.
  intros Tn Te HF Hx0.
  assert (forall e : err, ~ blame cn ce F e) as NB.
  { intros [x|b| |]; simpl; auto. intros [[p Hp]|[p Hp]].
    - destruct (Tn p); congruence.
    - destruct (Te p); congruence. }
  induction l as [|o l IH]; intros i j d Hi Hj H A; simpl in Hi, Hj |- *.
  - split.
    + split; [eapply used_up; [| |exact H]; lia|]. apply Hpart. split; auto. exists 0. apply g_equiv_refl.
    + split; [|split; auto; split; auto; apply g_equiv_refl].
      split; [constructor|]. exists i, j. simpl. split; [lia|]. split; [lia|]. auto.
  - apply wp_bind.
    pose proof (wp_op cn ce Hcn Hce mn me base h0 n m Hnd Hbase F R0 HR0 Hpart o) as W.
    assert (not_extend o \/ forall steps g x, partx cn ce steps g x -> R0 steps g x) as Ho.
    { destruct Hx0 as [Hx0|Hx0]; auto. inversion Hx0; auto. }
    assert (Forall not_extend l \/ forall steps g x, partx cn ce steps g x -> R0 steps g x) as Hl.
    { destruct Hx0 as [Hx0|Hx0]; auto. inversion Hx0; auto. }
    specialize (W Ho i j d).
    eapply wp_mono; [| |apply W; auto; lia].
    + intros x [Hx Hp]. split; auto. apply (bt_more _ _ _ HR0). auto.
    + intros [r h] x [Hx Hp] (i' & j' & Hi' & Hj' & Eh & Hf & Hr). simpl in Eh, Hr. subst h. simpl.
      assert (r = expected o /\ agree x /\ g_equiv (sabs x) (run_steps (op_steps mn me o) (sabs d))) as (-> & A1 & G1).
      { destruct r as [[]|[e|e]]; try (destruct Hr as [Hr1 Hr2]; split; auto; now apply Hr2).
        exfalso. eapply NB. exact Hr. }
      assert (forall y, R0 (all_steps l) (sabs x) y -> R0 (op_steps mn me o ++ all_steps l) (sabs d) y) as HP.
      { intros y Hy. apply (bt_later _ _ _ HR0).
        eapply (bt_equiv _ _ _ HR0); [apply all_steps_proper|exact G1|exact Hy]. }
      apply wp_bind. eapply wp_mono; [| |apply IH; [exact Hl|lia|lia|exact Hf|exact A1]].
      * intros y (H1 & H2). auto.
      * intros [rs h] y (H1 & H2) [[Hb (i2 & j2 & Hi2 & Hj2 & Eh & Hf2)] (A2 & Ht & G2)]. simpl in Eh, Ht |- *. subst h rs.
        split; [split; auto|]. split.
        -- split; simpl.
           ++ constructor; auto. unfold expected. destruct (op_error o); simpl; auto.
           ++ exists i2, j2. split; [lia|]. split; [lia|]. auto.
        -- split; auto. split; auto. rewrite op_steps_spec in G1.
           eapply g_equiv_trans; [exact G2|]. now apply spec_history_equiv.
Qed.

End Window.

(** ** Several handles, one after the other *)
Definition plus_keys (base : bytes -> Prop) (l : list bytes) (x : bytes) : Prop := base x \/ In x l.

Lemma at_00 (h : handle k) : at_ h 0 0 = h.
Proof. destruct h as [[s1 p1] [s2 p2]]. unfold at_. simpl. now rewrite !Nat.add_0_r. Qed.

Lemma keys_split (h : handle k) (l : list op) :
  history_keys h l = gkeys h (sum (map draws l)) ++ ukeys h (sum (map draws_ulid l)).
Proof. reflexivity. Qed.

Lemma used_keys base (h : handle k) (l : list op) x :
  used base h (sum (map draws l)) (sum (map draws_ulid l)) x <-> plus_keys base (history_keys h l) x.
Proof. unfold used, plus_keys. rewrite keys_split, in_app_iff. tauto. Qed.

Lemma used_00 base (h : handle k) x : used base h 0 0 x <-> base x.
Proof. unfold used, gkeys, ukeys, next_ids. simpl. tauto. Qed.

Lemma fair_iff (U U' : bytes -> Prop) d : (forall x, U x <-> U' x) -> fair U d <-> fair U' d.
Proof. intros H. split; apply fair_mono; intros x; apply H. Qed.

Section OneHandle.
Context (F : SE -> Prop) (base : bytes -> Prop) (h : handle k) (l : list op) (d : db).
Context (Hnd : NoDup (history_keys h l)) (Hbase : forall x, In x (history_keys h l) -> ~ base x).
Context (Hd : fair base d).

Lemma start_fair : fair (used base h 0 0) d.
Proof. apply (fair_iff base); auto. intros x. split; apply used_00. Qed.

Lemma end_fair i j x : i <= sum (map draws l) -> j <= sum (map draws_ulid l) ->
  fair (used base h i j) x -> fair (plus_keys base (history_keys h l)) x.
Proof.
  intros Hi Hj Hx. eapply fair_mono; [|exact Hx]. intros r Hr. apply used_keys.
  eapply (used_mono base h (sum (map draws l)) (sum (map draws_ulid l))); eauto.
Qed.

Lemma handle_history :
  wp F (fair (plus_keys base (history_keys h l)))
    (fun rsh x => Forall (blamed F) (fst rsh) /\
       (agree d -> (forall r, In r (fst rsh) -> ~ failed r) ->
        agree x /\ fst rsh = map expected l /\ g_equiv (sabs x) (spec_history mn me l (sabs d))))
    (sled_history cn ce mn me l h) d.
Proof.
  replace (sled_history cn ce mn me l h) with (sled_history (SE := SE) cn ce mn me l (at_ h 0 0)) by now rewrite at_00.
  eapply wp_mono; [| |apply (wp_history base h _ _ Hnd Hbase F l 0 0 d); [lia|lia|apply start_fair]].
  - intros x Hx. eapply end_fair; [| |exact Hx]; lia.
  - intros rsh x _ [[Hb _] H]. auto.
Qed.

Lemma handle_tracks : Forall not_extend l -> agree d ->
  wp F (fun x => fair (plus_keys base (history_keys h l)) x /\ agree x /\ moment (SE := SE) (BE := BE) mn me l (sabs d) (sabs x))
    (fun rsh x => Forall (blamed F) (fst rsh) /\ agree x /\ tracks mn me l (fst rsh) (sabs d) (sabs x))
    (sled_history cn ce mn me l h) d.
Proof.
  intros Hl A. replace (sled_history cn ce mn me l h) with (sled_history (SE := SE) cn ce mn me l (at_ h 0 0)) by now rewrite at_00.
  eapply wp_mono; [| |apply (wp_history_tracks base h _ _ Hnd Hbase F l Hl 0 0 d); [lia|lia|apply start_fair|exact A]].
  - intros x (Hx & H). split; auto. eapply end_fair; [| |exact Hx]; lia.
  - intros rsh x _ [[Hb _] H]. auto.
Qed.

Lemma handle_steps R0 (HR0 : between cn ce R0) (Hpart : forall steps g x, part cn ce steps g x -> R0 steps g x) :
  (Forall not_extend l \/ forall steps g x, partx cn ce steps g x -> R0 steps g x) ->
  codec_total cn -> codec_total ce -> (forall x, ~ F x) -> agree d ->
  wp F (fun x => fair (plus_keys base (history_keys h l)) x /\ R0 (all_steps l) (sabs d) x)
    (fun rsh x => agree x /\ fst rsh = map expected l /\ g_equiv (sabs x) (spec_history mn me l (sabs d)))
    (sled_history cn ce mn me l h) d.
Proof.
  intros Hl Tn Te HF A. replace (sled_history cn ce mn me l h) with (sled_history (SE := SE) cn ce mn me l (at_ h 0 0)) by now rewrite at_00.
  eapply wp_mono; [| |apply (wp_history_steps base h _ _ Hnd Hbase F R0 HR0 Hpart l Tn Te HF Hl 0 0 d); [lia|lia|apply start_fair|exact A]].
  - intros x (Hx & H). split; auto. eapply end_fair; [| |exact Hx]; lia.
  - intros rsh x _ [[Hb _] H]. auto.
Qed.
End OneHandle.

Lemma NoDup_app_iff {A} (l l' : list A) :
  NoDup (l ++ l') <-> NoDup l /\ NoDup l' /\ forall x, In x l -> ~ In x l'.
Proof.
  induction l as [|a l IH]; simpl.
  - split; [intros H; split; [constructor|]; split; auto | tauto].
  - split.
    + intros H. inversion H as [|? ? Ha Hl]; subst. apply IH in Hl. destruct Hl as (H1 & H2 & H3).
      rewrite in_app_iff in Ha. split; [constructor; tauto|]. split; auto.
      intros x [<-|Hx]; auto.
    + intros (H1 & H2 & H3). inversion H1 as [|? ? Ha Hl]; subst. constructor.
      * rewrite in_app_iff. intros [H|H]; auto. apply (H3 a); auto.
      * apply IH. auto.
Qed.

Lemma spec_history_app (l l' : list op) g :
  spec_history mn me (l ++ l') g = spec_history mn me l' (spec_history mn me l g).
Proof. apply fold_left_app. Qed.

Lemma wp_sessions F (ss : list (handle k * list op)) : forall base d,
  NoDup (session_keys ss) -> (forall x, In x (session_keys ss) -> ~ base x) -> fair base d ->
  wp F (fair (plus_keys base (session_keys ss)))
    (fun rss x => Forall (Forall (blamed F)) rss /\
       (agree d -> (forall rs r, In rs rss -> In r rs -> ~ failed r) ->
        agree x /\ rss = map (fun hl => map expected (snd hl)) ss /\
        g_equiv (sabs x) (spec_history mn me (flat_map snd ss) (sabs d))))
    (sled_sessions cn ce mn me ss) d.
Proof.
  induction ss as [|[h l] ss IH]; intros base d Hnd Hb Hd; simpl in Hnd, Hb |- *.
  - split; [revert Hd; apply fair_mono; intros; left; auto|]. split; auto. intros A _. split; auto. split; auto. apply g_equiv_refl.
  - apply NoDup_app_iff in Hnd. destruct Hnd as (N1 & N2 & N3).
    apply wp_bind. eapply wp_mono; [| |apply (handle_history F base h l d N1)]; auto.
    + intros x. apply fair_mono. intros r [Hr|Hr]; [left|right]; auto. apply in_app_iff. auto.
    + intros [rs h'] x Hx [Hbl Hr]. simpl in Hbl, Hr |- *.
      apply wp_bind. eapply wp_mono; [| |apply (IH (plus_keys base (history_keys h l)) x N2)].
      * intros y. apply fair_mono. unfold plus_keys. intros r. rewrite in_app_iff. tauto.
      * intros rss y Hy [Hbs Hrs]. simpl. split.
        { revert Hy. apply fair_mono. unfold plus_keys. intros r. rewrite in_app_iff. tauto. }
        split; auto. intros A Hno. destruct (Hr A) as (A1 & -> & G1).
        { intros r Hin. apply (Hno rs r); auto. }
        destruct (Hrs A1) as (A2 & -> & G2).
        { intros rs' r H1 H2. apply (Hno rs' r); auto. }
        split; auto. split; auto. eapply g_equiv_trans; [exact G2|].
        rewrite spec_history_app. now apply spec_history_equiv.
      * intros r Hr' [H|H]; [apply (Hb r); auto; apply in_app_iff; auto | apply (N3 r); auto].
      * exact Hx.
    + intros r Hr'. apply Hb, in_app_iff. auto.
Qed.

(** ** Processes that die *)
Lemma fair_lives (ls : list (life (k := k) (NP := NP) (EP := EP) (SE := SE) (E := E))) : forall base d,
  NoDup (life_keys ls) -> (forall x, In x (life_keys ls) -> ~ base x) -> fair base d ->
  fair (plus_keys base (life_keys ls)) (lives cn ce mn me ls d).
Proof.
  induction ls as [|[h l faults n] ls IH]; intros base d Hnd Hb Hd; simpl in Hnd, Hb |- *.
  - revert Hd. apply fair_mono. intros; left; auto.
  - apply NoDup_app_iff in Hnd. destruct Hnd as (N1 & N2 & N3).
    eapply fair_mono; [|apply (IH (plus_keys base (history_keys h l)))]; auto.
    + unfold plus_keys. intros r. rewrite in_app_iff. tauto.
    + intros r Hr' [H|H]; [apply (Hb r); auto; apply in_app_iff; auto | apply (N3 r); auto].
    + unfold live. simpl. eapply wp_crash; [apply allowed_all|].
      apply (handle_history (fun _ => True) base h l d N1); auto.
      intros r Hr'. apply Hb, in_app_iff. auto.
Qed.

Lemma tracks_expected (l : list op) : forall g, tracks (SE := SE) (BE := BE) mn me l (map expected l) g (spec_history mn me l g).
Proof.
  induction l as [|o l IH]; intros g; simpl; [apply g_equiv_refl|].
  exists (spec_apply mn me o g). split; [|apply IH].
  unfold effect, expected. destruct (op_error o); split; auto; apply g_equiv_refl.
Qed.

Lemma moments_lives (ls : list (life (k := k) (NP := NP) (EP := EP) (SE := SE) (E := E))) : forall base d,
  NoDup (life_keys ls) -> (forall x, In x (life_keys ls) -> ~ base x) -> fair base d -> agree d ->
  extends_done cn ce mn me ls d ->
  agree (lives cn ce mn me ls d) /\
  moments (SE := SE) (BE := BE) mn me (map lf_ops ls) (sabs d) (sabs (lives cn ce mn me ls d)).
Proof.
  induction ls as [|[h l faults n] ls IH]; intros base d Hnd Hb Hd A Hx; simpl in Hnd, Hb |- *.
  - split; auto. apply g_equiv_refl.
  - apply NoDup_app_iff in Hnd. destruct Hnd as (N1 & N2 & N3).
    destruct Hx as [Hx1 Hx2].
    assert (fair (plus_keys base (history_keys h l)) (crash n (sled_history cn ce mn me l h) faults d) /\
      agree (crash n (sled_history cn ce mn me l h) faults d) /\
      moment (SE := SE) (BE := BE) mn me l (sabs d) (sabs (crash n (sled_history cn ce mn me l h) faults d))) as (H1 & H2 & H3).
    { assert (forall r, In r (history_keys h l) -> ~ base r) as Hb' by (intros r Hr; apply Hb, in_app_iff; auto).
      destruct Hx1 as [Hx1|[Hx1 Hno]]; unfold live in *; cbn [lf_ops lf_handle lf_faults lf_steps] in *.
      - apply (wp_crash _ _ _ _ n faults d (allowed_all _) (handle_tracks (fun _ => True) base h l d N1 Hb' Hd Hx1 A)).
      - rewrite Hx1.
        destruct (wp_exec _ _ _ _ faults d (allowed_all _) (handle_history (fun _ => True) base h l d N1 Hb' Hd)) as (W1 & (_ & W2) & _).
        destruct (W2 A Hno) as (W3 & _ & W4). split; auto. split; auto.
        exists l, [], (map expected l), (spec_history mn me l (sabs d)). split; [now rewrite app_nil_r|].
        split; [apply tracks_expected|exact W4]. }
    change (lives cn ce mn me ({| lf_handle := h; lf_ops := l; lf_faults := faults; lf_steps := n |} :: ls) d) with (lives cn ce mn me ls (crash n (sled_history cn ce mn me l h) faults d)).
    destruct (IH (plus_keys base (history_keys h l)) (crash n (sled_history cn ce mn me l h) faults d)) as [A' M]; auto.
    { intros r Hr' [H|H]; [apply (Hb r); auto; apply in_app_iff; auto | apply (N3 r); auto]. }
    split; auto. exists (sabs (crash n (sled_history cn ce mn me l h) faults d)). auto.
Qed.

End Top.
