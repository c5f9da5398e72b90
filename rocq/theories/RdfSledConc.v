(** Several callers that add to an RdfTripleStore over sled at the same time. *)
From Coq Require Import Arith NArith List Bool Sorted Lia.
From Verif Require Import Bytes BytesFacts OMap OMapFacts Core IdType IdTypeFacts Store Mem Spec GenSpec
  CodecFacts ListFacts MemSim History Prog ProgFacts Sled SledHistory SledSched SledDb SledOps SledBulk
  SledRun SledRead SledTop SledMain SledCrash SledConc SledIndex SledIndexFacts Rdf RdfSpec RdfTop RdfSled RdfSledSpec RdfSledSafe.
Import ListNotations.

(** ** Shuffles *)
Section Shuffle.
Context {A : Type}.
Implicit Types ls : list (list A).

Lemma replace_comm {X} (l : list X) : forall i j x y, i <> j ->
  replace_nth i x (replace_nth j y l) = replace_nth j y (replace_nth i x l).
Proof. induction l as [|z l IH]; intros [|i] [|j] x y H; simpl; auto; try congruence. f_equal. apply IH. congruence. Qed.

Lemma Forall_replace {X} (P : X -> Prop) (l : list X) : forall i x, Forall P l -> P x -> Forall P (replace_nth i x l).
Proof. induction l as [|z l IH]; intros [|i] x H Hx; simpl; auto; inversion_clear H; constructor; auto. Qed.

Lemma shuffle_snoc ls r : shuffle ls r -> forall i x o, nth_error ls i = Some x ->
  shuffle (replace_nth i (x ++ [o]) ls) (r ++ [o]).
Proof.
  induction 1 as [ls Hn|ls j y l r Hj Hs IH]; intros i x o Hi.
  - rewrite Forall_forall in Hn. assert (x = []) as -> by (apply Hn; eapply nth_error_In; eauto). simpl.
    apply Shuffle_cons with (i := i) (l := []); [eapply nth_replace_eq; eauto|]. rewrite replace_twice.
    constructor. apply Forall_replace; auto. apply Forall_forall. auto.
  - simpl. destruct (Nat.eq_dec i j) as [->|N].
    + rewrite Hj in Hi. injection Hi as <-. simpl.
      apply Shuffle_cons with (i := j) (l := l ++ [o]); [eapply nth_replace_eq; eauto|]. rewrite replace_twice.
      specialize (IH j l o (nth_replace_eq _ _ _ _ Hj)). now rewrite replace_twice in IH.
    + apply Shuffle_cons with (i := j) (l := l); [now rewrite nth_replace_neq|].
      rewrite replace_comm by auto. apply IH. now rewrite nth_replace_neq by auto.
Qed.

Lemma shuffle_empty n : shuffle (repeat (@nil A) n) [].
Proof. constructor. apply Forall_forall. intros x Hx. eapply repeat_spec; eauto. Qed.
End Shuffle.

Section Conc.
Context {S NP EP SE BE E : Type} (seqb : S -> S -> bool) (seqb_eq : forall a b, seqb a b = true <-> a = b).
Context (cs : codec BE S) (cu : codec BE (Id KUlid)) (cn : codec BE NP) (ce : codec BE EP).
Context (Hcs : codec_ok cs) (Hcu : codec_ok cu) (Hcn : codec_ok cn) (Hce : codec_ok ce).
Context (mn : NP -> NP -> NP) (me : EP -> EP -> EP).
Notation I := (Id KUlid).
Notation ent := (entity S).
Notation P A := (prog rdb SE A).
Notation rop := (rop S NP EP E).
Notation op := (op KUlid NP EP E).
Notation G := (graph KUlid NP EP).
Notation EG := (egraph S NP EP).
Notation answer := (routcome (S := S) (SE := SE) (BE := BE) (E := E)).
Notation apply := (rs_apply (SE := SE) (E := E) cs cu cn ce mn me).
Notation hist := (rs_history (SE := SE) (E := E) cs cu cn ce mn me).
Notation nu := (name_now (SE := SE) cs cu).
Notation rho := (id_now (SE := SE) cs cu).
Notation sabs d := (sabs (k := KUlid) cn ce (r_trees d)).
Notation ids := (S -> option I).
Notation view := (RdfTop.view (S := S) (NP := NP) (EP := EP)).
Notation safe := (safe (S := S) (SE := SE) (E := E) cs cu cn ce mn me).
Notation world := (world cs cu cn ce).
Notation only_new := (only_new (SE := SE) cs cu).
Notation graph_moves := (graph_moves (SE := SE) cs cu cn ce mn me).
Notation olist := (olist (S := S) (NP := NP) (EP := EP) (E := E)).
Notation stands := (stands (S := S) (NP := NP) (EP := EP) (E := E)).
Implicit Types d : rdb.
Implicit Types M : S -> option I.
Implicit Types s : list rop.
Implicit Types own : list bytes.
Implicit Types h : rhandle.
Notation run F := (e_run seqb mn me (by_name F)).

(** ** One step, seen by name *)
Lemma den_shown (nuF : ids) rhoF M e i : one_to_one nuF rhoF -> below M nuF -> den M e i -> by_name rhoF e = shown rhoF i.
Proof.
  intros O B. destruct e as [n|j]; simpl.
  - intros H. apply B, O in H. unfold shown. now rewrite H.
  - now intros ->.
Qed.
Lemma den3_shown (nuF : ids) rhoF M t u : one_to_one nuF rhoF -> below M nuF -> den3 M t u ->
  triple_map (by_name rhoF) t = triple_map (shown rhoF) u.
Proof.
  intros O B (H1 & H2 & H3). unfold triple_map. f_equal; eapply den_shown; eauto.
Qed.

Lemma view_single (nuF : ids) rhoF K M (o : rop) (x : op) (g : G) (eg : EG) :
  one_to_one nuF rhoF -> below M nuF -> stands M o x -> single_add o -> view rhoF g eg ->
  view rhoF (spec_apply mn me x g) (e_apply seqb mn me (by_name rhoF) K o eg).
Proof.
  intros O B Hs Ha V. destruct o as [e p|t p|e|t|e p|t p|q|q]; simpl in *; try contradiction; destruct Hs as (i & Hi & ->).
  - rewrite (den_shown nuF rhoF M e i O B Hi). now apply (view_put_node seqb seqb_eq _ _ O).
  - rewrite (den3_shown nuF rhoF M t i O B Hi). now apply (view_put_edge seqb seqb_eq _ _ O).
  - rewrite (den_shown nuF rhoF M e i O B Hi). now apply (view_merge_node seqb seqb_eq mn _ _ O).
  - rewrite (den3_shown nuF rhoF M t i O B Hi). now apply (view_merge_edge seqb seqb_eq me _ _ O).
Qed.

(** [s] leads from [d] to [d']. *)
Definition reach (N : list S) s d d' : Prop :=
  below (nu d) (nu d') /\ only_new N d d' /\
  forall (nuF : ids) rhoF, one_to_one nuF rhoF -> below (nu d') nuF ->
  forall K eg, view rhoF (sabs d) eg -> view rhoF (sabs d') (run rhoF K s eg).

Lemma reach_refl N d : reach N [] d d.
Proof. split; [apply below_refl|]. split; [now apply only_new_refl|]. auto. Qed.
Lemma reach_trans N s1 s2 d1 d2 d3 : reach N s1 d1 d2 -> reach N s2 d2 d3 -> reach N (s1 ++ s2) d1 d3.
Proof.
  intros (A1 & A2 & A3) (B1 & B2 & B3). split; [eapply below_trans; eauto|]. split; [eapply only_new_trans; eauto|].
  intros nuF rhoF O B K eg V. unfold e_run. rewrite fold_left_app. apply (B3 nuF rhoF O B K). apply (A3 nuF rhoF O); auto.
  eapply below_trans; eauto.
Qed.
Lemma reach_step N oo d d' : below (nu d) (nu d') -> only_new N d d' -> graph_moves oo d d' -> reach N (olist oo) d d'.
Proof.
  intros A1 A2 A3. split; auto. split; auto. intros nuF rhoF O B K eg V. destruct oo as [o|]; simpl in *.
  - destruct A3 as (Ha & x & Hx & Hg). eapply view_equiv; [apply g_equiv_sym; exact Hg|]. eapply view_single; eauto.
  - eapply view_equiv; [apply g_equiv_sym; exact A3|]. exact V.
Qed.
Lemma reach_incl N N' s d d' : incl N N' -> reach N s d d' -> reach N' s d d'.
Proof. intros H (A & B & C). split; auto. split; auto. eapply only_new_incl; eauto. Qed.

(** ** Running alone *)
Lemma safe_exec {A} N (Q : A -> list rop -> ids -> list bytes -> Prop) R (p : P A) :
  forall s M own U d fs, safe N Q R p s M own -> world U d -> fresh_keys U own -> below M (nu d) ->
  exists s1 M' own' U', Q (ret_of p fs d) (s ++ s1) M' own' /\ reach N s1 d (db_of p fs d) /\ below M' (nu (db_of p fs d)) /\
    world U' (db_of p fs d) /\ fresh_keys U' own' /\ incl own' own /\ (forall x, U' x -> U x \/ In x own).
Proof.
  unfold ret_of, db_of. induction p as [a|k IH|u k IHk e IHe]; intros s M own U d fs Hs Hw Hf Hb; simpl in *.
  - exists [], M, own, U. rewrite app_nil_r. split; [tauto|]. split; [apply reach_refl|]. split; auto. split; auto.
    split; auto. split; [apply incl_refl|auto].
  - tauto.
  - destruct Hs as (_ & H1 & H2).
    assert (forall fs', exists s1 M' own' U', Q (fst (fst (exec (k d) fs' (u d)))) (s ++ s1) M' own' /\ reach N s1 d (snd (fst (exec (k d) fs' (u d)))) /\
      below M' (nu (snd (fst (exec (k d) fs' (u d))))) /\ world U' (snd (fst (exec (k d) fs' (u d)))) /\ fresh_keys U' own' /\ incl own' own /\ (forall x, U' x -> U x \/ In x own)) as Hgo.
    { intros fs'. destruct (H2 U d Hw Hf Hb) as (oo & used & own1 & post & -> & W2 & W3 & W4 & W5 & W6).
      assert (fresh_keys (plus_keys U used) own1) as Hf1.
      { apply fresh_tail in Hf. destruct Hf as [F1 F2]. apply NoDup_app_iff in F1. split; [apply F1|].
        intros x Hx. apply F2, in_app_iff. auto. }
      destruct (IHk d _ _ _ _ _ fs' W6 W2 Hf1 (below_refl _)) as (s1 & M' & own' & U' & Z1 & Z2 & Z3 & Z4 & Z5 & Z6 & Z7).
      exists (olist oo ++ s1), M', own', U'. rewrite app_assoc. split; auto.
      split; [eapply reach_trans; [eapply reach_step; eauto|exact Z2]|]. split; auto. split; auto. split; auto.
      split; [intros x Hx; rewrite !in_app_iff; right; left; auto|].
      intros x Hx. rewrite !in_app_iff. destruct (Z7 x Hx) as [[Hu|Hu]|Hu]; auto. }
    destruct fs as [|[x|] fs]; auto. apply (IHe x _ _ _ _ _ fs (H1 x) Hw Hf Hb).
Qed.

Lemma safe_crash {A} N (Q : A -> list rop -> ids -> list bytes -> Prop) R (p : P A) :
  forall n s M own U d fs, safe N Q R p s M own -> world U d -> fresh_keys U own -> below M (nu d) ->
  exists s1, R (s ++ s1) /\ reach N s1 d (crash n p fs d) /\ world (plus_keys U own) (crash n p fs d).
Proof.
  induction p as [a|k IH|u k IHk e IHe]; intros n s M own U d fs Hs Hw Hf Hb.
  - exists []. rewrite app_nil_r. split; [eapply safe_R; eauto|]. split; [apply reach_refl|].
    eapply world_mono; [|exact Hw]. intros x Hx. left. auto.
  - simpl in Hs. tauto.
  - assert (exists s1, R (s ++ s1) /\ reach N s1 d d /\ world (plus_keys U own) d) as Hnow.
    { exists []. rewrite app_nil_r. split; [eapply safe_R; eauto|]. split; [apply reach_refl|].
      eapply world_mono; [|exact Hw]. intros x Hx. left. auto. }
    destruct Hs as (_ & H1 & H2). simpl. destruct n as [|n]; auto.
    assert (forall fs', exists s1, R (s ++ s1) /\ reach N s1 d (crash n (k d) fs' (u d)) /\ world (plus_keys U own) (crash n (k d) fs' (u d))) as Hgo.
    { intros fs'. destruct (H2 U d Hw Hf Hb) as (oo & used & own1 & post & -> & W2 & W3 & W4 & W5 & W6).
      assert (fresh_keys (plus_keys U used) own1) as Hf1.
      { apply fresh_tail in Hf. destruct Hf as [F1 F2]. apply NoDup_app_iff in F1. split; [apply F1|].
        intros x Hx. apply F2, in_app_iff. auto. }
      destruct (IHk d n _ _ _ _ _ fs' W6 W2 Hf1 (below_refl _)) as (s1 & Z1 & Z2 & Z3).
      exists (olist oo ++ s1). rewrite app_assoc. split; auto.
      split; [eapply reach_trans; [eapply reach_step; eauto|exact Z2]|].
      eapply world_mono; [|exact Z3]. intros x. unfold plus_keys. rewrite !in_app_iff. tauto. }
    destruct fs as [|[x|] fs]; auto. apply (IHe x n _ _ _ _ _ fs (H1 x) Hw Hf Hb).
Qed.

(** ** Running together *)
Record ghost : Type := Ghost { gh_calls : list rop; gh_log : list rop; gh_seen : ids; gh_own : list bytes }.

Definition fits (N : list S) d (p : P (list answer * rhandle)) (x : ghost) : Prop :=
  safe N (through seqb (gh_calls x) 0 []) (so_far (SE := SE) (BE := BE) seqb (gh_calls x) []) p (gh_log x) (gh_seen x) (gh_own x) /\ below (gh_seen x) (nu d).

Lemma Forall2_app_cons {X Y} (R : X -> Y -> Prop) l a y b : Forall2 R l (a ++ y :: b) ->
  exists la x lb, l = la ++ x :: lb /\ Forall2 R la a /\ R x y /\ Forall2 R lb b.
Proof.
  intros H. apply Forall2_app_inv_r in H. destruct H as (la & lb & H1 & H2 & ->). inversion H2; subst. eauto 8.
Qed.

Lemma replace_app {X} (a : list X) x y b : replace_nth (length a) y (a ++ x :: b) = a ++ y :: b.
Proof. induction a; simpl; auto. now f_equal. Qed.

Definition crowd_inv (N : list S) (U0 : bytes -> Prop) d0 (ps : list (P (list answer * rhandle))) d (xs : list ghost) s : Prop :=
  Forall2 (fits N d) ps xs /\ reach N s d0 d /\ shuffle (map gh_log xs) s /\
  exists U, world U d /\ fresh_keys U (flat_map gh_own xs) /\ (forall x, U x -> U0 x).

Lemma Forall2_weaken {X Y} (R R' : X -> Y -> Prop) l l' : (forall a b, R a b -> R' a b) -> Forall2 R l l' -> Forall2 R' l l'.
Proof. intros H. induction 1; constructor; auto. Qed.

Lemma fits_later N d d' p x : below (nu d) (nu d') -> fits N d p x -> fits N d' p x.
Proof. intros H [H1 H2]. split; auto. eapply below_trans; eauto. Qed.

Lemma crowd_step N U0 d0 schedule : forall ps d xs s, crowd_inv N U0 d0 ps d xs s ->
  (forall x, In x (flat_map gh_own xs) -> U0 x) ->
  exists xs' s', crowd_inv N U0 d0 (fst (interleave schedule ps d)) (snd (interleave schedule ps d)) xs' s' /\
    map gh_calls xs' = map gh_calls xs.
Proof.
  induction schedule as [|[i f] schedule IH]; intros ps d xs s Hinv HU0; simpl.
  - eauto.
  - destruct (nth_error ps i) as [p|] eqn:Hi; [|now apply IH with s].
    destruct Hinv as (Hfit & Hreach & Hsh & U & Hw & Hfr & HU).
    apply nth_error_split in Hi. destruct Hi as (pa & pb & -> & <-).
    apply Forall2_app_inv_l in Hfit. destruct Hfit as (xa & xb & Fa & Fb & ->).
    inversion Fb as [|? x ? xb' [Hs Hb] Fb' E1 E2]. subst. clear Fb. rename xb' into xb.
    assert (exists x' d' oo, step1 f p d = (fst (step1 f p d), d') /\ d' = snd (step1 f p d) /\
      fits N d' (fst (step1 f p d)) x' /\ gh_calls x' = gh_calls x /\ gh_log x' = gh_log x ++ olist oo /\
      below (nu d) (nu d') /\ reach N (olist oo) d d' /\
      (exists used post, gh_own x = used ++ gh_own x' ++ post /\ world (plus_keys U used) d')) as
      (x' & d' & oo & Hst & Hd' & Hfit' & Hc & Hl & Hbel & Hre & used & post & Hown & Hw').
    { assert (fits N d p x -> exists x' d' oo, (p, d) = (p, d') /\ d' = d /\
        fits N d' p x' /\ gh_calls x' = gh_calls x /\ gh_log x' = gh_log x ++ olist oo /\
        below (nu d) (nu d') /\ reach N (olist oo) d d' /\
        (exists used post, gh_own x = used ++ gh_own x' ++ post /\ world (plus_keys U used) d')) as Hsame.
      { intros Hfx. exists x, d, None. repeat (split; [solve [auto]|]). split; [simpl; now rewrite app_nil_r|].
        split; [apply below_refl|]. split; [apply reach_refl|]. exists [], []. rewrite app_nil_r. split; auto.
        eapply world_mono; [|exact Hw]. intros y Hy. left. auto. }
      destruct p as [a|k|u k e].
      - apply Hsame. split; auto.
      - simpl in Hs. tauto.
      - simpl in Hs. destruct Hs as (_ & H1 & H2). destruct f as [y|]; simpl.
        + exists x, d, None. split; auto. split; auto. split; [split; auto|]. split; auto.
          split; [simpl; now rewrite app_nil_r|].
          split; [apply below_refl|]. split; [apply reach_refl|]. exists [], []. rewrite app_nil_r. split; auto.
          eapply world_mono; [|exact Hw]. intros z Hz. left. auto.
        + assert (fresh_keys U (gh_own x)) as Hfx.
          { destruct Hfr as [F1 F2]. rewrite flat_map_app in F1, F2. simpl in F1, F2. apply NoDup_app_iff in F1. destruct F1 as (_ & F1 & _).
            apply NoDup_app_iff in F1. split; [apply F1|]. intros z Hz. apply F2. rewrite !in_app_iff. auto. }
          destruct (H2 U d Hw Hfx Hb) as (oo & used & own1 & post & W1 & W2 & W3 & W4 & W5 & W6).
          exists (Ghost (gh_calls x) (gh_log x ++ olist oo) (nu (u d)) own1), (u d), oo. simpl.
          split; auto. split; auto. split; [split; [exact W6|apply below_refl]|]. split; auto. split; auto. split; auto.
          split; [eapply reach_step; eauto|]. exists used, post. auto. }
    clear Hst. rewrite (surjective_pairing (step1 f p d)), <- Hd'. rewrite replace_app.
    destruct (IH (pa ++ fst (step1 f p d) :: pb) d' (xa ++ x' :: xb) (s ++ olist oo)) as (xs' & s' & Hinv' & Hmap).
    + split; [|split; [|split]].
      * apply Forall2_app; [|constructor; auto].
        -- eapply Forall2_weaken; [|exact Fa]. intros a b Hab. eapply fits_later; eauto.
        -- eapply Forall2_weaken; [|exact Fb']. intros a b Hab. eapply fits_later; eauto.
      * eapply reach_trans; eauto.
      * rewrite map_app in *. simpl in *. rewrite Hl. destruct oo as [o|]; simpl; rewrite ?app_nil_r; auto.
        pose proof (shuffle_snoc _ _ Hsh (length (map gh_log xa)) (gh_log x) o) as Hsn.
        rewrite replace_app in Hsn. apply Hsn. rewrite nth_error_app2 by lia. now rewrite Nat.sub_diag.
      * exists (plus_keys U used). split; auto. rewrite flat_map_app in *. simpl in *. rewrite Hown in *.
        split.
        -- destruct Hfr as [F1 F2]. apply NoDup_app_iff in F1. destruct F1 as (A1 & A2 & A3).
           apply NoDup_app_iff in A2. destruct A2 as (B1 & B2 & B3).
           apply NoDup_app_iff in B1. destruct B1 as (C1 & C2 & C3).
           apply NoDup_app_iff in C2. destruct C2 as (D1 & D2 & D3).
           split.
           ++ apply NoDup_app_iff. split; auto. split.
              ** apply NoDup_app_iff. split; auto. split; auto. intros z Hz. apply B3. rewrite !in_app_iff. auto.
              ** intros z Hz Hz2. apply (A3 z Hz). rewrite !in_app_iff in *. tauto.
           ++ intros z Hz [Hu|Hu].
              ** apply (F2 z); auto. rewrite !in_app_iff in *. tauto.
              ** rewrite !in_app_iff in Hz. destruct Hz as [Hz|[Hz|Hz]].
                 --- apply (A3 z Hz). rewrite !in_app_iff. auto.
                 --- apply (C3 z Hu). rewrite !in_app_iff. auto.
                 --- apply (B3 z); auto. rewrite !in_app_iff. auto.
        -- intros z [Hz|Hz]; auto. apply HU0. rewrite !in_app_iff. auto.
    + intros z Hz. apply HU0. rewrite flat_map_app in *. simpl in *. rewrite Hown. rewrite !in_app_iff in *. tauto.
    + exists xs', s'. split; auto. rewrite Hmap, !map_app. simpl. now rewrite Hc.
Qed.

End Conc.
