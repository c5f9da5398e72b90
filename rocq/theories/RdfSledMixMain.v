(** The properties of callers of an RdfTripleStore over sled that make calls of every kind at the
    same time, from the start. *)
From Coq Require Import Arith NArith List Bool Sorted Lia.
From Verif Require Import Bytes BytesFacts OMap OMapFacts Core IdType IdTypeFacts Store Mem MemIndex Spec GenSpec
  CodecFacts ListFacts MemSim History Prog ProgFacts Sled SledHistory SledSched SledLeaf SledDb SledOps SledBulk
  SledRun SledRead SledTop SledMain SledCrash SledConc SledIndex SledIndexFacts Rdf RdfSpec RdfTop RdfSled RdfSledSpec
  RdfSledLeaf RdfSledSafe RdfSledConc RdfSledTop RdfSledRead RdfSledMain RdfSledMixSpec RdfSledMixTop.
Import ListNotations.

Section Main.
Context {S NP EP SE BE E : Type} (seqb : S -> S -> bool).
Context (cs : codec BE S) (cu : codec BE (Id KUlid)) (cn : codec BE NP) (ce : codec BE EP).
Context (mn : NP -> NP -> NP) (me : EP -> EP -> EP).
Context (seqb_eq : forall a b, seqb a b = true <-> a = b).
Context (Hcs : codec_ok cs) (Hcu : codec_ok cu) (Hcn : codec_ok cn) (Hce : codec_ok ce) (Htu : codec_total cu).
Notation nu := (name_now (SE := SE) cs cu).
Notation rho := (id_now (SE := SE) cs cu).
Notation sabs d := (sabs (k := KUlid) cn ce (r_trees d)).
Notation view := (RdfTop.view (S := S) (NP := NP) (EP := EP)).
Notation world := (RdfSledSafe.world cs cu cn ce).
Notation knows := (knows (SE := SE) cs cu).
Notation mepoch := (mepoch (S := S) (NP := NP) (EP := EP) (SE := SE) (E := E)).
Notation epoch := (m_epoch (SE := SE) (E := E) cs cu cn ce mn me).
Notation epochs := (m_epochs (SE := SE) (E := E) cs cu cn ce mn me).
Notation crowd := (m_crowd (SE := SE) (E := E) cs cu cn ce mn me).
Notation apart := (m_apart (SE := SE) (E := E) cs cu cn ce mn me).
Notation start := rdb_new.
Notation none := (fun _ : bytes => False).
Implicit Types d : rdb.

Lemma mixed_epoch (e : mepoch) U d K : world U d -> fresh_keys U (m_keys e) -> knows K d -> apart [e] d ->
  world (plus_keys U (m_keys e)) (epoch e d) /\ below (nu d) (nu (epoch e d)) /\
  exists K', knows K' (epoch e d) /\
  forall (nuF : S -> option (Id KUlid)) rhoF eg, one_to_one nuF rhoF -> below (nu (epoch e d)) nuF -> view rhoF (sabs d) eg ->
  exists eg', view rhoF (sabs (epoch e d)) eg' /\ m_effect (SE := SE) (BE := BE) seqb mn me (by_name rhoF) e K eg K' eg'.
Proof.
  intros Hw Hf Hk [Hc _]. destruct e as [f|cuts c].
  - destruct (seq_history (E := E) (SE := SE) seqb seqb_eq cs cu cn ce Hcs Hcu Hcn Hce mn me 0 (rl_ops f) (rl_handle f) (rs_keys (rl_handle f) (rl_ops f)) U d K Hw Hf) as [_ H]; auto.
    { rewrite Nat.add_0_r. exists [], []. now rewrite app_nil_r. }
    destruct (H (rl_faults f) (rl_steps f)) as (H1 & H2 & K' & H3 & H4). split; auto. split; auto. exists K'. split; auto.
  - destruct (crowd_mixed (E := E) (SE := SE) seqb seqb_eq cs cu cn ce Hcs Hcu Hcn Hce mn me U d K (rc_callers c) cuts (rc_schedule c) Hw Hf Hk) as (H1 & H2 & H).
    pose proof (one_now (SE := SE) cs cu Hcs Hcu _ H2) as One.
    destruct (H _ _ One (below_refl _) Hc) as (H3 & K' & H4 & H5 & ss & s & H6 & H7 & _ & H8).
    split; auto. split; auto. exists K'. split; auto. intros nuF rhoF eg O B V.
    eexists. split; [exact (H8 nuF rhoF eg O B V)|]. split; auto. exists ss, s. split; auto. split; auto. apply e_equiv_refl.
Qed.

Lemma mixed_epochs (es : list mepoch) : forall U d K, world U d -> fresh_keys U (flat_map m_keys es) -> knows K d -> apart es d ->
  world (plus_keys U (flat_map m_keys es)) (epochs es d) /\ below (nu d) (nu (epochs es d)) /\
  exists K', knows K' (epochs es d) /\
  forall (nuF : S -> option (Id KUlid)) rhoF eg, one_to_one nuF rhoF -> below (nu (epochs es d)) nuF -> view rhoF (sabs d) eg ->
  exists eg', view rhoF (sabs (epochs es d)) eg' /\ m_effects (SE := SE) (BE := BE) seqb mn me (by_name rhoF) es K eg K' eg'.
Proof.
  induction es as [|e es IH]; intros U d K Hw Hf Hk Hc.
  - simpl. split; [eapply world_mono; [|exact Hw]; intros x Hx; left; auto|]. split; [apply below_refl|]. exists K. split; auto.
    intros nuF rhoF eg O B V. exists eg. split; auto. simpl. split; [tauto|apply e_equiv_refl].
  - destruct Hc as [Hc1 Hc2]. simpl in Hf.
    assert (fresh_keys U (m_keys e)) as Hf1.
    { destruct Hf as [F1 F2]. apply NoDup_app_iff in F1. split; [apply F1|]. intros x Hx. apply F2, in_app_iff. auto. }
    destruct (mixed_epoch e U d K Hw Hf1 Hk (conj Hc1 Logic.I)) as (A1 & A2 & K1 & A3 & A4).
    destruct (IH _ _ K1 A1 (fresh_tail U _ _ Hf) A3 Hc2) as (B1 & B2 & K2 & B3 & B4).
    change (epochs (e :: es) d) with (epochs es (epoch e d)).
    split. { eapply world_mono; [|exact B1]. intros x [[Hx|Hx]|Hx]; [left; auto|right; simpl; apply in_app_iff; auto|right; simpl; apply in_app_iff; auto]. }
    split; [eapply below_trans; eauto|]. exists K2. split; auto. intros nuF rhoF eg O B V.
    destruct (A4 nuF rhoF eg O (below_trans _ _ _ B2 B) V) as (eg1 & V1 & T1).
    destruct (B4 nuF rhoF eg1 O B V1) as (eg2 & V2 & T2). exists eg2. split; auto. simpl. exists K1, eg1. auto.
Qed.

Lemma main_mixed (es : list mepoch) cuts (k : rcrowd) :
  NoDup (flat_map m_keys (es ++ [MTogether cuts k])) -> 
  let d := epochs es start in let pd := crowd cuts k d in let d' := snd pd in
  let ls := map snd (rc_callers k) in
  apart es start -> r_apart (by_name (rho d')) (rc_callers k) ->
  one_to_one (nu d') (rho d') /\ (forall s i, nu d s = Some i -> nu d' s = Some i) /\
  exists known eg known' ss s,
    (forall s, nu d s <> None <-> In s known) /\ (forall s, nu d' s <> None <-> In s known') /\
    named (flat_map given (concat ls)) known known' /\
    m_effects (SE := SE) (BE := BE) seqb mn me (by_name (rho d')) es [] e_empty known eg /\
    Forall2 (r_log_among_so_far (SE := SE) (BE := BE) seqb known known') ls ss /\ shuffle ss s /\
    (forall i l rs h', nth_error ls i = Some l -> nth_error (fst pd) i = Some (Ret (rs, h')) ->
       exists si, nth_error ss i = Some si /\ r_log_among seqb known known' l rs si) /\
    rs_shows SE cs cu cn ce d' (e_run seqb mn me (by_name (rho d')) known' s eg).
Proof.
  intros Hnd. cbv zeta. intros Hc Hk. rewrite flat_map_app in Hnd.
  pose proof (NoDup_app_iff (flat_map m_keys es) (flat_map m_keys [MTogether cuts k])) as [Hn _]. destruct (Hn Hnd) as (N1 & _ & _).
  destruct (mixed_epochs es none start [] (world_new cs cu cn ce none) (fresh_start _ N1) (nothing_known cs cu) Hc) as (W & _ & K & HK & HE).
  pose proof (fresh_tail none _ _ (fresh_start _ Hnd)) as Hf. simpl in Hf. rewrite app_nil_r in Hf.
  destruct (crowd_mixed (E := E) (SE := SE) seqb seqb_eq cs cu cn ce Hcs Hcu Hcn Hce mn me _ _ K (rc_callers k) cuts (rc_schedule k) W Hf HK) as (Hb & Hi & H).
  fold (crowd cuts k (epochs es start)) in Hb, Hi, H.
  pose proof (one_now (SE := SE) cs cu Hcs Hcu _ Hi) as One.
  destruct (H _ _ One (below_refl _) Hk) as (W' & K' & HK' & Hnm & ss & s & H1 & H2 & H3 & H4).
  split; auto. split; auto.
  destruct (HE _ _ e_empty One Hb (view_start cn ce _)) as (eg & V & T). exists K, eg, K', ss, s. split; [exact HK|]. split; [exact HK'|]. split; auto. split; auto.
  split; auto. split; auto. split; auto. eapply world_shows; eauto. apply (H4 _ _ eg One (below_refl _) V).
Qed.

Lemma main_mixed_epochs (es : list mepoch) :
  NoDup (flat_map m_keys es) ->
  let d := epochs es start in
  apart es start ->
  one_to_one (nu d) (rho d) /\
  exists known eg, (forall s, nu d s <> None <-> In s known) /\ rs_shows SE cs cu cn ce d eg /\
    m_effects (SE := SE) (BE := BE) seqb mn me (by_name (rho d)) es [] e_empty known eg.
Proof.
  intros Hnd d Hc.
  destruct (mixed_epochs es none start [] (world_new cs cu cn ce none) (fresh_start _ Hnd) (nothing_known cs cu) Hc) as (W & _ & K & HK & HE).
  pose proof (one_now (SE := SE) cs cu Hcs Hcu _ (proj1 W)) as One. split; auto.
  destruct (HE _ _ e_empty One (below_refl _) (view_start cn ce _)) as (eg & V & T). exists K, eg. split; auto. split; auto.
  eapply world_shows; eauto.
Qed.

Lemma apart_app (a b : list mepoch) : forall d, apart (a ++ b) d <-> apart a d /\ apart b (epochs a d).
Proof.
  induction a as [|e a IH]; intros d; simpl; [tauto|]. change (epochs (e :: a) d) with (epochs a (epoch e d)). rewrite IH. tauto.
Qed.
Lemma main_mixed_stable (es es' : list mepoch) :
  NoDup (flat_map m_keys (es ++ es')) -> apart (es ++ es') start ->
  let d := epochs es start in let d' := epochs (es ++ es') start in
  (forall s i, nu d s = Some i -> nu d' s = Some i) /\ (forall i s, rho d i = Some s -> rho d' i = Some s).
Proof.
  intros Hnd Hc d d'. apply apart_app in Hc. destruct Hc as [Hc1 Hc2]. rewrite flat_map_app in Hnd.
  pose proof (NoDup_app_iff (flat_map m_keys es) (flat_map m_keys es')) as [Hn _]. destruct (Hn Hnd) as (N1 & _ & _).
  destruct (mixed_epochs es none start [] (world_new cs cu cn ce none) (fresh_start _ N1) (nothing_known cs cu) Hc1) as (W & _ & K & HK & _).
  pose proof (fresh_tail none _ _ (fresh_start _ Hnd)) as Hf.
  destruct (mixed_epochs es' _ _ K W Hf HK Hc2) as (W' & Hb & _).
  assert (d' = epochs es' d) as Hd by (unfold d', d, m_epochs; now rewrite fold_left_app). rewrite Hd.
  pose proof (one_now (SE := SE) cs cu Hcs Hcu _ (proj1 W)) as O1. pose proof (one_now (SE := SE) cs cu Hcs Hcu _ (proj1 W')) as O2.
  split; [exact Hb|]. intros i s H. apply O2, Hb, O1, H.
Qed.

End Main.
