(** The properties of the RdfTripleStore over sled, from the start. *)
From Coq Require Import Arith NArith List Bool Sorted Lia.
From Verif Require Import Bytes BytesFacts OMap OMapFacts Core IdType IdTypeFacts Store Mem MemIndex Spec GenSpec
  CodecFacts ListFacts MemSim History Prog ProgFacts Sled SledHistory SledSched SledDb SledOps SledBulk
  SledRun SledRead SledTop SledMain SledCrash SledConc SledIndex SledIndexFacts Rdf RdfSpec RdfTop RdfSled RdfSledSpec
  RdfSledSafe RdfSledConc RdfSledTop RdfSledRead RdfSledBlame.
Import ListNotations.

(** ** Graphs over entities *)
Section Abstract.
Context {S NP EP SE BE E : Type} (seqb : S -> S -> bool) (seqb_eq : forall a b, seqb a b = true <-> a = b).
Context (mn : NP -> NP -> NP) (me : EP -> EP -> EP) (c : entity S -> entity S).
Notation rop := (rop S NP EP E).
Notation EG := (egraph S NP EP).
Notation answer := (routcome (S := S) (SE := SE) (BE := BE) (E := E)).
Implicit Types a b : EG.

Lemma e_equiv_trans (x y z : EG) : e_equiv x y -> e_equiv y z -> e_equiv x z.
Proof. intros [A B] [A' B']. split; intros; [now rewrite A|now rewrite B]. Qed.

Lemma put_node_equiv n p a b : e_equiv a b -> e_equiv (e_put_node seqb n p a) (e_put_node seqb n p b).
Proof. intros [A B]. split; intros; simpl; auto. now destruct (entity_eqb seqb _ _). Qed.
Lemma put_edge_equiv t p a b : e_equiv a b -> e_equiv (e_put_edge seqb t p a) (e_put_edge seqb t p b).
Proof. intros [A B]. split; intros; simpl; auto. now destruct (triple_eqb _ _ _). Qed.
Lemma del_edge_equiv t a b : e_equiv a b -> e_equiv (e_del_edge seqb t a) (e_del_edge seqb t b).
Proof. intros [A B]. split; intros; simpl; auto. now destruct (triple_eqb _ _ _). Qed.
Lemma del_node_equiv n a b : e_equiv a b -> e_equiv (e_del_node seqb n a) (e_del_node seqb n b).
Proof. intros [A B]. split; intros; simpl; auto; [now destruct (entity_eqb seqb _ _)|now destruct (_ || _)]. Qed.
Lemma merge_node_equiv n p a b : e_equiv a b -> e_equiv (e_merge_node seqb mn n p a) (e_merge_node seqb mn n p b).
Proof. intros H. unfold e_merge_node. rewrite (proj1 H). now apply put_node_equiv. Qed.
Lemma merge_edge_equiv t p a b : e_equiv a b -> e_equiv (e_merge_edge seqb me t p a) (e_merge_edge seqb me t p b).
Proof. intros H. unfold e_merge_edge. rewrite (proj2 H). now apply put_edge_equiv. Qed.
Lemma fold_equiv {X} (f : X -> EG -> EG) l : (forall x a b, e_equiv a b -> e_equiv (f x a) (f x b)) ->
  forall a b, e_equiv a b -> e_equiv (fold_left (fun g x => f x g) l a) (fold_left (fun g x => f x g) l b).
Proof. intros Hf. induction l as [|x l IH]; simpl; intros; auto. Qed.

Lemma apply_equiv K (o : rop) a b : e_equiv a b -> e_equiv (e_apply seqb mn me c K o a) (e_apply seqb mn me c K o b).
Proof.
  intros H. destruct o as [e p|t p|e|t|e p|t p|q|q]; simpl.
  - now apply put_node_equiv.
  - now apply put_edge_equiv.
  - destruct (first_unknown _ _ _); auto. now apply del_node_equiv.
  - destruct (first_unknown _ _ _); auto. now apply del_edge_equiv.
  - now apply merge_node_equiv.
  - now apply merge_edge_equiv.
  - unfold e_bulk. apply (fold_equiv (fun te => e_put_edge seqb (triple_map c (fst te)) (snd te))); [intros; now apply put_edge_equiv|].
    apply (fold_equiv (fun ip => e_put_node seqb (c (fst ip)) (snd ip))); auto. intros. now apply put_node_equiv.
  - unfold e_bulk. apply (fold_equiv (fun te => e_merge_edge seqb me (triple_map c (fst te)) (snd te))); [intros; now apply merge_edge_equiv|].
    apply (fold_equiv (fun ip => e_merge_node seqb mn (c (fst ip)) (snd ip))); auto. intros. now apply merge_node_equiv.
Qed.

Lemma unknown_same (K K' names : list S) : (forall s, In s K <-> In s K') -> first_unknown seqb K names = first_unknown seqb K' names.
Proof.
  intros H. unfold first_unknown. induction names as [|n names IH]; simpl; auto. rewrite IH.
  assert (existsb (seqb n) K = existsb (seqb n) K') as ->; auto.
  apply Bool.eq_iff_eq_true. rewrite !existsb_exists. split; intros (x & Hx & Q); exists x; split; auto; now apply H.
Qed.
Lemma apply_same (K K' : list S) (o : rop) a : (forall s, In s K <-> In s K') -> e_apply seqb mn me c K o a = e_apply seqb mn me c K' o a.
Proof. intros H. destruct o; simpl; rewrite ?(unknown_same K K' _ H); auto. Qed.
Lemma answer_same (K K' : list S) (o : rop) : (forall s, In s K <-> In s K') ->
  same_answer (SE := SE) (BE := BE) (e_answer seqb K' o) (r_answer seqb K o).
Proof.
  intros H. destruct o as [e p|t p|e|t|e p|t p|q|q]; simpl; auto; rewrite ?(unknown_same K K' _ H).
  - now destruct (first_unknown _ _ _).
  - now destruct (first_unknown _ _ _).
  - now destruct (rdf_source_error q).
  - now destruct (rdf_source_error q).
Qed.

(** Without failures: the history. *)
Lemma tracks_history (l : list rop) : forall (rs : list answer) K g K' g' K0 g0,
  r_tracks seqb mn me c l rs K g K' g' -> (forall r, In r rs -> r_failed r = false) ->
  (forall s, In s K <-> In s K0) -> e_equiv g g0 ->
  Forall2 same_answer (fst (e_history seqb mn me c K0 l g0)) rs /\
  e_equiv g' (snd (e_history seqb mn me c K0 l g0)) /\
  forall s, In s K' <-> In s (K0 ++ flat_map given l).
Proof.
  induction l as [|o l IH]; intros [|r rs] K g K' g' K0 g0 H Hno HK Hg; simpl in H; try contradiction.
  - destruct H as [H1 H2]. simpl. split; [constructor|]. split; [eapply e_equiv_trans; eauto|].
    intros s. rewrite app_nil_r, H1. apply HK.
  - destruct H as (k1 & g1 & H1 & H2). unfold r_effect in H1. rewrite (Hno r (or_introl eq_refl)) in H1.
    destruct H1 as (-> & HK1 & Hg1).
    destruct (IH rs k1 g1 K' g' (K0 ++ given o) (e_apply seqb mn me c K0 o g0) H2) as (A & B & C).
    + intros; apply Hno; simpl; auto.
    + intros s. rewrite HK1, !in_app_iff, HK. tauto.
    + eapply e_equiv_trans; [exact Hg1|]. rewrite (apply_same K K0 o g HK). now apply apply_equiv.
    + simpl. destruct (e_history seqb mn me c (K0 ++ given o) l (e_apply seqb mn me c K0 o g0)) as [xs gx]. simpl in *.
      split; [constructor; auto; now apply answer_same|]. split; auto. intros s. rewrite C, <- app_assoc. reflexivity.
Qed.

End Abstract.

Section Main.
Context {S NP EP SE BE E : Type} (seqb : S -> S -> bool).
Context (cs : codec BE S) (cu : codec BE (Id KUlid)) (cn : codec BE NP) (ce : codec BE EP).
Context (mn : NP -> NP -> NP) (me : EP -> EP -> EP).
Context (seqb_eq : forall a b, seqb a b = true <-> a = b).
Context (Hcs : codec_ok cs) (Hcu : codec_ok cu) (Hcn : codec_ok cn) (Hce : codec_ok ce).
Notation I := (Id KUlid).
Notation rop := (rop S NP EP E).
Notation EG := (egraph S NP EP).
Notation answer := (routcome (S := S) (SE := SE) (BE := BE) (E := E)).
Notation hist := (rs_history (SE := SE) (E := E) cs cu cn ce mn me).
Notation nu := (name_now (SE := SE) cs cu).
Notation rho := (id_now (SE := SE) cs cu).
Notation sabs d := (sabs (k := KUlid) cn ce (r_trees d)).
Notation view := (RdfTop.view (S := S) (NP := NP) (EP := EP)).
Notation world := (world cs cu cn ce).
Notation knows := (knows (SE := SE) cs cu).
Notation repoch := (repoch (S := S) (NP := NP) (EP := EP) (SE := SE) (E := E)).
Notation epochs := (rs_epochs (SE := SE) (E := E) cs cu cn ce mn me).
Notation crowd := (rs_crowd (SE := SE) (E := E) cs cu cn ce mn me).
Notation start := rdb_new.
Notation none := (fun _ : bytes => False).
Implicit Types d : rdb.

Lemma rs_shows_equiv d (a b : EG) : e_equiv a b -> rs_shows SE cs cu cn ce d a -> rs_shows SE cs cu cn ce d b.
Proof.
  intros [A B] [H1 H2]. split.
  - eapply lists_ext; [|exact H1]. auto.
  - intros o. eapply lists_ext; [|apply H2]. auto.
Qed.

Lemma nothing_known : knows [] start.
Proof.
  intros n. split; [|intros []]. intros H. exfalso. apply H. unfold name_now, left_now, si_left_to_right, ret_of.
  destruct (ser cs n); reflexivity.
Qed.
Lemma view_start rhoF : view rhoF (sabs start) e_empty.
Proof. exact (view_empty rhoF). Qed.
Lemma fresh_start (own : list bytes) : NoDup own -> fresh_keys none own.
Proof. intros H. split; auto. Qed.

(** The world after the epochs. *)
Lemma epochs_world (es : list repoch) :
  NoDup (flat_map epoch_keys es) -> Forall calm es ->
  world (plus_keys none (flat_map epoch_keys es)) (epochs es start) /\
  exists K, knows K (epochs es start) /\
  forall (nuF : S -> option I) rhoF, one_to_one nuF rhoF -> below (nu (epochs es start)) nuF ->
  exists eg, view rhoF (sabs (epochs es start)) eg /\
    r_epochs (SE := SE) (BE := BE) seqb mn me (by_name rhoF) es [] e_empty K eg.
Proof.
  intros Hnd Hc.
  destruct (epochs_run seqb seqb_eq cs cu cn ce Hcs Hcu Hcn Hce mn me es none start [] (world_new cs cu cn ce none)
    (fresh_start _ Hnd) nothing_known Hc) as (W & _ & K & H1 & H2).
  split; auto. exists K. split; auto. intros nuF rhoF O B. apply (H2 nuF rhoF e_empty O B (view_start rhoF)).
Qed.

Context (Htu : codec_total cu).

Lemma main_epochs (es : list repoch) :
  NoDup (flat_map epoch_keys es) -> Forall calm es ->
  let d := epochs es start in
  one_to_one (nu d) (rho d) /\
  exists known eg, (forall s, nu d s <> None <-> In s known) /\ rs_shows SE cs cu cn ce d eg /\
    r_epochs (SE := SE) (BE := BE) seqb mn me (by_name (rho d)) es [] e_empty known eg.
Proof.
  intros Hnd Hc. cbv zeta. destruct (epochs_world es Hnd Hc) as (W & K & H1 & H2).
  pose proof (one_now (SE := SE) cs cu Hcs Hcu _ (proj1 W)) as One. split; auto.
  destruct (H2 _ _ One (below_refl _)) as (eg & V & T). exists K, eg. split; [exact H1|]. split; auto.
  eapply world_shows; eauto.
Qed.

Lemma keys_app (es es' : list repoch) : flat_map epoch_keys (es ++ es') = flat_map epoch_keys es ++ flat_map epoch_keys es'.
Proof. apply flat_map_app. Qed.
Lemma epochs_app (es es' : list repoch) d : epochs (es ++ es') d = epochs es' (epochs es d).
Proof. apply fold_left_app. Qed.

Lemma main_stable (es es' : list repoch) :
  NoDup (flat_map epoch_keys (es ++ es')) -> Forall calm (es ++ es') ->
  let d := epochs es start in let d' := epochs (es ++ es') start in
  (forall s i, nu d s = Some i -> nu d' s = Some i) /\ (forall i s, rho d i = Some s -> rho d' i = Some s).
Proof.
  intros Hnd Hc. cbv zeta. rewrite keys_app in Hnd. apply Forall_app in Hc. destruct Hc as [Hc1 Hc2].
  pose proof (NoDup_app_iff (flat_map epoch_keys es) (flat_map epoch_keys es')) as [Hn _]. destruct (Hn Hnd) as (N1 & _ & _).
  destruct (epochs_world es N1 Hc1) as (W & K & HK & _).
  destruct (epochs_run seqb seqb_eq cs cu cn ce Hcs Hcu Hcn Hce mn me es' _ _ K W
    (fresh_tail none _ _ (fresh_start _ Hnd)) HK Hc2) as (W' & Hb & _).
  rewrite epochs_app. split; [exact Hb|].
  pose proof (one_now (SE := SE) cs cu Hcs Hcu _ (proj1 W)) as One. pose proof (one_now (SE := SE) cs cu Hcs Hcu _ (proj1 W')) as One'.
  intros i s H. apply One'. apply Hb. now apply One.
Qed.

(** A process alone, after the epochs. *)
Lemma main_answers (es : list repoch) h (l : list rop) fs :
  NoDup (flat_map epoch_keys es ++ rs_keys h l) -> Forall calm es ->
  let d := epochs es start in let d' := db_of (hist l h) fs d in
  one_to_one (nu d') (rho d') /\ (forall s i, nu d s = Some i -> nu d' s = Some i) /\
  exists known eg known' eg',
    (forall s, nu d s <> None <-> In s known) /\ (forall s, nu d' s <> None <-> In s known') /\
    r_epochs (SE := SE) (BE := BE) seqb mn me (by_name (rho d')) es [] e_empty known eg /\
    r_tracks seqb mn me (by_name (rho d')) l (fst (ret_of (hist l h) fs d)) known eg known' eg' /\
    rs_shows SE cs cu cn ce d' eg'.
Proof.
  intros Hnd Hc. cbv zeta.
  pose proof (NoDup_app_iff (flat_map epoch_keys es) (rs_keys h l)) as [Hn _]. destruct (Hn Hnd) as (N1 & _ & _).
  destruct (epochs_world es N1 Hc) as (W & K & HK & HE).
  destruct (seq_history (SE := SE) seqb seqb_eq cs cu cn ce Hcs Hcu Hcn Hce mn me 0 l h (rs_keys h l) _ _ K W
    (fresh_tail none _ _ (fresh_start _ Hnd))) as [H _]; auto.
  { rewrite Nat.add_0_r. exists [], []. now rewrite app_nil_r. }
  destruct (H fs) as (K' & (U' & own' & W' & _ & _ & _ & _ & Hb & HK') & H2). cbv zeta in H2.
  pose proof (one_now (SE := SE) cs cu Hcs Hcu _ (proj1 W')) as One. split; auto. split; auto.
  destruct (HE _ _ One Hb) as (eg & V & T). destruct (H2 _ _ eg One (below_refl _) V) as (eg' & V' & T').
  exists K, eg, K', eg'. split; [exact HK|]. split; [exact HK'|]. split; auto. split; auto. eapply world_shows; eauto.
Qed.

Lemma main_caused (es : list repoch) h (l : list rop) fs :
  NoDup (flat_map epoch_keys es ++ rs_keys h l) -> Forall calm es ->
  let d := epochs es start in
  NoDup (next_ids (rh_ulids h) (length (flat_map given l))) ->
  (forall i, In i (next_ids (rh_ulids h) (length (flat_map given l))) -> rho d i = None) ->
  forall r, In r (fst (ret_of (hist l h) fs d)) -> r_caused cs cu cn ce fs r.
Proof.
  intros Hnd Hc. cbv zeta. intros Hu1 Hu2 r Hr.
  pose proof (NoDup_app_iff (flat_map epoch_keys es) (rs_keys h l)) as [Hn _]. destruct (Hn Hnd) as (N1 & _ & _).
  destruct (epochs_world es N1 Hc) as (W & K & HK & HE).
  destruct (post_history (SE := SE) seqb seqb_eq cs cu cn ce Hcs Hcu Hcn Hce mn me (fun y => In (Some y) fs) 0 0 l h (epochs es start)) with (fs := fs)
    as [B _]; [|intros y Hy; exact Hy|].
  { exists (plus_keys none (flat_map epoch_keys es)), (rs_keys h l). split; auto.
    split; [apply (fresh_tail none _ _ (fresh_start _ Hnd))|].
    split; [rewrite Nat.add_0_r; exists [], []; now rewrite app_nil_r|]. rewrite Nat.add_0_r. split; auto. }
  rewrite Forall_forall in B. apply B in Hr. destruct r as [[]|[[n|y|y]|e]]; simpl in *; auto.
Qed.

(** The storage works and the serialisers refuse nothing. *)
Lemma main_works (es : list repoch) h (l : list rop) :
  codec_total cs -> codec_total cn -> codec_total ce ->
  NoDup (flat_map epoch_keys es ++ rs_keys h l) -> Forall calm es ->
  let d := epochs es start in
  NoDup (next_ids (rh_ulids h) (length (flat_map given l))) ->
  (forall i, In i (next_ids (rh_ulids h) (length (flat_map given l))) -> rho d i = None) ->
  forall r, In r (fst (ret_of (hist l h) [] d)) -> r_failed r = false.
Proof.
  intros Ts Tn Te Hnd Hc. cbv zeta. intros Hu1 Hu2 r Hr.
  pose proof (main_caused es h l [] Hnd Hc Hu1 Hu2 r Hr) as B.
  destruct r as [[]|[y|e]]; auto. destruct y as [y|y|n]; auto; destruct y; simpl in *; try contradiction;
    destruct B as [[p B]|[p B]]; solve [destruct (Ts p); congruence|destruct (Htu p); congruence|destruct (Tn p); congruence|destruct (Te p); congruence].
Qed.

(** ** Readers *)
Lemma shows_view U d eg : world U d -> rs_shows SE cs cu cn ce d eg -> view (rho d) (sabs d) eg.
Proof.
  intros W [S1 S2]. pose proof (one_now (SE := SE) cs cu Hcs Hcu _ (proj1 W)) as One.
  pose proof (view_lift _ _ One (sabs d)) as V.
  destruct (world_shows (SE := SE) cs cu cn ce Hcs Htu U d _ W V) as [S1' S2'].
  assert (forall n, e_node eg n = e_node (RdfTop.lift (nu d) (rho d) (sabs d)) n) as A.
  { apply (lists_fun _ _ _ _ S1 S1'). }
  assert (forall t, e_edge eg t = e_edge (RdfTop.lift (nu d) (rho d) (sabs d)) t) as B.
  { apply (lists_fun _ _ _ _ (S2 SPO) (S2' SPO)). }
  split; intros; [rewrite A; apply V|rewrite B; apply V].
Qed.

Lemma main_props (es : list repoch) eg o :
  NoDup (flat_map epoch_keys es) -> Forall calm es ->
  let d := epochs es start in rs_shows SE cs cu cn ce d eg ->
  exists items, ret_of (rs_iter_edges (SE := SE) cs cu ce o) [] d = map Ok items /\
    ret_of (rs_iter_edges_with_props (SE := SE) cs cu cn ce o) [] d = map (e_full_item eg) items.
Proof.
  intros Hnd Hc. cbv zeta. intros Sh. destruct (epochs_world es Hnd Hc) as (W & _).
  apply (world_props (SE := SE) cs cu cn ce Hcs Hcu Htu _ _ eg o W). eapply shows_view; eauto.
Qed.

Lemma main_vertices (es : list repoch) :
  NoDup (flat_map epoch_keys es) -> Forall calm es ->
  let d := epochs es start in
  exists ns, ret_of (rs_iter_vertices (SE := SE) cs cu cn) [] d = map Ok ns /\
    ret_of (rs_vertices (SE := SE) cs cu) [] d = Ok (map fst ns).
Proof.
  intros Hnd Hc. cbv zeta. destruct (epochs_world es Hnd Hc) as (W & _).
  pose proof (one_now (SE := SE) cs cu Hcs Hcu _ (proj1 W)) as One.
  eapply (world_vertices (SE := SE) cs cu cn ce Hcs Htu); eauto. apply (view_lift _ _ One).
Qed.

Lemma main_faults (es : list repoch) fs :
  NoDup (flat_map epoch_keys es) -> Forall calm es ->
  let d := epochs es start in
  (let p := rs_iter_vertices (SE := SE) cs cu cn in db_of p fs d = d /\ but_for_faults fs (ret_of p [] d) (ret_of p fs d)) /\
  (forall o, let p := rs_iter_edges (SE := SE) cs cu ce o in db_of p fs d = d /\ but_for_faults fs (ret_of p [] d) (ret_of p fs d)) /\
  (forall o, let p := rs_iter_edges_with_props (SE := SE) cs cu cn ce o in db_of p fs d = d /\ but_for_faults fs (ret_of p [] d) (ret_of p fs d)).
Proof.
  intros Hnd Hc. cbv zeta. destruct (epochs_world es Hnd Hc) as (W & _).
  apply (readers_faults (SE := SE) cs cu cn ce Hcs Htu). apply W.
Qed.

Lemma main_run (es : list repoch) eg q g u fs :
  NoDup (flat_map epoch_keys es) -> Forall calm es ->
  let d := epochs es start in rs_shows SE cs cu cn ce d eg ->
  (forall s, In (EString s) (mentioned q) -> nu d s <> None) ->
  let q' := query_map (by_name (rho d)) q in
  (forall qi m, query_map (shown (rho d)) qi = q' -> now SE (s_run (BE := BE) cn ce g qi) (r_trees d) = Ok m ->
     drawn_distinct (id_generator m)) ->
  let p := rs_run (SE := SE) cs cu cn ce seqb g u q in
  db_of p fs d = d /\
  (ret_of p fs d = ret_of p [] d \/ exists e, faulty fs e /\ ret_of p fs d = Err (LeftE e)) /\
  (forall es, matching q' eg es -> ((exists r', ret_of p [] d = Ok r') <-> NoDup (flat_map names_of es))) /\
  match ret_of p [] d with
  | Ok r' => exists eg', rdf_shows r' eg' /\ e_answers q' eg eg' /\
      forall s i, left_to_right seqb (name_index r') s = Some i -> nu d s = Some i
  | Err x => exists s i, x = RightE (NameIndexStorageError (DuplicateRight s i i)) /\ nu d s = Some i
  end.
Proof.
  intros Hnd Hc d Sh Kn q' Nr p. destruct (epochs_world es Hnd Hc) as (W & _). fold d in W.
  destruct (run_spec (SE := SE) seqb seqb_eq cs cu cn ce Hcs Hcu Htu _ d W eg (shows_view _ d eg W Sh) q g u Kn Nr) as (v & Hv & H1 & H2).
  assert (ret_of p [] d = v) as Hnow.
  { destruct (wp_exec _ _ _ p [] d (allowed_nil _) (Hv (fun _ => False))) as (_ & [H|(e & (y & [] & _) & _)] & _); auto. }
  rewrite Hnow. destruct (wp_exec _ _ _ p fs d (fun y Hy => Hy) (Hv (fun y => In (Some y) fs))) as (D & H & _).
  split; auto.
Qed.

Lemma main_run_unknown (es : list repoch) q g u s :
  codec_total cs -> NoDup (flat_map epoch_keys es) -> Forall calm es ->
  let d := epochs es start in In (EString s) (mentioned q) -> nu d s = None ->
  let p := rs_run (NP := NP) (EP := EP) (SE := SE) cs cu cn ce seqb g u q in
  exists s', In (EString s') (mentioned q) /\ nu d s' = None /\
    forall fs, db_of p fs d = d /\
      (ret_of p fs d = Err (LeftE (NameNotFound s')) \/ exists e, faulty fs e /\ ret_of p fs d = Err (LeftE e)).
Proof.
  intros Ts Hnd Hc d Hs Hn p. destruct (epochs_world es Hnd Hc) as (W & _). fold d in W.
  destruct (run_unknown (SE := SE) seqb cs cu cn ce Hcu d g u q s (proj1 W) Hs Hn Ts) as (s' & H1 & H2 & H3).
  exists s'. split; auto. split; auto. intros fs.
  destruct (wp_exec _ _ _ p fs d (fun y Hy => Hy) (H3 (fun y => In (Some y) fs))) as (D & H & _). auto.
Qed.

(** ** Several callers that add *)
Lemma main_together (es : list repoch) (k : rcrowd) :
  NoDup (flat_map epoch_keys (es ++ [Together k])) -> Forall calm (es ++ [Together k]) ->
  let d := epochs es start in let pd := crowd k d in let d' := snd pd in
  let ls := map snd (rc_callers k) in
  one_to_one (nu d') (rho d') /\ (forall s i, nu d s = Some i -> nu d' s = Some i) /\
  exists known eg known' ss s,
    (forall s, nu d s <> None <-> In s known) /\ (forall s, nu d' s <> None <-> In s known') /\
    named (flat_map given (concat ls)) known known' /\
    r_epochs (SE := SE) (BE := BE) seqb mn me (by_name (rho d')) es [] e_empty known eg /\
    Forall2 (r_log_so_far (SE := SE) (BE := BE) seqb) ls ss /\ shuffle ss s /\
    (forall i l rs h', nth_error ls i = Some l -> nth_error (fst pd) i = Some (Ret (rs, h')) ->
       exists si, nth_error ss i = Some si /\ r_log seqb l rs si) /\
    rs_shows SE cs cu cn ce d' (e_run seqb mn me (by_name (rho d')) [] s eg).
Proof.
  intros Hnd Hc. cbv zeta. rewrite keys_app in Hnd. apply Forall_app in Hc. destruct Hc as [Hc1 Hc2].
  inversion_clear Hc2 as [|? ? Hk _]. simpl in Hk.
  pose proof (NoDup_app_iff (flat_map epoch_keys es) (flat_map epoch_keys [Together k])) as [Hn _]. destruct (Hn Hnd) as (N1 & _ & _).
  destruct (epochs_world es N1 Hc1) as (W & K & HK & HE).
  pose proof (fresh_tail none _ _ (fresh_start _ Hnd)) as Hf. simpl in Hf. rewrite app_nil_r in Hf.
  destruct (crowd_runs seqb seqb_eq cs cu cn ce Hcs Hcu Hcn Hce mn me _ _ K (rc_callers k) (rc_schedule k) W Hf HK)
    as (W' & Hb & K' & HK' & Hnm & ss & s & H1 & H2 & H3 & H4).
  { apply Forall_map. exact Hk. }
  fold (crowd k (epochs es start)) in W', Hb, HK', H3, H4.
  pose proof (one_now (SE := SE) cs cu Hcs Hcu _ (proj1 W')) as One. split; auto. split; auto.
  destruct (HE _ _ One Hb) as (eg & V & T). exists K, eg, K', ss, s. split; [exact HK|]. split; [exact HK'|]. split; auto. split; auto.
  split; auto. split; auto. split; auto. eapply world_shows; eauto. apply (H4 _ _ eg One (below_refl _) V).
Qed.

(** ** Next to the store over Mem *)
Lemma main_history h (l : list rop) fs :
  NoDup (rs_keys h l) ->
  let rs := fst (ret_of (hist l h) fs start) in let d := db_of (hist l h) fs start in
  (forall r, In r rs -> r_failed r = false) ->
  one_to_one (nu d) (rho d) /\ (forall s, nu d s <> None <-> In s (flat_map given l)) /\
  Forall2 same_answer (fst (e_history seqb mn me (by_name (rho d)) [] l e_empty)) rs /\
  rs_shows SE cs cu cn ce d (snd (e_history seqb mn me (by_name (rho d)) [] l e_empty)).
Proof.
  intros Hnd rs d Hno.
  destruct (main_answers [] h l fs Hnd (Forall_nil _)) as (One & _ & known & eg & known' & eg' & H1 & H2 & [H3 H3'] & H4 & H5).
  change (epochs [] start) with start in *. fold rs in H4. fold d in One, H2, H3, H4, H5.
  destruct (tracks_history seqb mn me (by_name (rho d)) l rs known eg known' eg' [] e_empty H4 Hno H3 H3') as (A & B & C).
  split; auto. split; [intros s; rewrite H2; apply C|]. split; auto. eapply rs_shows_equiv; eauto.
Qed.

Lemma main_backends h (l : list rop) fs g u xs (r : rdf S NP EP) :
  NoDup (rs_keys h l) ->
  let rs := fst (ret_of (hist l h) fs start) in let d := db_of (hist l h) fs start in
  (forall r, In r rs -> r_failed r = false) ->
  (forall i, In (EUlid i) (flat_map entities_of l) -> rho d i = None) ->
  rdf_history seqb mn me l (rdf_new g u) = (xs, r) ->
  drawn_distinct (r_ulids r) -> drawn_distinct (id_generator (r_graph r)) ->
  (forall i n, In (EUlid i) (flat_map entities_of l) -> n < g_pos (r_ulids r) -> g_seq (r_ulids r) n <> i) ->
  Forall2 same_answer xs rs /\
  exists eg, rdf_shows r eg /\ rs_shows SE cs cu cn ce d eg.
Proof.
  intros Hnd rs d Hno Hf Hx D1 D2 D3.
  destruct (main_history h l fs Hnd Hno) as (_ & _ & A & B). fold rs d in A, B.
  destruct (top_rdf_plain seqb seqb_eq mn me l g u xs r Hx D1 D2 D3) as [-> C].
  rewrite (e_history_ext seqb mn me (by_name (rho d)) (fun e => e)) in A, B.
  - split; eauto.
  - intros [s|i] He; simpl; auto. unfold shown. now rewrite (Hf i He).
  - intros [s|i] He; simpl; auto. unfold shown. now rewrite (Hf i He).
Qed.

End Main.
