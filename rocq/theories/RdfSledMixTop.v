(** Callers of an RdfTripleStore over sled that make calls of every kind at the same time. *)
From Coq Require Import Arith NArith List Bool Sorted Lia.
From Verif Require Import Bytes BytesFacts OMap OMapFacts Core IdType IdTypeFacts Store Mem Spec GenSpec
  CodecFacts ListFacts MemSim History Prog ProgFacts Sled SledHistory SledSched SledLeaf SledDb SledOps SledBulk
  SledRun SledRead SledTop SledMain SledCrash SledConc SledIndex SledIndexFacts SledTornSpec Rdf RdfSpec RdfTop RdfSled RdfSledSpec
  RdfSledLeaf RdfSledSafe RdfSledConc RdfSledTop SledConcTop SledOwnOps SledMixSpec SledMixMain
  RdfSledMixSpec RdfSledMixSim RdfSledMixOk RdfSledMixRun RdfSledMixAll.
Import ListNotations.

(** ** Shuffles *)
Lemma shuffle_map_inv {A B} (f : A -> B) ls r0 : shuffle ls r0 -> forall tls, ls = map (map f) tls ->
  exists r, shuffle tls r /\ r0 = map f r.
Proof.
  induction 1 as [ls H|ls i x l r Hn _ IH]; intros tls ->.
  - exists []. split; auto. constructor. apply Forall_forall. intros t Ht. rewrite Forall_forall in H.
    specialize (H (map f t) (in_map _ _ _ Ht)). destruct t; [auto|discriminate].
  - rewrite nth_error_map in Hn. destruct (nth_error tls i) as [t|] eqn:Ht; [|discriminate]. injection Hn as Hn.
    destruct t as [|y t]; [discriminate|]. injection Hn as <- <-.
    destruct (IH (replace_nth i t tls)) as (r1 & H1 & ->); [now rewrite map_replace|].
    exists (y :: r1). split; auto. econstructor; eauto.
Qed.
Lemma shuffle_map {A B} (f : A -> B) ls r : shuffle ls r -> shuffle (map (map f) ls) (map f r).
Proof.
  induction 1 as [ls H|ls i x l r Hn _ IH]; simpl.
  - constructor. apply Forall_map. eapply Forall_impl; [|exact H]. now intros a ->.
  - econstructor; [rewrite nth_error_map, Hn; reflexivity|]. rewrite map_replace in IH. exact IH.
Qed.

Lemma shuffle_in {A} (ls : list (list A)) r : shuffle ls r -> forall x, In x r -> exists l, In l ls /\ In x l.
Proof.
  induction 1 as [ls H|ls i y l r Hn _ IH]; intros x Hx; [destruct Hx|]. destruct Hx as [<-|Hx].
  - exists (y :: l). split; [eapply nth_error_In; eauto|simpl; auto].
  - destruct (IH x Hx) as (m & Hm & Hx'). apply In_nth_error in Hm. destruct Hm as [j Hj]. destruct (Nat.eq_dec j i) as [->|Hne].
    + rewrite (nth_replace_eq ls i l (y :: l) Hn) in Hj. injection Hj as <-. exists (y :: l). split; [eapply nth_error_In; eauto|simpl; auto].
    + rewrite nth_replace_neq in Hj by auto. exists m. split; auto. eapply nth_error_In; eauto.
Qed.
Lemma in_shuffle {A} (ls : list (list A)) r : shuffle ls r -> forall x l, In l ls -> In x l -> In x r.
Proof.
  induction 1 as [ls H|ls i y l r Hn _ IH]; intros x m Hm Hx.
  - rewrite Forall_forall in H. rewrite (H m Hm) in Hx. destruct Hx.
  - apply In_nth_error in Hm. destruct Hm as [j Hj]. destruct (Nat.eq_dec j i) as [->|Hne].
    + rewrite Hn in Hj. injection Hj as <-. destruct Hx as [<-|Hx]; [left; auto|]. right. apply (IH x l); auto.
      eapply nth_error_In. eapply nth_replace_eq; eauto.
    + right. apply (IH x m); auto. apply (nth_error_In _ j). now rewrite nth_replace_neq by auto.
Qed.
Lemma nth_combine_inv {A B} (l : list A) (l' : list B) i a b : nth_error (combine l l') i = Some (a, b) -> nth_error l i = Some a /\ nth_error l' i = Some b.
Proof. rewrite nth_combine. destruct (nth_error l i), (nth_error l' i); try discriminate. now intros [= -> ->]. Qed.
Lemma nth_combine_some {A B} (l : list A) (l' : list B) i a b : nth_error l i = Some a -> nth_error l' i = Some b -> nth_error (combine l l') i = Some (a, b).
Proof. intros H1 H2. now rewrite nth_combine, H1, H2. Qed.

Lemma len2 {A B} {R : A -> B -> Prop} {l l'} : Forall2 R l l' -> length l = length l'.
Proof. induction 1; simpl; auto. Qed.

Section Top.
Context {S NP EP SE BE E : Type} (seqb : S -> S -> bool) (seqb_eq : forall a b, seqb a b = true <-> a = b).
Context (cs : codec BE S) (cu : codec BE (Id KUlid)) (cn : codec BE NP) (ce : codec BE EP).
Context (Hcs : codec_ok cs) (Hcu : codec_ok cu) (Hcn : codec_ok cn) (Hce : codec_ok ce).
Context (mn : NP -> NP -> NP) (me : EP -> EP -> EP).
Notation I := (Id KUlid).
Notation rop := (rop S NP EP E).
Notation op := (op KUlid NP EP E).
Notation nu := (name_now (SE := SE) cs cu).
Notation idx_ok := (index_ok cs cu).
Notation ids := (S -> option I).
Notation SE' := (option SE).
Notation outcome := (outcome (SE := SE') (BE := BE) (E := E)).
Notation answer := (routcome (S := S) (SE := SE) (BE := BE) (E := E)).
Notation entry := (rop * (cutting * op))%type.
Notation G := (graph KUlid NP EP).
Notation EG := (egraph S NP EP).
Notation sabs d := (SledDb.sabs (k := KUlid) cn ce (r_trees d)).
Notation world := (RdfSledSafe.world cs cu cn ce).
Notation knows := (knows (SE := SE) cs cu).
Implicit Types d : rdb.
Implicit Types M : S -> option I.

(** ** The calls that took effect *)
Inductive took : list (rop * bool) -> list rop -> Prop :=
| Took_nil : took [] []
| Took_done o b fl s : b = true \/ removes_edge o -> took fl s -> took ((o, b) :: fl) (o :: s)
| Took_not o fl s : took fl s -> took ((o, false) :: fl) s.

Lemma took_app a b s : took (a ++ b) s -> exists s1 s2, s = s1 ++ s2 /\ took a s1 /\ took b s2.
Proof.
  revert s. induction a as [|[o x] a IH]; intros s H.
  - exists [], s. split; auto. split; auto. constructor.
  - inversion H as [|o' b' fl' s' Ho Ht|o' fl' s' Ht]; subst; destruct (IH _ Ht) as (s1 & s2 & -> & H1 & H2).
    + exists (o :: s1), s2. split; auto. split; auto. now constructor.
    + exists s1, s2. split; auto. split; auto. now constructor.
Qed.
Lemma took_trues l s : took (trues l) s -> s = l.
Proof. revert s. induction l as [|o l IH]; intros s H; inversion H; subst; auto. f_equal. now apply IH. Qed.
Lemma parts_removal (o x : rop) : In x (parts o) -> removes_edge x -> removes_edge o.
Proof.
  destruct o; simpl; try (intros [<-|[]]; tauto); intros H Hx; apply in_app_iff in H;
    destruct H as [H|H]; apply in_map_iff in H; destruct H as (y & <- & _); destruct Hx.
Qed.
Lemma took_cut (o : rop) j fl s : cut_at (parts o) j fl -> took fl s ->
  exists n, (j < length (parts o) -> n < length (parts o) \/ removes_edge o) /\ s = firstn n (parts o).
Proof.
  intros [->|(x & Hx & ->)] Ht.
  - apply took_trues in Ht. exists j. auto.
  - apply took_app in Ht. destruct Ht as (s1 & s2 & -> & H1 & H2). apply took_trues in H1. subst s1.
    inversion H2 as [|o' b' fl' s' Ho Hn|o' fl' s' Hn]; subst; inversion Hn; subst.
    + destruct Ho as [Ho|Ho]; [discriminate|]. exists (Datatypes.S j). split.
      * intros _. right. eapply parts_removal; eauto. eapply nth_error_In; eauto.
      * clear -Hx. revert Hx. generalize (parts o). induction j as [|j IH]; intros [|y l] H; simpl in *; try discriminate; [congruence|].
        f_equal. now apply IH.
    + exists j. rewrite app_nil_r. auto.
Qed.

Section Log.
Context (T : ids -> Prop) (kn : ids -> list S) (K K' : list S) (M : ids).
Context (HK : forall M0, T M0 -> below M0 M -> incl K (kn M0) /\ incl (kn M0) K').
Lemma log_of (l : list rop) : forall rs fl s, logged (SE := SE) (BE := BE) seqb T kn M l rs fl -> took fl s -> r_log_among seqb K K' l rs s.
Proof.
  induction l as [|o l IH]; intros [|r rs] fl s; simpl; auto.
  - intros ->. now inversion 1.
  - intros (f1 & f2 & -> & H2 & H1) Ht. apply took_app in Ht. destruct Ht as (s1 & s2 & -> & T1 & T2). exists s1, s2.
    split; auto. split; [eapply IH; eauto|]. unfold RdfSledMixOk.called in H1. destruct (r_failed r).
    + destruct H1 as (j & Hj & Hc). destruct (took_cut _ _ _ _ Hc T1) as (n & Hn & ->). exists n. auto.
    + destruct H1 as (M0 & A1 & A2 & A3 & A4). destruct (HK M0 A1 A2) as [B1 B2]. exists (kn M0). split; auto. split; auto. split; auto.
      destruct r as [[]|[e|e]]; subst f1; try (now apply took_trues in T1). now inversion T1.
Qed.
Lemma so_far_of (l : list rop) fl s : so_far (SE := SE) (BE := BE) seqb T kn M l fl -> took fl s ->
  r_log_among_so_far (SE := SE) (BE := BE) seqb K K' l s.
Proof.
  intros (l1 & l2 & rs & f1 & f2 & -> & -> & H1 & H2) Ht. apply took_app in Ht. destruct Ht as (s1 & s2 & -> & T1 & T2).
  exists l1, l2, rs, s1. split; auto. split; [eapply log_of; eauto|]. destruct l2 as [|o l2].
  - subst f2. inversion T2. now rewrite app_nil_r.
  - destruct H2 as (j & Hc). destruct (took_cut _ _ _ _ Hc T2) as (n & _ & ->). eauto.
Qed.
End Log.

(** ** The graph *)
Notation tag := (rop * (op * outcome))%type.
Definition tag_flag (x : tag) : rop * bool := (fst x, succeeded (snd (snd x))).
Definition tag_op (x : tag) : rop * op := (fst x, fst (snd x)).
Inductive acted : list tag -> list (rop * op) -> Prop :=
| Act_nil : acted [] []
| Act_done x l s : succeeded (snd (snd x)) = true \/ removes_edge (fst x) -> acted l s -> acted (x :: l) (tag_op x :: s)
| Act_not x l s : succeeded (snd (snd x)) = false -> acted l s -> acted (x :: l) s.
Lemma acted_took l s : acted l s -> took (map tag_flag l) (map fst s).
Proof.
  induction 1 as [|x l s H _ IH|x l s H _ IH]; simpl.
  - constructor.
  - now constructor.
  - unfold tag_flag at 1. rewrite H. now constructor.
Qed.
Lemma acted_in l s : acted l s -> forall y, In y s -> exists x, In x l /\ y = tag_op x.
Proof.
  induction 1 as [|x l s H _ IH|x l s H _ IH]; simpl; intros y Hy; [destruct Hy| |].
  - destruct Hy as [<-|Hy]; [eauto|]. destruct (IH y Hy) as (z & Hz & ->). eauto.
  - destruct (IH y Hy) as (z & Hz & ->). eauto.
Qed.

Definition run_ops (l : list op) (g : G) : G := fold_left (fun g o => spec_apply mn me o g) l g.
Lemma run_ops_equiv l : forall g g' : G, g_equiv g g' -> g_equiv (run_ops l g) (run_ops l g').
Proof. induction l as [|o l IH]; intros g g' H; simpl; auto. apply IH. now apply SledTorn.spec_apply_equiv. Qed.

Lemma moves_acted tls tr : shuffle tls tr -> forall g g' : G, moves mn me (map snd tr) g g' ->
  (forall x, In x tr -> exists M, stands M (fst x) (fst (snd x))) ->
  exists ss s, Forall2 acted tls ss /\ shuffle ss s /\ g_equiv g' (run_ops (map snd s) g).
Proof.
  induction 1 as [ls H|ls i x l r Hn _ IH]; intros g g' Hm Hst; simpl in Hm.
  - exists (map (fun _ => []) ls), []. split; [|split; [|exact Hm]].
    + clear -H. induction H as [|a ls -> _ IH]; simpl; constructor; auto. constructor.
    + constructor. apply Forall_map. apply Forall_forall. auto.
  - destruct x as [ro [o rs]]. cbn [snd fst] in Hm. destruct Hm as (g1 & Hg1 & Hm).
    destruct (IH g1 g' Hm) as (ss & s & F1 & F2 & F3); [intros y Hy; apply Hst; simpl; auto|].
    assert (exists si, nth_error ss i = Some si /\ acted l si) as (si & Hsi & Ha).
    { apply (Forall2_nth_l _ _ _ _ _ F1). eapply nth_replace_eq; eauto. }
    assert (forall si', acted ((ro, (o, rs)) :: l) si' -> Forall2 acted ls (replace_nth i si' ss)) as Hup.
    { intros si' Hsi'. replace ls with (replace_nth i ((ro, (o, rs)) :: l) (replace_nth i l ls)).
      - now apply Forall2_replace.
      - rewrite replace_twice. now apply replace_same. }
    assert (forall g2, g_equiv g1 (spec_apply mn me o g2) -> g_equiv g' (run_ops (o :: map snd s) g2)) as Hrun.
    { intros g2 H2. eapply g_equiv_trans; [exact F3|]. simpl. now apply run_ops_equiv. }
    assert (succeeded rs = true \/ removes_edge ro -> g_equiv g1 (spec_apply mn me o g) ->
      exists ss s, Forall2 acted ls ss /\ shuffle ss s /\ g_equiv g' (run_ops (map snd s) g)) as Hdone.
    { intros Hd H2. exists (replace_nth i ((ro, o) :: si) ss), ((ro, o) :: s). split; [|split].
      - apply Hup. apply (Act_done (ro, (o, rs))); auto.
      - econstructor; [eapply nth_replace_eq; eauto|]. rewrite replace_twice, replace_same by auto. exact F2.
      - now apply Hrun. }
    unfold moved in Hg1. destruct (succeeded rs) eqn:Q.
    + destruct Hg1 as [_ H2]. apply Hdone; auto.
    + destruct Hg1 as [H2|[H2 H3]].
      * exists ss, s. split; [|split; [exact F2|]].
        -- rewrite <- (replace_same ss i si Hsi). apply Hup. now apply Act_not.
        -- eapply g_equiv_trans; [exact F3|]. now apply run_ops_equiv.
      * apply Hdone; auto. right. destruct (Hst (ro, (o, rs))) as [M HM]; simpl; auto. cbn [fst snd] in HM.
        destruct o; try contradiction. destruct ro; simpl in HM; try contradiction; destruct HM as (y & _ & HM); try discriminate; exact Logic.I.
Qed.

(** ** The graph over entities *)
Lemma den_known K d e i : knows K d -> den (nu d) e i -> first_unknown seqb K (name_of e) = None.
Proof.
  intros HK. destruct e as [n|j]; cbn [name_of den]; intros H; [|reflexivity]. rewrite (known_first seqb seqb_eq cs cu K d n HK). now rewrite H.
Qed.
Lemma den3_known K d t u : knows K d -> den3 (nu d) t u -> first_unknown seqb K (names_of t) = None.
Proof.
  intros HK (H1 & H2 & H3). unfold names_of. rewrite !first_unknown_app.
  now rewrite (den_known K d _ _ HK H1), (den_known K d _ _ HK H2), (den_known K d _ _ HK H3).
Qed.
Lemma view_stands (nuF : ids) rhoF K d (o : rop) (x : op) (g : G) (eg : EG) :
  one_to_one nuF rhoF -> below (nu d) nuF -> knows K d -> stands (nu d) o x -> RdfTop.view rhoF g eg ->
  RdfTop.view rhoF (spec_apply mn me x g) (e_apply seqb mn me (by_name rhoF) K o eg).
Proof.
  intros O B HK Hs V. destruct o as [e p|t p|e|t|e p|t p|q|q]; try (now apply (view_single seqb seqb_eq mn me nuF rhoF K (nu d)));
    simpl in Hs; try contradiction; destruct Hs as (i & Hi & ->); simpl.
  - rewrite (den_known K d e i HK Hi), (den_shown nuF rhoF _ e i O B Hi). now apply (view_del_node seqb seqb_eq _ _ O).
  - rewrite (den3_known K d t i HK Hi), (den3_shown nuF rhoF _ t i O B Hi). now apply (view_del_edge seqb seqb_eq _ _ O).
Qed.
Lemma view_run (nuF : ids) rhoF K d (s : list (rop * op)) : one_to_one nuF rhoF -> below (nu d) nuF -> knows K d ->
  (forall x, In x s -> stands (nu d) (fst x) (snd x)) -> forall (g : G) (eg : EG), RdfTop.view rhoF g eg ->
  RdfTop.view rhoF (run_ops (map snd s) g) (e_run seqb mn me (by_name rhoF) K (map fst s) eg).
Proof.
  intros O B HK. induction s as [|[o x] s IH]; intros Hs g eg V; simpl; auto.
  apply IH; [intros y Hy; apply Hs; simpl; auto|]. eapply view_stands; eauto. apply (Hs (o, x)). simpl. auto.
Qed.

(** ** Keys *)
Lemma drawn_ops (es : list entry) : sum (map draws (on_ops es)) = drawn es.
Proof. unfold on_ops, drawn. now rewrite map_map. Qed.
Lemma one_ulids (l : list op) : Forall one_op l -> sum (map draws_ulid l) = 0.
Proof. induction 1 as [|o l H _ IH]; simpl; auto. rewrite IH. destruct o; simpl in *; auto; contradiction. Qed.
Lemma fits_one M (es : list entry) : fits M es -> Forall one_op (on_ops es).
Proof. induction 1 as [|e es H _ IH]; simpl; constructor; auto. eapply stands_one; eauto. Qed.
Lemma keys_part M (h : rhandle) (es : list entry) (l : list rop) : fits M es -> drawn es <= sum (map r_draws l) ->
  exists r, rs_keys h l = history_keys (rh_graph h) (on_ops es) ++ r.
Proof.
  intros Hf Hd. unfold history_keys. rewrite (one_ulids _ (fits_one _ _ Hf)), drawn_ops. simpl. rewrite app_nil_r. unfold rs_keys.
  destruct (SledOwnOps.next_ids_app (h_gen (rh_graph h)) (drawn es) (sum (map r_draws l) - drawn es)) as [x Hx].
  replace (drawn es + (sum (map r_draws l) - drawn es)) with (sum (map r_draws l)) in Hx by lia. rewrite Hx, map_app. eauto.
Qed.
Lemma keys_all (callers : list (rhandle * list rop)) : forall (ess : list (list entry)),
  length ess = length callers ->
  (forall i h l es, nth_error callers i = Some (h, l) -> nth_error ess i = Some es -> exists r, rs_keys h l = history_keys (rh_graph h) (on_ops es) ++ r) ->
  let ks := session_keys (combine (map (fun hl => rh_graph (fst hl)) callers) (map on_ops ess)) in
  (NoDup (callers_keys callers) -> NoDup ks) /\ incl ks (callers_keys callers).
Proof.
  induction callers as [|[h l] callers IH]; intros [|es ess] Hl H; try discriminate; cbn [map combine session_keys flat_map callers_keys fst snd].
  - split; auto. apply incl_refl.
  - injection Hl as Hl. destruct (IH ess Hl) as [A B]. { intros i h' l' es' H1 H2. exact (H (Datatypes.S i) h' l' es' H1 H2). }
    destruct (H 0 h l es eq_refl eq_refl) as [r Hr]. rewrite Hr. split.
    + intros Hn. rewrite <- app_assoc in Hn. apply NoDup_app_iff in Hn. destruct Hn as (N1 & N2 & N3). apply NoDup_app_iff in N2.
      destruct N2 as (_ & N2 & _). apply NoDup_app_iff. split; auto. split; [now apply A|]. intros x Hx Hx'. apply (N3 x Hx), in_app_iff. right. now apply B.
    + intros x Hx. apply in_app_iff in Hx. apply in_app_iff. destruct Hx as [Hx|Hx]; [left; apply in_app_iff; auto|right; now apply B].
Qed.

(** ** The calls of a caller *)
Lemma cut_in (l : list rop) j fl : cut_at l j fl -> forall x, In x fl -> In (fst x) l.
Proof.
  assert (forall x, In x (trues (firstn j l)) -> In (fst x) l) as Ht.
  { intros x Hx. unfold trues in Hx. apply in_map_iff in Hx. destruct Hx as (y & <- & Hy). simpl. rewrite <- (firstn_skipn j l). apply in_app_iff. auto. }
  intros [->|(y & Hy & ->)] x Hx; auto. apply in_app_iff in Hx. destruct Hx as [Hx|[<-|[]]]; auto. simpl. eapply nth_error_In; eauto.
Qed.
Lemma logged_in T kn M (l : list rop) : forall rs fl, logged (SE := SE) (BE := BE) seqb T kn M l rs fl ->
  forall x, In x fl -> exists o, In o l /\ In (fst x) (parts o).
Proof.
  induction l as [|o l IH]; intros [|r rs] fl; simpl; try contradiction.
  - intros -> x [].
  - intros (f1 & f2 & -> & H2 & H1) x Hx. apply in_app_iff in Hx. destruct Hx as [Hx|Hx].
    + exists o. split; auto. unfold RdfSledMixOk.called in H1. destruct (r_failed r).
      * destruct H1 as (j & _ & Hc). eapply cut_in; eauto.
      * destruct H1 as (M0 & _ & _ & _ & A4).
        assert (In x (trues (parts o)) -> In (fst x) (parts o)) as Ht.
        { unfold trues. intros Ht. apply in_map_iff in Ht. destruct Ht as (y & <- & Hy). exact Hy. }
        destruct r as [[]|[e|e]]; subst f1; auto. destruct Hx.
    + destruct (IH _ _ H2 x Hx) as (o' & A & B). eauto.
Qed.
Lemma so_far_in T kn M (l : list rop) fl : so_far (SE := SE) (BE := BE) seqb T kn M l fl ->
  forall x, In x fl -> exists o, In o l /\ In (fst x) (parts o).
Proof.
  intros (l1 & l2 & rs & f1 & f2 & -> & -> & H1 & H2) x Hx. apply in_app_iff in Hx. destruct Hx as [Hx|Hx].
  - destruct (logged_in _ _ _ _ _ _ H1 x Hx) as (o & A & B). exists o. split; auto. apply in_app_iff. auto.
  - destruct l2 as [|o l2]; [subst f2; destruct Hx|]. destruct H2 as (j & Hc). exists o. split; [apply in_app_iff; simpl; auto|]. eapply cut_in; eauto.
Qed.

Definition tags (es : list entry) (os : list outcome) : list tag := combine (map fst es) (combine (on_ops es) os).
Lemma tags_flags es : forall os, length os = length es -> map tag_flag (tags es os) = marks es os.
Proof.
  induction es as [|e es IH]; intros [|o os] H; try discriminate; auto. injection H as H.
  unfold tags, marks in *. simpl. now rewrite (IH os H).
Qed.
Lemma tags_snd es : forall os, length os = length es -> map snd (tags es os) = combine (on_ops es) os.
Proof.
  induction es as [|e es IH]; intros [|o os] H; try discriminate; auto. injection H as H.
  unfold tags, on_ops in *. simpl. now rewrite (IH os H).
Qed.
Lemma tags_fits M es : fits M es -> forall os x, In x (tags es os) -> stands M (fst x) (fst (snd x)).
Proof.
  induction 1 as [|e es H _ IH]; intros os x Hx; [destruct Hx|]. destruct os as [|o os]; unfold tags in *; simpl in Hx; [destruct Hx|].
  destruct Hx as [<-|Hx]; auto. now apply (IH os).
Qed.
Lemma marks_in (es : list entry) : forall os : list outcome, length os = length es -> forall e, In e es -> exists b, In (fst e, b) (marks es os).
Proof.
  induction es as [|e es IH]; intros [|o os] H y Hy; try discriminate; [destruct Hy|]. injection H as H. unfold marks in *. simpl in *.
  destruct Hy as [<-|Hy]; [eauto|]. destruct (IH os H y Hy) as [b Hb]. eauto.
Qed.

Lemma accounts_one (x es : list (op * outcome)) : Forall (fun y => one_op (fst y)) x -> accounts x es -> es = x.
Proof.
  intros H (ess & F & ->). revert ess F. induction H as [|[o r] x Ho _ IH]; intros ess F; inversion F as [|? y ? ys Hc F']; subst; simpl; auto.
  rewrite (IH ys F'). unfold carried in Hc. simpl in Ho, Hc. destruct o; simpl in Ho; try contradiction; now subst y.
Qed.

(** ** Apart *)
Lemma writes_shown (nuF : ids) rhoF M (a : rop) (x : op) u (o : rop) : one_to_one nuF rhoF -> below M nuF -> stands M a x -> In a (parts o) ->
  writes x u -> r_writes (by_name rhoF) o (triple_map (shown rhoF) u).
Proof.
  intros O B Hs Ha Hw. destruct a as [e p|t p|e|t|e p|t p|q|q]; simpl in Hs; try contradiction; destruct Hs as (i & Hi & ->); simpl in Hw; try contradiction; subst i.
  - exists t, p. split; auto. eapply den3_shown; eauto.
  - exists t, p. split; auto. eapply den3_shown; eauto.
Qed.
Lemma erases_shown (nuF : ids) rhoF M (a : rop) (x : op) u (o : rop) : one_to_one nuF rhoF -> below M nuF -> stands M a x -> In a (parts o) ->
  erases x u -> r_erases (by_name rhoF) o (triple_map (shown rhoF) u).
Proof.
  intros O B Hs Ha He.
  assert (match a with RRemoveNode _ | RRemoveEdge _ => o = a | _ => True end) as Ho.
  { destruct a; auto; destruct o; simpl in Ha; try (destruct Ha as [Ha|[]]; congruence);
      apply in_app_iff in Ha; destruct Ha as [Ha|Ha]; apply in_map_iff in Ha; destruct Ha as (y & Hy & _); discriminate. }
  destruct a as [e p|t p|e|t|e p|t p|q|q]; simpl in Hs; try contradiction; destruct Hs as (i & Hi & ->); simpl in He; try contradiction; subst o; simpl.
  - rewrite (den_shown nuF rhoF M e i O B Hi). destruct He as [<-|<-]; auto.
  - subst i. eapply den3_shown; eauto.
Qed.

(** ** One crowd *)
Notation gcs callers ess := (combine (map (fun hl : rhandle * list rop => rh_graph (fst hl)) callers) (map (on_ops (S := S) (NP := NP) (EP := EP) (E := E)) ess)).
Lemma gcs_nth (callers : list (rhandle * list rop)) (ess : list (list entry)) i g x : nth_error (gcs callers ess) i = Some (g, x) ->
  exists h l es, nth_error callers i = Some (h, l) /\ nth_error ess i = Some es /\ g = rh_graph h /\ x = on_ops es.
Proof.
  intros H. apply nth_combine_inv in H. destruct H as [H1 H2]. rewrite nth_error_map in H1, H2.
  destruct (nth_error callers i) as [[h l]|]; [|discriminate]. destruct (nth_error ess i) as [es|]; [|discriminate].
  injection H1 as <-. injection H2 as <-. exists h, l, es. auto.
Qed.

Lemma crowd_mixed U (d : rdb) K (callers : list (rhandle * list rop)) cuts schedule :
  let ls := map snd callers in
  let pd := interleave schedule (rl_callers (SE := SE) cs cu cn ce mn me cuts 0 callers) d in
  world U d -> fresh_keys U (callers_keys callers) -> knows K d ->
  below (nu d) (nu (snd pd)) /\ index_ok cs cu (r_names (snd pd)) /\
  forall (nu0 : ids) rho0, one_to_one nu0 rho0 -> below (nu (snd pd)) nu0 -> r_apart (by_name rho0) callers ->
  world (plus_keys U (callers_keys callers)) (snd pd) /\
  exists K', knows K' (snd pd) /\ named (flat_map given (concat ls)) K K' /\
  exists ss s, Forall2 (r_log_among_so_far (SE := SE) (BE := BE) seqb K K') ls ss /\ shuffle ss s /\
    (forall i l rs h', nth_error ls i = Some l -> nth_error (fst pd) i = Some (Ret (rs, h')) ->
       exists si, nth_error ss i = Some si /\ r_log_among seqb K K' l rs si) /\
    forall (nuF : ids) rhoF eg, one_to_one nuF rhoF -> below (nu (snd pd)) nuF -> RdfTop.view rhoF (sabs d) eg ->
      RdfTop.view rhoF (sabs (snd pd)) (e_run seqb mn me (by_name rhoF) K' s eg).
Proof.
  intros ls pd (W1 & W2 & W3) [F1 F2] HK.
  set (N := flat_map given (concat ls)).
  set (T := fun M : ids => below (nu d) M /\ forall n, M n <> None -> nu d n <> None \/ In n N).
  set (kn := fun M : ids => K ++ filter (fun n => match M n with Some _ => true | None => false end) N).
  assert (forall M M', T M -> below M M' -> (forall n, M' n <> None -> M n <> None \/ In n N) -> T M') as HT.
  { intros M M' [T1 T2] HB Hn. split; [eapply below_trans; eauto|]. intros n H. destruct (Hn n H) as [H1|H1]; auto. }
  assert (forall M n, T M -> In n (kn M) <-> M n <> None) as Hkn.
  { intros M n [T1 T2]. unfold kn. rewrite in_app_iff, filter_In, <- (HK n). split.
    - intros [H|[_ H]]; [|destruct (M n); congruence]. destruct (nu d n) as [i|] eqn:Q; [|congruence]. rewrite (T1 n i Q). discriminate.
    - intros H. destruct (T2 n H) as [H1|H1]; auto. right. split; auto. now destruct (M n). }
  assert (T (nu d)) as HTd by (split; [apply below_refl|auto]).
  destruct (graph_run (E := E) (SE := SE) seqb seqb_eq cs cu cn ce Hcs Hcu mn me N T kn HT Hkn cuts callers schedule d W1 HTd (incl_refl _))
    as (A1 & A2 & A3 & ess & zs & cuts' & schedule' & L1 & L2 & R & H). fold pd in A1, A2, A3, R, H.
  split; auto. split; auto. intros nu0 rho0 O0 B0 Hap.
  assert (length (fst pd) = length callers) as L3 by (unfold pd; now rewrite interleave_length, rl_callers_length).
  assert (forall i h l es, nth_error callers i = Some (h, l) -> nth_error ess i = Some es -> exists z p,
    nth_error zs i = Some z /\ nth_error (fst pd) i = Some p /\ length (fst z) = length es /\ fits (nu (snd pd)) es /\ drawn es <= sum (map r_draws l) /\
    so_far (SE := SE) (BE := BE) seqb T kn (nu (snd pd)) l (marks es (fst z)) /\
    forall rs h', p = Ret (rs, h') -> logged seqb T kn (nu (snd pd)) l rs (marks es (fst z))) as Hi.
  { intros i h l es Hc He. assert (i < length callers) as Hlt by (apply nth_error_Some; congruence).
    destruct (nth_error zs i) as [z|] eqn:Hz; [|apply nth_error_None in Hz; lia].
    destruct (nth_error (fst pd) i) as [p|] eqn:Hp; [|apply nth_error_None in Hp; lia]. exists z, p. split; auto. split; auto. now apply (H i h). }
  set (cs' := gcs callers ess) in R.
  assert (apart cs') as Hap'.
  { intros i j hi hj li lj o o' a a' t Hne Hci Hcj Ho Ho' Ha Ha' Her Hwr.
    destruct (gcs_nth _ _ _ _ _ Hci) as (h1 & l1 & es1 & C1 & E1 & -> & ->). destruct (gcs_nth _ _ _ _ _ Hcj) as (h2 & l2 & es2 & C2 & E2 & -> & ->).
    destruct (Hi i _ _ _ C1 E1) as (z1 & p1 & _ & _ & N1 & P1 & _ & S1 & _). destruct (Hi j _ _ _ C2 E2) as (z2 & p2 & _ & _ & N2 & P2 & _ & S2 & _).
    apply in_map_iff in Ho. destruct Ho as (e1 & <- & I1). apply in_map_iff in Ho'. destruct Ho' as (e2 & <- & I2).
    unfold fits in P1, P2. rewrite Forall_forall in P1, P2. specialize (P1 e1 I1). specialize (P2 e2 I2).
    pose proof (stands_one _ _ _ P1) as U1. pose proof (stands_one _ _ _ P2) as U2.
    assert (a = snd (snd e1)) as Ea. { destruct (snd (snd e1)); simpl in U1, Ha; try contradiction; destruct Ha as [<-|[]]; auto. }
    assert (a' = snd (snd e2)) as Ea'. { destruct (snd (snd e2)); simpl in U2, Ha'; try contradiction; destruct Ha' as [<-|[]]; auto. }
    subst a a'. assert (erases (snd (snd e1)) t) as Her'. { destruct Her as [Her|Her]; auto. destruct (snd (snd e1)); simpl in U1, Her; contradiction. }
    destruct (marks_in _ _ N1 e1 I1) as [b1 M1]. destruct (so_far_in _ _ _ _ _ S1 _ M1) as (o1 & Q1 & Q1').
    destruct (marks_in _ _ N2 e2 I2) as [b2 M2]. destruct (so_far_in _ _ _ _ _ S2 _ M2) as (o2 & Q2 & Q2'). simpl in Q1', Q2'.
    apply (Hap i j h1 h2 l1 l2 o1 o2 (triple_map (shown rho0) t) Hne C1 C2 Q1 Q2).
    - exact (erases_shown nu0 rho0 _ _ _ t o1 O0 B0 P1 Q1' Her').
    - exact (writes_shown nu0 rho0 _ _ _ t o2 O0 B0 P2 Q2' Hwr). }
  destruct (keys_all callers ess L1) as [Kn Ki].
  { intros i h l es Hc He. destruct (Hi i _ _ _ Hc He) as (z & p & _ & _ & _ & P & Q & _). eapply keys_part; eauto. }
  fold cs' in Kn, Ki.
  assert (spared (SE := SE') cs' schedule') as Hsp.
  { intros i h l s e Hc Ho. exfalso. destruct (gcs_nth _ _ _ _ _ Hc) as (h1 & l1 & es1 & C1 & E1 & -> & ->).
    destruct (Hi i _ _ _ C1 E1) as (z1 & p1 & _ & _ & _ & P1 & _). apply fits_one in P1. rewrite Forall_forall in P1. exact (P1 _ Ho). }
  pose proof (mix_run (SE := SE') cn ce Hcn Hce mn me cs' Hap' cuts' U schedule' (r_trees d) W2 W3 (Kn F1)
    (fun r Hr => F2 r (Ki r Hr)) Hsp) as HM. rewrite R in HM.
  destruct HM as (lgs & r & U' & M1 & M2 & M3 & M4 & M5 & M6). { intros p Hp. apply in_map_iff in Hp. destruct Hp as (z & <- & _). eauto. }
  split. { split; auto. split; auto. eapply fair_mono; [|exact M4]. intros y Hy. destruct (M6 y Hy) as [Hy'|Hy']; [left; auto|right; now apply Ki]. }
  set (tls := map (fun ez => tags (fst ez) (fst (snd ez))) (combine ess zs)).
  assert (forall i es z, nth_error ess i = Some es -> nth_error zs i = Some z -> length (fst z) = length es) as Hlen.
  { intros i es z He Hz. assert (i < length callers) as Hlt by (rewrite <- L1; apply nth_error_Some; congruence).
    destruct (nth_error callers i) as [[h l]|] eqn:Hc; [|apply nth_error_None in Hc; lia].
    destruct (Hi i _ _ _ Hc He) as (z' & p & Hz' & _ & Hl & _). rewrite Hz in Hz'. injection Hz' as <-. auto. }
  assert (lgs = map (map snd) tls) as Hlg.
  { apply nth_error_ext. intros i. unfold tls. rewrite map_map, nth_error_map.
    pose proof (len2 M1) as Hl1. unfold logs in Hl1. rewrite map_length, combine_length, map_length in Hl1.
    assert (length cs' = length callers) as Lc by (unfold cs'; rewrite combine_length, !map_length; lia).
    destruct (nth_error (combine ess zs) i) as [[es z]|] eqn:Hez.
    - apply nth_combine_inv in Hez. destruct Hez as [He Hz]. simpl. rewrite (tags_snd es (fst z) (Hlen i es z He Hz)).
      assert (i < length callers) as Hlt by (rewrite <- L1; apply nth_error_Some; congruence).
      destruct (nth_error callers i) as [[h l]|] eqn:Hc; [|apply nth_error_None in Hc; lia].
      assert (nth_error (logs cs' (map (fun z => Ret z) zs)) i = Some (combine (on_ops es) (fst z))) as Hlog.
      { unfold logs. rewrite nth_error_map, !nth_combine, nth_error_map, Hz. unfold cs'. now rewrite nth_combine, !nth_error_map, Hc, He. }
      destruct (Forall2_nth_l _ _ _ _ _ M1 Hlog) as (lg & Hlg & Hac). rewrite Hlg. f_equal. apply accounts_one in Hac; auto.
      destruct (Hi i _ _ _ Hc He) as (_ & _ & _ & _ & _ & P & _). apply fits_one in P. clear -P.
      revert P. generalize (fst z) as os. generalize (on_ops es) as os'. induction os' as [|o os' IH]; intros [|y os] P; simpl; constructor; inversion P; auto.
    - apply nth_error_None in Hez. rewrite combine_length in Hez. simpl. apply nth_error_None. lia. }
  subst lgs. destruct (shuffle_map_inv snd _ _ M2 tls eq_refl) as (tr & Htr & ->).
  assert (forall x, In x tr -> stands (nu (snd pd)) (fst x) (fst (snd x))) as Hst.
  { intros x Hx. destruct (shuffle_in _ _ Htr x Hx) as (tl & Htl & Hx'). unfold tls in Htl. apply in_map_iff in Htl. destruct Htl as ([es z] & <- & Hez).
    apply In_nth_error in Hez. destruct Hez as [i Hez]. apply nth_combine_inv in Hez. destruct Hez as [He Hz].
    assert (i < length callers) as Hlt by (rewrite <- L1; apply nth_error_Some; congruence).
    destruct (nth_error callers i) as [[h l]|] eqn:Hc; [|apply nth_error_None in Hc; lia].
    destruct (Hi i _ _ _ Hc He) as (_ & _ & _ & _ & _ & P & _). eapply tags_fits; eauto. }
  destruct (moves_acted tls tr Htr _ _ M3) as (ss & s & S1 & S2 & S3); [intros x Hx; eexists; now apply Hst|].
  set (K' := more_names (SE := SE) cs cu K (snd pd) N).
  assert (knows K' (snd pd)) as HK'.
  { apply (more_knows (SE := SE) cs cu K d (snd pd) N HK A3). intros n Hn. apply A2. exact Hn. }
  assert (forall M0, T M0 -> below M0 (nu (snd pd)) -> incl K (kn M0) /\ incl (kn M0) K') as HKK.
  { intros M0 T0 B1. split; [intros n Hn; unfold kn; apply in_app_iff; auto|]. intros n Hn. apply HK'. apply (Hkn _ _ T0) in Hn.
    destruct (M0 n) as [x|] eqn:Q; [|congruence]. rewrite (B1 n x Q). discriminate. }
  assert (forall i es z, nth_error ess i = Some es -> nth_error zs i = Some z -> exists si,
    nth_error ss i = Some si /\ took (marks es (fst z)) (map fst si)) as Hss.
  { intros i es z He Hz. assert (nth_error tls i = Some (tags es (fst z))) as Ht.
    { unfold tls. erewrite map_nth_error; [|apply nth_combine_some; eauto]. reflexivity. }
    destruct (Forall2_nth_l _ _ _ _ _ S1 Ht) as (si & Hsi & Ha). exists si. split; auto. rewrite <- (tags_flags _ _ (Hlen i es z He Hz)). now apply acted_took. }
  exists K'. split; auto. split; [apply more_named|]. exists (map (map fst) ss), (map fst s). split; [|split; [now apply shuffle_map|split]].
  - apply Forall2_of_nth.
    { unfold ls. rewrite !map_length. rewrite <- (len2 S1). unfold tls. rewrite map_length, combine_length. lia. }
    intros i l s1 Hl1 Hs1. unfold ls in Hl1. rewrite nth_error_map in Hl1, Hs1. destruct (nth_error callers i) as [[h l']|] eqn:Hc; [|discriminate]. injection Hl1 as ->.
    destruct (nth_error ss i) as [si|] eqn:Hsi; [|discriminate]. injection Hs1 as <-.
    destruct (nth_error ess i) as [es|] eqn:He; [|apply nth_error_None in He; assert (i < length callers) by (apply nth_error_Some; congruence); lia].
    destruct (Hi i _ _ _ Hc He) as (z & p & Hz & _ & _ & _ & _ & Hso & _). destruct (Hss i es z He Hz) as (si' & Hsi' & Ht). rewrite Hsi in Hsi'. injection Hsi' as <-.
    eapply so_far_of; eauto.
  - intros i l rs h' Hl1 Hp. unfold ls in Hl1. rewrite nth_error_map in Hl1. destruct (nth_error callers i) as [[h l']|] eqn:Hc; [|discriminate]. injection Hl1 as ->.
    destruct (nth_error ess i) as [es|] eqn:He; [|apply nth_error_None in He; assert (i < length callers) by (apply nth_error_Some; congruence); lia].
    destruct (Hi i _ _ _ Hc He) as (z & p & Hz & Hp' & _ & _ & _ & _ & Hlo). rewrite Hp in Hp'. injection Hp' as <-.
    destruct (Hss i es z He Hz) as (si & Hsi & Ht). exists (map fst si). split; [now rewrite nth_error_map, Hsi|]. eapply log_of; eauto.
  - intros nuF rhoF eg O B V. eapply view_equiv; [apply g_equiv_sym; exact S3|]. eapply view_run; eauto.
    intros x Hx. destruct (shuffle_in _ _ S2 x Hx) as (si & Hsi & Hx'). apply In_nth_error in Hsi. destruct Hsi as [i Hsi].
    destruct (Forall2_nth_r _ _ _ _ _ S1 Hsi) as (tl & Htl & Ha). destruct (acted_in _ _ Ha x Hx') as (y & Hy & ->).
    unfold tag_op. simpl. apply Hst. eapply in_shuffle; eauto. eapply nth_error_In; eauto.
Qed.
End Top.
