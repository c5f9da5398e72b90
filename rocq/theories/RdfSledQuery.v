(** What a query of an RDF store over sled returns next to writers. *)
From Coq Require Import Arith NArith List Bool Sorted Lia.
From Verif Require Import Bytes BytesFacts OMap OMapFacts Core IdType IdTypeFacts Store Mem MemIndex Spec GenSpec
  CodecFacts ListFacts MemFacts MemSim IdGenFacts History MemTop Prog ProgFacts Sled SledHistory SledSched SledDb SledOps SledBulk SledRead SledTables
  SledAny SledRun SledTop SledMain SledLeaf SledLeafFacts SledBeside SledRely SledOwn SledOwnOps SledBesideTop SledReaders
  SledIndex SledIndexFacts Rdf RdfSpec RdfTop RdfQuery RdfSled RdfSledSpec RdfSledSafe RdfSledConc RdfSledTop RdfSledRead RdfSledMain RdfSledLeaf RdfSledOwn
  RdfSledReaders.
Import ListNotations.

(** The arguments of a query one by one *)
Definition pair_rel {A B} (R : A -> B -> Prop) (a : A * A) (b : B * B) : Prop := R (fst a) (fst b) /\ R (snd a) (snd b).
Definition triple_rel {A B} (R : A -> B -> Prop) (a : A * A * A) (b : B * B * B) : Prop :=
  let '(a1, a2, a3) := a in let '(b1, b2, b3) := b in R a1 b1 /\ R a2 b2 /\ R a3 b3.
Definition query_rel {A B} (R : A -> B -> Prop) (q : query A) (q' : query B) : Prop :=
  match q, q' with
  | QNodeProps l, QNodeProps l' | QO l, QO l' | QS l, QS l' | QP l, QP l' => Forall2 R l l'
  | QSPO l, QSPO l' => Forall2 (triple_rel R) l l'
  | QPO l, QPO l' | QSO l, QSO l' | QSP l, QSP l' => Forall2 (pair_rel R) l l'
  | _, _ => False
  end.
Lemma forall2_imp {A B} (R R' : A -> B -> Prop) l l' : (forall a b, R a b -> R' a b) -> Forall2 R l l' -> Forall2 R' l l'.
Proof. intros H. induction 1; constructor; auto. Qed.
Lemma query_rel_mono {A B} (R R' : A -> B -> Prop) q q' : (forall a b, R a b -> R' a b) -> query_rel R q q' -> query_rel R' q q'.
Proof.
  intros H. destruct q, q'; simpl; auto; apply forall2_imp; auto.
  - intros [[a b] c] [[a' b'] c']. simpl. intuition.
  - intros a b []. split; auto.
  - intros a b []. split; auto.
  - intros a b []. split; auto.
Qed.
Lemma query_rel_map {A B C} (R : A -> B -> Prop) (f : A -> C) (g : B -> C) q q' : (forall a b, R a b -> f a = g b) -> query_rel R q q' ->
  query_map f q = query_map g q'.
Proof.
  intros H. destruct q, q'; simpl; try tauto; intros Hq; f_equal;
    (induction Hq as [|x y l1 l2 Hx _ IH]; [reflexivity|]; simpl; f_equal; auto).
  - destruct x as [[a b] c], y as [[a' b'] c']. simpl in Hx. destruct Hx as (H1 & H2 & H3). now rewrite (H _ _ H1), (H _ _ H2), (H _ _ H3).
  - destruct x, y, Hx as [H1 H2]. simpl in H1, H2. now rewrite (H _ _ H1), (H _ _ H2).
  - destruct x, y, Hx as [H1 H2]. simpl in H1, H2. now rewrite (H _ _ H1), (H _ _ H2).
  - destruct x, y, Hx as [H1 H2]. simpl in H1, H2. now rewrite (H _ _ H1), (H _ _ H2).
Qed.
Lemma query_rel_order {A B} (R : A -> B -> Prop) q q' : query_rel R q q' -> order_of q' = order_of q.
Proof. destruct q, q'; simpl; tauto. Qed.
Lemma forall2_mentioned {A B} (R : A -> B -> Prop) l l' a : Forall2 R l l' -> In a l -> exists b, R a b.
Proof. induction 1 as [|x y l l' H _ IH]; intros []; subst; eauto. Qed.
Lemma query_rel_mentioned {A B} (R : A -> B -> Prop) q q' a : query_rel R q q' -> In a (mentioned q) -> exists b, R a b.
Proof.
  destruct q, q'; simpl; try tauto; intros Hq Hin; try (eapply forall2_mentioned; eauto; fail); apply in_flat_map in Hin;
    destruct Hin as (x & Hx & Hin); destruct (forall2_mentioned _ _ _ _ Hq Hx) as (y & Hy).
  - destruct x as [[x1 x2] x3], y as [[y1 y2] y3]. simpl in Hin, Hy. destruct Hin as [<-|[<-|[<-|[]]]], Hy as (? & ? & ?); eauto.
  - destruct Hy. simpl in Hin. destruct Hin as [<-|[<-|[]]]; eauto.
  - destruct Hy. simpl in Hin. destruct Hin as [<-|[<-|[]]]; eauto.
  - destruct Hy. simpl in Hin. destruct Hin as [<-|[<-|[]]]; eauto.
Qed.

Section Query.
Context {S NP EP SE BE : Type} (seqb : S -> S -> bool) (seqb_eq : forall a b, seqb a b = true <-> a = b).
Context (cs : codec BE S) (cu : codec BE (Id KUlid)) (cn : codec BE NP) (ce : codec BE EP).
Context (Hcs : codec_ok cs) (Hcu : codec_ok cu) (Htu : codec_total cu) (keep : triple (Id KUlid) -> Prop) (F : SE -> Prop).
Notation I := (Id KUlid).
Notation ent := (entity S).
Notation ierr := (sled_index_error S (Id KUlid) SE BE).
Notation gerr := (sled_error SE BE).
Notation err := (rdf_error S ierr gerr).
Notation qerr := (lr_error err (rdf_error S (index_error S (Id KUlid)) unit)).
Notation P A := (prog rdb SE A).
Notation PR A := (prog rdb SE (result err A)).
Notation nu := (name_now (SE := SE) cs cu).
Notation rho := (id_now (SE := SE) cs cu).
Notation st := (st (k := KUlid) cn ce keep).
Notation ext := (ext (k := KUlid) cn ce keep).
Notation rst := (rst (S := S) (SE := SE) cs cu cn ce keep).
Notation u_now := (u_now cs cu cn ce keep).
Notation u_past := (u_past cs cu cn ce keep).
Notation gst := (gst cs cu cn ce keep).
Notation rext := (rext cs cu cn ce keep).
Notation rext_refl := (rext_refl cs cu cn ce keep).
Notation rext_trans := (rext_trans cs cu cn ce keep).
Notation rg := (rg u_now rext F).
Notation was_shown := (was_shown cs cu cn ce keep).
Notation always := (always cs cu cn ce keep).
Implicit Types d : rdb.
Implicit Types w : rst.

(** ** The arguments of the query *)
Definition look_err (l : list ent) (x : err) w : Prop :=
  is_fault F x \/ exists s, In (EString s) l /\
    ((x = NameNotFound s /\ exists d, In d (u_past w) /\ nu d s = None) \/
     exists b, ser cs s = Err b /\ x = NameIndexStorageError (ISerializationError b)).
Definition found w (e : ent) (i : I) : Prop :=
  match e with EUlid j => j = i | EString s => exists d, In d (u_past w) /\ nu d s = Some i end.
Definition res {B} (R : B -> rst -> Prop) (l : list ent) (r : result err B) w : Prop :=
  match r with Ok b => R b w | Err x => look_err l x w end.

Lemma found_later e i w w' : rext w w' -> found w e i -> found w' e i.
Proof. intros (_ & _ & H). destruct e as [s|j]; simpl; auto. intros (d & Hd & Hs). exists d. auto. Qed.
Lemma look_err_later l l' x w w' : (forall e, In e l -> In e l') -> rext w w' -> look_err l x w -> look_err l' x w'.
Proof.
  intros Hl (_ & _ & H) [Hf|(s & Hs & [(-> & d & Hd & Hn)|Hx])]; [now left| |]; right; exists s; split; auto.
  left. split; auto. exists d. auto.
Qed.
Lemma rg_lookup_entity e w : rg (res (fun i w' => found w' e i) [e]) (rs_lookup_entity (SE := SE) cs cu e) w.
Proof.
  destruct e as [s|j]; [|simpl; reflexivity]. cbn [rs_lookup_entity]. apply rg_bind. unfold si_left_to_right.
  destruct (ser cs s) as [b|x] eqn:Es.
  - simpl. intros w' Hw. split; [apply db_same|]. split; [|intros x Hx; left; exists x; auto].
    pose proof (u_ok cs cu cn ce keep w' _ (u_in cs cu cn ce keep w')) as Hok.
    pose proof (left_answers (SE := SE) cs cu Hcu (r_names (u_now w')) s Hok) as H. rewrite Es in H. destruct H as [o Ho].
    assert (nu (u_now w') s = o) as Hn by (unfold name_now; rewrite Ho; now destruct o).
    unfold left_now, si_left_to_right in Ho. rewrite Es in Ho. unfold ret_of in Ho. simpl in Ho. rewrite Ho. simpl.
    destruct o as [i|]; simpl.
    + exists (u_now w'). split; [apply u_in|exact Hn].
    + right. exists s. split; [now left|]. left. split; auto. exists (u_now w'). split; [apply u_in|exact Hn].
  - simpl. right. exists s. split; [now left|]. right. exists x. auto.
Qed.

Lemma rg_res_bind {A B} (Q : A -> rst -> Prop) (R : B -> rst -> Prop) l l1 l2 (p : PR A) (f : A -> PR B) w :
  (forall e, In e l1 -> In e l) -> (forall e, In e l2 -> In e l) ->
  rg (res Q l1) p w -> (forall a w', rext w w' -> Q a w' -> rg (res R l2) (f a) w') -> rg (res R l) (bind_ok p f) w.
Proof.
  intros H1 H2 Hp Hf. apply rg_bind. eapply rg_mono; [exact rext_refl|exact rext_trans| |exact Hp].
  cbv beta. intros [a|e] w' Hw Ha; simpl in *.
  - eapply rg_mono; [exact rext_refl|exact rext_trans| |apply Hf; eauto]. intros [b|x] w2 Hw2 Hb; simpl in *; auto.
    eapply look_err_later; [exact H2|apply rext_refl|exact Hb].
  - eapply look_err_later; [exact H1|apply rext_refl|exact Ha].
Qed.
Lemma rg_collect_res {A B} (f : A -> PR B) (G : rst -> A -> B -> Prop) (m : A -> list ent) :
  (forall a b w w', rext w w' -> G w a b -> G w' a b) -> (forall a w, rg (res (fun b w' => G w' a b) (m a)) (f a) w) ->
  forall l w, rg (res (fun bs w' => Forall2 (G w') l bs) (flat_map m l)) (collect_prog f l) w.
Proof.
  intros HG Hf. induction l as [|a l IH]; intros w; [constructor|]. cbn [collect_prog flat_map].
  eapply rg_res_bind with (l1 := m a) (l2 := flat_map m l); [| |apply Hf|].
  - intros e He. apply in_app_iff. auto.
  - intros e He. apply in_app_iff. auto.
  - cbv beta. intros b w1 H1 Hb. eapply rg_res_bind with (l2 := []); [intros e He; exact He|intros e []|apply IH|].
    intros bs w2 H2 Hbs. simpl. constructor; eauto.
Qed.
Lemma rg_query (q : query ent) w :
  rg (res (fun qi w' => query_rel (found w') q qi) (mentioned q)) (query_try_prog (rs_lookup_entity (SE := SE) cs cu) q) w.
Proof.
  assert (forall (a b : ent) w, rg (res (fun r w' => pair_rel (found w') (a, b) r) [a; b]) (pair_prog (rs_lookup_entity (SE := SE) cs cu) (a, b)) w) as H2.
  { intros a b w'. unfold pair_prog. cbn [fst snd]. eapply rg_res_bind with (l1 := [a]) (l2 := [b]); [simpl; tauto|simpl; tauto|apply rg_lookup_entity|].
    intros i w1 H1 Hi. eapply rg_res_bind with (l2 := []); [intros e He; exact He|intros e []|apply rg_lookup_entity|].
    intros j w2 H2 Hj. simpl. split; simpl; auto. eapply found_later; eauto. }
  assert (forall (t : ent * ent * ent) w, rg (res (fun r w' => triple_rel (found w') t r) (let '(s, p, o) := t in [s; p; o]))
    (triple_prog (rs_lookup_entity (SE := SE) cs cu) t) w) as H3.
  { intros [[a b] c] w'. unfold triple_prog. eapply rg_res_bind with (l1 := [a]) (l2 := [b; c]); [simpl; tauto|simpl; tauto|apply rg_lookup_entity|].
    intros i w1 H1 Hi. eapply rg_res_bind with (l1 := [b]) (l2 := [c]); [simpl; tauto|simpl; tauto|apply rg_lookup_entity|].
    intros j w2 H2' Hj. eapply rg_res_bind with (l2 := []); [intros e He; exact He|intros e []|apply rg_lookup_entity|].
    intros x w3 H3 Hx. simpl. split; [|split; auto].
    - eapply found_later; [exact (rext_trans _ _ _ H2' H3)|exact Hi].
    - eapply found_later; eauto. }
  assert (forall l, flat_map (fun a : ent => [a]) l = l) as H0 by (induction l as [|a l IH]; simpl; congruence).
  assert (forall l w, rg (res (fun bs w' => Forall2 (found w') l bs) l) (collect_prog (rs_lookup_entity (SE := SE) cs cu) l) w) as H1.
  { intros l w'. assert (forall a b w w', rext w w' -> found w a b -> found w' a b) as Hl by (intros; eapply found_later; eauto).
    pose proof (rg_collect_res _ found (fun a => [a]) Hl rg_lookup_entity l w') as H. now rewrite H0 in H. }
  assert (forall l w, rg (res (fun bs w' => Forall2 (pair_rel (found w')) l bs) (flat_map (fun ab => [fst ab; snd ab]) l))
    (collect_prog (pair_prog (rs_lookup_entity (SE := SE) cs cu)) l) w) as H4.
  { intros l w'. apply (rg_collect_res _ (fun w => pair_rel (found w))); [|intros [a b] w1; apply H2].
    intros a b w1 w2 Hw [A1 A2]. split; eapply found_later; eauto. }
  assert (forall l w, rg (res (fun bs w' => Forall2 (triple_rel (found w')) l bs) (flat_map (fun t => let '(s, p, o) := t in [s; p; o]) l))
    (collect_prog (triple_prog (rs_lookup_entity (SE := SE) cs cu)) l) w) as H5.
  { intros l w'. apply (rg_collect_res _ (fun w => triple_rel (found w))); [|intros t w1; apply H3].
    intros [[a b] c] [[a' b'] c'] w1 w2 Hw (A1 & A2 & A3). repeat split; eapply found_later; eauto. }
  destruct q as [l|l|l|l|l|l|l|l]; cbn [query_try_prog mentioned];
    (eapply rg_res_bind with (l2 := []); [intros e He; exact He|intros e []|auto|]; intros l' w' _ Hl; exact Hl).
Qed.

(** ** The names of the result *)
Notation index := (mem_index S I).
Notation l2r := (left_to_right seqb).
Notation r2l := (right_to_left id_eqb).
Section Fill.
Context (T : rdb -> Prop).
Definition again (all : list I) (i : I) : Prop := exists l1 l2, all = l1 ++ i :: l2 /\ In i l1.
Lemma again_more all more i : again all i -> again (all ++ more) i.
Proof. intros (l1 & l2 & -> & H). exists l1, (l2 ++ more). rewrite <- app_assoc. auto. Qed.
Lemma again_snoc done id i : again (done ++ [id]) i -> again done i \/ i = id /\ In id done.
Proof.
  intros (l1 & l2 & E & H). destruct l2 as [|x l2 _] using rev_ind.
  - apply app_inj_tail in E. destruct E as [-> ->]. auto.
  - change (l1 ++ i :: l2 ++ [x]) with (l1 ++ (i :: l2) ++ [x]) in E. rewrite app_assoc in E. apply app_inj_tail in E. destruct E as [-> _].
    left. exists l1, l2. auto.
Qed.
(** [done] has been looked at: what occurs in it twice had no name at a moment. *)
Record filled (done : list I) (new : index) w : Prop := {
  fl_one : one_to_one (l2r new) (r2l new);
  fl_shown : forall i, In i done -> was_shown T w i (shown (r2l new) i);
  fl_in : forall i s, r2l new i = Some s -> In i done;
  fl_twice : forall i, again done i -> exists d, In d (u_past w) /\ T d /\ rho d i = None
}.
Lemma filled_later done new w w' : rext w w' -> filled done new w -> filled done new w'.
Proof.
  intros H [H1 H2 H3 H4]. split; auto; intros i Hi; [eapply was_shown_later; eauto|].
  destruct (H4 i Hi) as (d & Hd & Td). exists d. split; auto. now apply H.
Qed.
Lemma shown_none (f : I -> option S) i j : shown f i = EUlid j -> f i = None.
Proof. unfold shown. destruct (f i); [discriminate|auto]. Qed.
(** The names of [all] have been set, or one of the identifiers occurs twice in it. *)
Definition twice (all : list I) (x : rdf_error S (index_error S I) unit) w : Prop :=
  exists s i, x = NameIndexStorageError (DuplicateRight s i i) /\ again all i /\ exists d, In d (u_past w) /\ rho d i = Some s.
Definition qdone (bad : unit -> Prop) (all : list I) (r : result qerr index) w : Prop :=
  match r with
  | Ok ix => filled all ix w
  | Err (LeftE x) => is_fault F x
  | Err (RightE x) => twice all x w \/ exists e, bad e /\ x = GraphStorageError e
  end.
Lemma shown_name (f : I -> option S) i s : shown f i = EString s -> f i = Some s.
Proof. unfold shown. destruct (f i); [congruence|discriminate]. Qed.

Lemma past_one w d : In d (u_past w) -> one_to_one (nu d) (rho d).
Proof. intros Hd. apply (one_now (SE := SE) cs cu Hcs Hcu), (u_ok cs cu cn ce keep w), Hd. Qed.
Lemma past_now w d i s : In d (u_past w) -> rho d i = Some s -> rho (u_now w) i = Some s.
Proof.
  intros Hd Hi. apply (past_one w); [apply u_in|]. apply (u_grew cs cu cn ce keep w d Hd). now apply (past_one w d Hd).
Qed.

Lemma rg_set_names ids : forall done new w, always T w -> filled done new w ->
  rg (qdone (fun _ => False) (done ++ ids)) (rs_set_names (SE := SE) cs cu seqb ids new) w.
Proof.
  induction ids as [|id ids IH]; intros done new w HT Hf; [rewrite app_nil_r; exact Hf|]. cbn [rs_set_names].
  apply rg_bind. unfold on_left. apply rg_bind. eapply rg_mono; [exact rext_refl|exact rext_trans| |apply (rg_lookup_id cs cu cn ce Hcs Htu keep F T id w HT)].
  cbv beta. intros [e|x] w1 H1 He; [|exact He]. simpl in He. cbn [SledRely.rg]. eapply filled_later in Hf; [|exact H1].
  eapply always_later in HT; [|exact H1].
  replace (done ++ id :: ids) with ((done ++ [id]) ++ ids) by (rewrite <- app_assoc; reflexivity).
  destruct e as [s|j].
  - pose proof (set_spec seqb id_eqb s id new) as Sp.
    destruct (index_set seqb id_eqb s id new) as [x new1]. cbn [fst snd] in Sp. destruct He as (d & Hd & Td & Hs). symmetry in Hs. apply shown_name in Hs.
    destruct x as [[]|[l1 r1 r2|r1 l1 l2]].
    + apply IH; auto. destruct Sp as (P1 & P2 & P3 & P4). destruct Hf as [F1 F2 F3 F4]. split.
      * intros s' i. rewrite P3, P4. destruct (seqb s' s) eqn:Z1, (id_eqb i id) eqn:Z2.
        -- apply seqb_eq in Z1. apply id_eqb_eq in Z2. subst. tauto.
        -- apply seqb_eq in Z1. subst s'. split; [intros [= <-]; rewrite (proj2 (id_eqb_eq id id) eq_refl) in Z2; discriminate|].
           intros H. apply F1 in H. congruence.
        -- apply id_eqb_eq in Z2. subst i. split; [intros H; apply F1 in H; congruence|].
           intros [= <-]. rewrite (proj2 (seqb_eq s s) eq_refl) in Z1. discriminate.
        -- apply F1.
      * intros i Hi. unfold shown. rewrite P4. destruct (id_eqb i id) eqn:Z.
        -- apply id_eqb_eq in Z. subst i. exists d. split; auto. split; auto. unfold shown. now rewrite Hs.
        -- apply in_app_iff in Hi. destruct Hi as [Hi|[<-|[]]]; [exact (F2 i Hi)|].
           rewrite (proj2 (id_eqb_eq id id) eq_refl) in Z. discriminate.
      * intros i s'. rewrite P4. destruct (id_eqb i id) eqn:Z.
        -- apply id_eqb_eq in Z. subst i. intros _. apply in_app_iff. simpl. auto.
        -- intros H. apply in_app_iff. left. eapply F3; eauto.
      * intros i Hi. apply again_snoc in Hi. destruct Hi as [Hi|[-> Hi]]; [auto|]. destruct (F2 id Hi) as (d' & Hd' & Td' & Hs').
        exists d'. split; auto. split; auto. unfold shown at 1 in Hs'. rewrite P2 in Hs'. symmetry in Hs'. eapply shown_none; eauto.
    + destruct Sp as (-> & -> & P1 & _). destruct Hf as [F1 F2 F3 F4]. apply F1 in P1.
      destruct (F2 _ (F3 _ _ P1)) as (d' & Hd' & _ & Hs'). unfold shown at 1 in Hs'. rewrite P1 in Hs'. symmetry in Hs'. apply shown_name in Hs'.
      assert (r2 = id) as ->.
      { apply (past_now w1 d _ _ Hd), (past_one w1 _ (u_in cs cu cn ce keep w1)) in Hs.
        apply (past_now w1 d' _ _ Hd'), (past_one w1 _ (u_in cs cu cn ce keep w1)) in Hs'. congruence. }
      left. exists s, id. split; auto. rewrite <- app_assoc. split; [exists done, ids; split; eauto|]. exists d. auto.
    + exfalso. destruct Sp as (-> & -> & P1 & P2 & _). destruct Hf as [F1 F2 F3 F4].
      destruct (F2 _ (F3 _ _ P2)) as (d' & Hd' & _ & Hs'). unfold shown at 1 in Hs'. rewrite P2 in Hs'. symmetry in Hs'. apply shown_name in Hs'.
      apply (past_now w1 d _ _ Hd) in Hs. apply (past_now w1 d' _ _ Hd') in Hs'. assert (l2 = s) by congruence. subst l2.
      apply F1 in P2. congruence.
  - apply IH; auto. destruct Hf as [F1 F2 F3 F4]. split; auto.
    + intros i Hi. apply in_app_iff in Hi. destruct Hi as [Hi|[<-|[]]]; auto.
      destruct (r2l new id) as [s|] eqn:Q; [apply F2; eauto|]. unfold shown at 1. rewrite Q.
      destruct He as (d & Hd & Td & Hs). exists d. split; auto. split; auto. unfold shown in Hs |- *. now destruct (rho d id).
    + intros i s Hi. apply in_app_iff. left. eapply F3; eauto.
    + intros i Hi. apply again_snoc in Hi. destruct Hi as [Hi|[-> Hi]]; [auto|]. destruct He as (d & Hd & Td & Hs).
      exists d. split; auto. split; auto. symmetry in Hs. eapply shown_none; eauto.
Qed.
Definition ids_of (xs : list (result unit (triple I * EP))) : list I :=
  flat_map (fun r => match r with Ok te => ids3 (fst te) | Err _ => [] end) xs.
Lemma rg_set_edge_names (xs : list (result unit (triple I * EP))) : forall done new w, always T w -> filled done new w ->
  rg (qdone (fun e => In (Err e) xs) (done ++ ids_of xs)) (rs_set_edge_names (SE := SE) cs cu seqb xs new) w.
Proof.
  induction xs as [|[[t p]|e] xs IH]; intros done new w HT Hf.
  - simpl. rewrite app_nil_r. exact Hf.
  - cbn [rs_set_edge_names]. apply rg_bind. change (ids_of (Ok (t, p) :: xs)) with (ids3 t ++ ids_of xs). rewrite app_assoc.
    eapply rg_mono; [exact rext_refl|exact rext_trans| |apply (rg_set_names (ids3 t) done new w HT Hf)].
    cbv beta. intros [ix|[x|x]] w1 H1 Hx.
    + eapply rg_mono; [exact rext_refl|exact rext_trans| |apply (IH (done ++ ids3 t) ix w1); [eapply always_later; eauto|exact Hx]].
      intros [ix2|[y|y]] w2 H2 Hy; simpl in Hy |- *; auto. destruct Hy as [Hy|(e & He & ->)]; eauto.
    + exact Hx.
    + destruct Hx as [(s & i & -> & Ha & Hd)|(e & [] & _)]. simpl. left. exists s, i. split; auto. split; auto. now apply again_more.
  - simpl. right. exists e. auto.
Qed.
End Fill.

(** ** The query *)
Definition known w d : Prop := forall d1, In d1 (u_past w) -> since (SE := SE) cs cu d1 d.
Lemma always_known w : always (known w) w.
Proof. intros w' Hw d1 Hd. eapply since_now; eauto. Qed.
Notation M := (mem KUlid NP EP).
Definition ids_all (m : M) : list I := vertices m ++ ids_of (iter_edges SPO m).
Definition answered (g u : gen KUlid) (q : query ent) (r : result qerr (rdf S NP EP)) w : Prop :=
  match r with
  | Err (LeftE x) => look_err (mentioned q) x w
  | Err (RightE x) => exists qi (m : M), query_rel (found w) q qi /\ run_from cn ce keep F g qi (Ok m) (gst w) /\
      (twice (ids_all m) x w \/ exists e, In (Err e) (iter_edges SPO m) /\ x = GraphStorageError e)
  | Ok r' => exists qi w1, query_rel (found w) q qi /\ rext w1 w /\ run_from cn ce keep F g qi (Ok (r_graph r')) (gst w1) /\
      filled (known w1) (ids_all (r_graph r')) (name_index r') w /\ r_ulids r' = u
  end.
Lemma twice_later l x w w' : rext w w' -> twice l x w -> twice l x w'.
Proof. intros (_ & _ & H) (s & i & -> & Ha & d & Hd & Hi). exists s, i. split; auto. split; auto. exists d. auto. Qed.
Lemma qrel_later q qi w w' : rext w w' -> query_rel (found w) q qi -> query_rel (found w') q qi.
Proof. intros H. apply query_rel_mono. intros e i. now apply found_later. Qed.
Lemma answered_later g u q r w w' : rext w w' -> answered g u q r w -> answered g u q r w'.
Proof.
  intros Hw. destruct r as [r'|[x|x]]; simpl.
  - intros (qi & w1 & H1 & H2 & H3 & H4 & H5). exists qi, w1. split; [eapply qrel_later; eauto|]. split; [eapply rext_trans; eauto|].
    split; auto. split; auto. eapply filled_later; eauto.
  - apply look_err_later; auto.
  - intros (qi & m & H1 & H2 & H3). exists qi, m. split; [eapply qrel_later; eauto|].
    split; [eapply run_from_later; [apply rext_gst; exact Hw|exact H2]|]. destruct H3 as [H3|H3]; auto. left. eapply twice_later; eauto.
Qed.
Lemma filled_new T w : filled T [] index_new w.
Proof. split; [intros s i; split; discriminate|intros i []|discriminate|intros i ([|] & l2 & [=] & H)]. Qed.

Lemma rg_rl_run cuts g u q w : rg (answered g u q) (rl_run (NP := NP) (EP := EP) (SE := SE) cs cu cn ce cuts seqb g u q) w.
Proof.
  unfold rl_run. apply rg_bind. unfold on_left at 1. apply rg_bind.
  eapply rg_mono; [exact rext_refl|exact rext_trans| |apply rg_query]. cbv beta. intros [qi|x] w1 H1 Hq; [|exact Hq]. cbn [res] in Hq. cbn [SledRely.rg].
  apply rg_bind. apply rg_bind. apply rg_bind.
  eapply rg_mono; [exact rext_refl|exact rext_trans| |apply rg_graph; apply (rg_run_from cn ce keep F g qi cuts)].
  cbv beta. intros [m|x] w2 H2 Hm; cbn [SledRely.rg from_graph].
  2: { left. destruct Hm as [(y & Hy & ->) _]. exists y. auto. }
  eapply qrel_later in Hq; [|exact H2]. apply rg_bind.
  eapply rg_mono; [exact rext_refl|exact rext_trans| |apply (rg_set_names (known w2) (vertices m) [] index_new w2 (always_known w2) (filled_new _ _))].
  cbv beta. intros [ix|[x|x]] w3 H3 Hx; cbn [app] in Hx.
  - apply rg_bind. eapply rg_mono; [exact rext_refl|exact rext_trans| |
      apply (rg_set_edge_names (known w2) (iter_edges SPO m) (vertices m) ix w3); [eapply always_later; [exact H3|apply always_known]|exact Hx]].
    cbv beta. intros [ix2|[y|y]] w4 H4 Hy.
    + exists qi, w2. split; [eapply qrel_later; [|exact Hq]; eapply rext_trans; eauto|]. split; [eapply rext_trans; eauto|]. split; [exact Hm|]. split; [exact Hy|reflexivity].
    + left. exact Hy.
    + exists qi, m. split; [eapply qrel_later; [|exact Hq]; eapply rext_trans; eauto|].
      split; [eapply run_from_later; [apply rext_gst; exact (rext_trans _ _ _ H3 H4)|exact Hm]|]. exact Hy.
  - left. exact Hx.
  - exists qi, m. split; [eapply qrel_later; eauto|]. split; [eapply run_from_later; [apply rext_gst; exact H3|exact Hm]|].
    destruct Hx as [(s & i & -> & Ha & Hd)|(e & [] & _)]. left. exists s, i. split; auto. split; auto. now apply again_more.
Qed.
End Query.
