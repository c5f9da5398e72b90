(** Why calls of an RdfTripleStore over sled fail, whatever other processes do at the same time. *)
From Coq Require Import Arith NArith List Bool Lia.
From Verif Require Import Bytes BytesFacts OMap OMapFacts Core IdType IdTypeFacts Store Mem MemIndex Spec GenSpec
  CodecFacts ListFacts History Prog ProgFacts Sled SledHistory SledLeaf SledBeside SledIndex SledIndexFacts Rdf RdfSpec RdfSled RdfSledSpec
  RdfSledLeaf RdfSledSafe RdfSledBlame RdfSledRace RdfSledConc SledTop SledTame RdfSledCrowd.
Import ListNotations.

Section Tame.
Context {S NP EP SE BE E : Type} (seqb : S -> S -> bool) (seqb_eq : forall a b, seqb a b = true <-> a = b).
Context (cs : codec BE S) (cu : codec BE (Id KUlid)) (cn : codec BE NP) (ce : codec BE EP).
Context (Hcs : codec_ok cs) (Hcu : codec_ok cu) (Hcn : codec_ok cn) (Hce : codec_ok ce).
Context (mn : NP -> NP -> NP) (me : EP -> EP -> EP).
Notation I := (Id KUlid).
Notation ent := (entity S).
Notation P A := (prog rdb SE A).
Notation rop := (rop S NP EP E).
Notation answer := (routcome (S := S) (SE := SE) (BE := BE) (E := E)).
Notation nu := (name_now (SE := SE) cs cu).
Notation rho := (id_now (SE := SE) cs cu).
Notation ierr := (sled_index_error S I SE BE).
Notation rerr := (rdf_error S ierr (sled_error SE BE)).
Notation PH A := (P (result rerr A * rhandle)).
Notation PR A := (P (result rerr A)).
Notation ids := (S -> option I).
Notation JG := (written_all (k := KUlid) cn ce).
Implicit Types d : rdb.
Implicit Types M : S -> option I.
Implicit Types us : list I.
Implicit Types h : rhandle.
Implicit Types o : rop.

Definition readable d : Prop := index_ok cs cu (r_names d) /\ JG (r_trees d).
Notation J := readable.
Notation names_from := (names_from (SE := SE) cs cu).
Notation ids_from := (ids_from (SE := SE) cs cu).
Notation unused := (unused (SE := SE) cs cu).

Lemma readable_new : J rdb_new.
Proof. split; [apply ok_new|apply J_new]. Qed.

Section Caller.
(** [watch]: the names in the beginning are [B], and others give names of [O] only; [strict]: the
    identifiers drawn for names are not in use.  This caller meets the failures [F] and gives names of [N]. *)
Context (watch strict : Prop) (F : SE -> Prop) (N O : S -> Prop) (B : ids).

Definition relies M d : Prop := watch -> below B (nu d) /\ below M (nu d) /\ forall n, nu d n <> None -> M n <> None \/ O n.
Definition later M M' : Prop := watch -> below M M'.

Fixpoint knows {A} (Q : A -> ids -> list I -> Prop) (p : P A) M us {struct p} : Prop :=
  match p with
  | Ret a => Q a M us
  | Look k => forall d, J d -> knows Q (k d) M us
  | Act u k e =>
      (forall x, F x -> knows Q (e x) M us) /\
      forall d, J d -> (strict -> unused us d) -> relies M d ->
        exists uused us' upost, us = uused ++ us' ++ upost /\
          J (u d) /\ below (nu d) (nu (u d)) /\ names_from N d (u d) /\ ids_from uused d (u d) /\
          knows Q (k d) (nu (u d)) us'
  end.

Lemma later_refl M : later M M.
Proof. intros _. apply below_refl. Qed.
Lemma later_trans M1 M2 M3 : later M1 M2 -> later M2 M3 -> later M1 M3.
Proof. intros H1 H2 W. eapply below_trans; eauto. Qed.

Lemma knows_mono {A} (Q Q' : A -> ids -> list I -> Prop) (p : P A) :
  (forall a M us, Q a M us -> Q' a M us) -> forall M us, knows Q p M us -> knows Q' p M us.
Proof.
  intros HQ. induction p as [a|k IH|u k IHk e IHe]; intros M us; simpl; auto.
  intros (H1 & H2). split; auto. intros d Hw Hu Hr. destruct (H2 d Hw Hu Hr) as (uused & us' & upost & W).
  exists uused, us', upost. intuition auto.
Qed.
Lemma knows_bind {A C} (Q : C -> ids -> list I -> Prop) (p : P A) (f : A -> P C) :
  forall M us, knows (fun a => knows Q (f a)) p M us -> knows Q (bind p f) M us.
Proof.
  induction p as [a|k IH|u k IHk e IHe]; intros M us; simpl; auto.
  intros (H1 & H2). split; auto. intros d Hw Hu Hr. destruct (H2 d Hw Hu Hr) as (uused & us' & upost & W).
  exists uused, us', upost. intuition auto.
Qed.
Lemma knows_later {A} (Q : A -> ids -> list I -> Prop) (p : P A) :
  forall M us, knows Q p M us -> knows (fun a M' us' => later M M' /\ Q a M' us') p M us.
Proof.
  assert (forall M M0 us, later M0 M -> knows Q p M us -> knows (fun a M' us' => later M0 M' /\ Q a M' us') p M us) as H.
  { induction p as [a|k IH|u k IHk e IHe]; intros M M0 us HM; simpl; auto.
    intros (H1 & H2). split; auto. intros d Hw Hu Hr.
    destruct (H2 d Hw Hu Hr) as (uused & us' & upost & W1 & W2 & W3 & W4 & W5 & W6).
    exists uused, us', upost. repeat (split; [solve [auto]|]). apply IHk; auto.
    eapply later_trans; [exact HM|]. intros W. destruct (Hr W) as (_ & Hb & _). eapply below_trans; eauto. }
  intros M us. apply H, later_refl.
Qed.
Lemma knows_bind_later {A C} (Q : C -> ids -> list I -> Prop) (Q1 : A -> ids -> list I -> Prop) (p : P A) (f : A -> P C) M us :
  knows Q1 p M us -> (forall a M' us', later M M' -> Q1 a M' us' -> knows Q (f a) M' us') -> knows Q (bind p f) M us.
Proof. intros Hp Hf. apply knows_bind. eapply knows_mono; [|apply knows_later, Hp]. intros a M' us' [? ?]. auto. Qed.

Notation haves := RdfSledRace.haves.

(** ** Names *)
Lemma knows_names_read {A} (Q : A -> ids -> list I -> Prop)
    (k : idb -> prog idb SE A) (e : SE -> prog idb SE A) M us :
  (forall x, F x -> knows Q (on_names (e x)) M us) ->
  (forall d, J d -> relies M d -> knows Q (on_names (k (r_names d))) (nu d) us) ->
  knows Q (on_names (Act (fun x => x) k e)) M us.
Proof.
  intros He Hk. cbn [on_names knows]. split; auto. intros d Hw Hu Hr.
  exists [], us, []. split; [now rewrite app_nil_r|].
  replace (RDb (r_names d) (r_trees d)) with d by (destruct d; reflexivity).
  split; auto. split; [apply below_refl|]. split; [now apply names_refl|]. split; [now apply ids_refl|].
  eauto.
Qed.

(** The failures of the index, when names of [X] are given. *)
Definition iwhy (X : list S) M (e : ierr) : Prop :=
  match e with
  | ISledError x => F x
  | ISerializationError b => (exists s, ser cs s = Err b) \/ (exists i, ser cu i = Err b)
  | SDuplicateRight n i _ => watch -> In n X /\ B n = None /\ O n /\ M n = Some i
  | SDuplicateLeft _ _ _ => ~ strict
  end.
(** The failures of a call that gives names of [X]. *)
Definition why (X : list S) M (e : rerr) : Prop :=
  match e with
  | NameIndexStorageError e => iwhy X M e
  | GraphStorageError e => excuse cn ce F e
  | NameNotFound _ => False
  end.
Definition rwhy {A} (X : list S) M (r : result rerr A) : Prop := match r with Ok _ => True | Err e => why X M e end.
Lemma why_later X X' M M' e : incl X X' -> later M M' -> why X M e -> why X' M' e.
Proof.
  intros HX H. destruct e as [e|e|n]; simpl; auto. destruct e; simpl; auto. intros H1 W. destruct (H1 W) as (A1 & A2 & A3 & A4).
  repeat split; auto. now apply H.
Qed.

Definition got {A} X m h : result rerr A * rhandle -> ids -> list I -> Prop :=
  fun rh M' us' => haves m (snd rh) us' /\ rwhy X M' (fst rh).

Lemma knows_create e h M us m : (forall n, In n (name_of e) -> N n) -> haves (length (name_of e) + m) h us ->
  knows (got (name_of e) m h) (rs_lookup_or_create (SE := SE) cs cu e h) M us.
Proof.
  intros HN Hh. destruct e as [n|i]; cbn [rs_lookup_or_create name_of length] in *.
  2: { simpl. unfold got. simpl. auto. }
  pose proof (haves_less 1 m h us Hh) as Hh'.
  apply knows_bind. unfold si_left_to_right. destruct (ser cs n) as [lb|b] eqn:Hl.
  2: { simpl. unfold got. simpl. split; auto. left. eauto. }
  apply knows_names_read.
  { intros x Hx. simpl. unfold got. simpl. auto. }
  intros d Hw Hr. cbn [on_names knows]. assert (index_ok cs cu (r_names d)) as Hok by apply Hw.
  rewrite (de_left cs cu d n lb) by auto.
  destruct (left_now cs cu (r_names d) n) as [[i|]|x] eqn:Hn.
  - simpl. unfold got. simpl. auto.
  - unfold fresh. apply knows_bind. set (i := g_seq (rh_ulids h) (g_pos (rh_ulids h))) in *.
    set (u := Gen (g_seq (rh_ulids h)) (Datatypes.S (g_pos (rh_ulids h)))).
    assert (next_ids (rh_ulids h) (1 + m) = i :: next_ids u m) as Hids by reflexivity.
    destruct Hh as (upre & upost & ->). rewrite Hids in *.
    assert (haves m (RHandle (rh_graph h) u) (upre ++ (i :: next_ids u m) ++ upost)) as Hhu.
    { exists (upre ++ [i]), upost. rewrite <- app_assoc. reflexivity. }
    assert (watch -> B n = None) as HB.
    { intros W. destruct (B n) as [j|] eqn:HBn; auto. apply (Hr W) in HBn. apply nu_some in HBn. congruence. }
    assert (nu d n = None) as Hdn.
    { destruct (nu d n) as [j|] eqn:Q; auto. apply nu_some in Q. congruence. }
    unfold si_set. rewrite Hl. destruct (ser cu i) as [rb|b] eqn:Hrb.
    2: { simpl. unfold got. simpl. split; auto. right. eauto. }
    cbn [on_names knows]. split.
    { intros x Hx. simpl. unfold got. simpl. auto. }
    intros d' Hw' Hu' Hr'. assert (index_ok cs cu (r_names d')) as Hok' by apply Hw'.
    assert (strict -> rho d' i = None) as Hfree by (intros Hs; apply (Hu' Hs); rewrite !in_app_iff; simpl; auto).
    pose proof (set_grows (SE := SE) cs cu Hcs Hcu n i lb rb (r_names d') Hl Hrb) as Hg.
    assert (forall x' : ierr, set_body cs cu n i lb rb (r_names d') = Err x' -> iwhy [n] (nu d') x') as Hbad.
    { intros x'. unfold set_body.
      destruct (bget lb (i_l2r (r_names d'))) as [b|] eqn:Q1; cbn [i_l2r i_r2l].
      - destruct (ok_ser cs cu (r_names d') Hok' _ _ Q1) as (n' & i' & Hn' & Hi').
        rewrite (Hcu _ _ Hi'). intros Q. injection Q as <-. simpl. intros W.
        assert (nu d' n = Some i') as Hnow.
        { apply nu_some. apply (left_spec cs cu Hcu _ _ _ Hok'). exists lb, b. auto. }
        split; auto. split; auto. split; auto.
        destruct (Hr' W) as (_ & _ & Hr1). destruct (Hr1 n) as [Hx|Hx]; auto; congruence.
      - destruct (bget rb (i_r2l (r_names d'))) as [b|] eqn:Q2; [|discriminate].
        pose proof (proj2 (ok_both cs cu (r_names d') Hok' b rb) Q2) as Q3.
        destruct (ok_ser cs cu (r_names d') Hok' _ _ Q3) as (n' & i' & Hn' & Hi'). rewrite (Hcs _ _ Hn').
        intros Q. injection Q as <-. simpl. intros Hs.
        rewrite (rho_free cs cu Hcs d' i rb Hok' Hrb (Hfree Hs)) in Q2. discriminate. }
    destruct (set_body cs cu n i lb rb (r_names d')) as [x'|x'] eqn:Hsb.
    + destruct Hg as (Hg & Hn' & Hother).
      exists (upre ++ [i]), (next_ids u m), upost.
      split; [rewrite <- app_assoc; reflexivity|].
      split; [split; [eapply ok_grows; eauto|apply Hw']|].
      split; [apply grows_below; auto|].
      split.
      { intros m' Hm. destruct (nu d' m') eqn:E1; [left; discriminate|]. right.
        destruct (seqb n m') eqn:Q; [apply seqb_eq in Q; subst m'; apply HN; simpl; auto|].
        exfalso. apply Hm. destruct (nu (RDb x' (r_trees d')) m') as [j|] eqn:Hj; auto. apply nu_some in Hj. simpl in Hj.
        rewrite Hother in Hj by (intros ->; rewrite (proj2 (seqb_eq n n) eq_refl) in Q; discriminate).
        apply nu_some in Hj. congruence. }
      split.
      { intros j Hj. destruct (id_eqb i j) eqn:Q.
        - right. apply in_app_iff. right. left. now apply id_eqb_eq.
        - left. revert Hj. unfold id_now. cbn [r_names].
          assert (j <> i) as Hne by (intros ->; rewrite (proj2 (id_eqb_eq i i) eq_refl) in Q; discriminate).
          assert (set_body (L := S) (R := I) (SE := SE) cs cu n i lb rb (r_names d') =
            Ok (IDb (binsert lb rb (i_l2r (r_names d'))) (binsert rb lb (i_r2l (r_names d'))))) as Hsb'.
          { unfold set_body in Hsb |- *. destruct (bget lb (i_l2r (r_names d'))); [destruct (de cu b); discriminate|].
            cbn [i_l2r i_r2l] in *. destruct (bget rb (i_r2l (r_names d'))); [destruct (de cs b); discriminate|]. reflexivity. }
          rewrite Hsb' in Hsb. injection Hsb as <-.
          destruct (right_insert (SE := SE) cs cu Hcs Hcu (r_names d') n i lb rb Hl Hrb j) as [_ Hi]. now rewrite (Hi Hne). }
      cbn [on_names bind knows]. unfold got. cbn [fst snd]. split; [|exact Logic.I].
      exists [], []. now rewrite app_nil_r.
    + exists [], (upre ++ (i :: next_ids u m) ++ upost), []. split; [now rewrite app_nil_r|].
      replace (RDb (r_names d') (r_trees d')) with d' by (destruct d'; reflexivity).
      split; auto. split; [apply below_refl|]. split; [now apply names_refl|]. split; [now apply ids_refl|].
      cbn [on_names bind knows]. unfold got. cbn [fst snd]. split; auto.
      simpl. now apply Hbad.
  - exfalso. pose proof (left_answers (SE := SE) cs cu Hcu (r_names d) n Hok) as Ha. rewrite Hl in Ha. destruct Ha as [q Ha]. congruence.
Qed.

Lemma knows_bind_h {A C} X (Q : _ -> ids -> list I -> Prop) (p : PH A) (f : A -> rhandle -> PH C) h M us m :
  knows (got X m h) p M us ->
  (forall a h' M' us', later M M' -> haves m h' us' -> knows Q (f a h') M' us') ->
  (forall e h' M' us', later M M' -> haves m h' us' -> why X M' e -> Q (Err e, h') M' us') ->
  knows Q (bind_h p f) M us.
Proof.
  intros Hp Hf He. eapply knows_bind_later; [exact Hp|].
  intros [[a|x] h'] M' us' L (H2 & H3); simpl in *; auto.
Qed.

Lemma knows_create3 t h M us m : (forall n, In n (names_of t) -> N n) -> haves (length (names_of t) + m) h us ->
  knows (got (names_of t) m h) (rs_create3 (SE := SE) cs cu t h) M us.
Proof.
  intros HN Hh. unfold names_of in Hh. rewrite !app_length, <- !Nat.add_assoc in Hh. unfold rs_create3.
  assert (incl (name_of (sub t)) (names_of t) /\ incl (name_of (pred t)) (names_of t) /\ incl (name_of (obj t)) (names_of t)) as (I1 & I2 & I3).
  { split; [|split]; intros x Hx; unfold names_of; rewrite !in_app_iff; auto. }
  eapply knows_bind_h; [apply (knows_create _ _ _ _ _ (fun n H => HN n (I1 n H)) Hh)| |].
  2: { intros e h' M' us' _ A2 A3. split; [|exact (why_later _ _ _ _ _ I1 (later_refl _) A3)]. apply haves_less in A2. now apply haves_less in A2. }
  intros a h1 M1 us1 _ H1.
  eapply knows_bind_h; [apply (knows_create _ _ _ _ _ (fun n H => HN n (I2 n H)) H1)| |].
  2: { intros e h' M' us' _ A2 A3. split; [|exact (why_later _ _ _ _ _ I2 (later_refl _) A3)]. now apply haves_less in A2. }
  intros b h2 M2 us2 _ H2.
  eapply knows_bind_h; [apply (knows_create _ _ _ _ _ (fun n H => HN n (I3 n H)) H2)| |].
  2: { intros e h' M' us' _ A2 A3. split; [|exact (why_later _ _ _ _ _ I3 (later_refl _) A3)]. auto. }
  intros c h3 M3 us3 _ H3. simpl. split; auto. exact Logic.I.
Qed.

(** ** Calls on the graph *)
Lemma knows_graph {A} (Q : A -> Prop) (p : prog db SE A) : tame JG F Q p -> forall M us,
  knows (fun a M' us' => us' = us /\ Q a) (on_graph p) M us.
Proof.
  induction p as [a|k IH|u k IHk e IHe]; simpl; auto.
  - intros H M us d Hd. apply IH. apply H, Hd.
  - intros [H1 H2] M us. split; [auto|]. intros d Hd _ Hr. destruct (H1 (r_trees d)) as [J1 T1]; [apply Hd|].
    exists [], us, []. split; [now rewrite app_nil_r|]. split; [split; [apply Hd|exact J1]|].
    split; [apply below_refl|]. split; [now apply names_refl|]. split; [now apply ids_refl|]. now apply IHk.
Qed.
Lemma knows_graph_call f h X M us m : haves m h us ->
  tame JG F (fun rh : result (sled_error SE BE) unit * handle KUlid => well cn ce F (fun _ => True) (fst rh)) (f (rh_graph h)) ->
  knows (got X m h) (graph_call (S := S) f h) M us.
Proof.
  intros Hh Hf. unfold graph_call. apply knows_bind. eapply knows_mono; [|apply knows_graph, Hf].
  intros [[[]|e] gh] M' us' (-> & H); simpl in *; (split; [exact Hh|]); [exact Logic.I|exact H].
Qed.

(** ** Calls *)
Lemma graph_ok {A} X (step : A -> handle KUlid -> prog db SE (result (sled_error SE BE) unit * handle KUlid)) (p : PH A) h M us m :
  knows (got X m h) p M us ->
  (forall a g, tame JG F (fun rh : result (sled_error SE BE) unit * handle KUlid => well cn ce F (fun _ => True) (fst rh)) (step a g)) ->
  knows (got X m h) (bind_h p (fun a => graph_call (step a))) M us.
Proof.
  intros Hp Hs. eapply knows_bind_h; [exact Hp| |].
  - intros a h' M' us' _ H. eapply knows_mono; [|apply (knows_graph_call (step a) h' X)]; eauto.
  - intros e h' M' us' _ H1 H2. split; auto.
Qed.
Lemma knows_insert_node e p h M us m : (forall n, In n (name_of e) -> N n) -> haves (length (name_of e) + m) h us ->
  knows (got (name_of e) m h) (rs_insert_node cs cu cn e p h) M us.
Proof.
  intros HN Hh. apply (graph_ok _ (fun id g => and_handle g (s_insert_node cn id p))); [now apply knows_create|].
  intros. apply (tame_and_handle cn ce F (well cn ce F (fun _ => True))). apply tame_insert_node.
Qed.
Lemma knows_merge_node e p h M us m : (forall n, In n (name_of e) -> N n) -> haves (length (name_of e) + m) h us ->
  knows (got (name_of e) m h) (rs_merge_node cs cu cn mn e p h) M us.
Proof.
  intros HN Hh. apply (graph_ok _ (fun id g => and_handle g (s_merge_node cn mn id p))); [now apply knows_create|].
  intros. apply (tame_and_handle cn ce F (well cn ce F (fun _ => True))). now apply tame_merge_node.
Qed.
Lemma knows_insert_edge t p h M us m : (forall n, In n (names_of t) -> N n) -> haves (length (names_of t) + m) h us ->
  knows (got (names_of t) m h) (rs_insert_edge cs cu ce t p h) M us.
Proof.
  intros HN Hh. apply (graph_ok _ (fun t => s_insert_edge ce t p)); [now apply knows_create3|].
  intros. apply tame_insert_edge.
Qed.
Lemma knows_merge_edge t p h M us m : (forall n, In n (names_of t) -> N n) -> haves (length (names_of t) + m) h us ->
  knows (got (names_of t) m h) (rs_merge_edge cs cu ce me t p h) M us.
Proof.
  intros HN Hh. apply (graph_ok _ (fun t => s_merge_edge ce me t p)); [now apply knows_create3|].
  intros. now apply tame_merge_edge.
Qed.

(** Looking for names. *)
Definition found {A} (L : list S) us : result rerr A -> ids -> list I -> Prop :=
  fun r M' us' => us' = us /\
  match r with
  | Ok _ => watch -> forall s, In s L -> M' s <> None
  | Err (NameNotFound s) => exists pre post, L = pre ++ s :: post /\ (watch -> (forall n, In n pre -> M' n <> None) /\ below B M') /\ M' s = None
  | Err e => why [] M' e
  end.
Lemma knows_find e M us : knows (found (name_of e) us) (rs_lookup_entity (SE := SE) cs cu e) M us.
Proof.
  destruct e as [n|i]; cbn [rs_lookup_entity name_of].
  2: { simpl. split; auto. }
  apply knows_bind. unfold si_left_to_right. destruct (ser cs n) as [lb|b] eqn:Hl.
  2: { simpl. split; auto. left. eauto. }
  apply knows_names_read.
  { intros x Hx. simpl. split; auto. }
  intros d Hw Hr. cbn [on_names knows]. assert (index_ok cs cu (r_names d)) as Hok by apply Hw.
  rewrite (de_left cs cu d n lb) by auto.
  destruct (left_now cs cu (r_names d) n) as [[i|]|x] eqn:Hn.
  - split; auto. intros _ s [<-|[]]. apply nu_some in Hn. congruence.
  - split; auto. exists [], []. split; auto. split.
    + intros W. split; [intros ? []|]. apply (Hr W).
    + destruct (nu d n) as [j|] eqn:Q; auto. apply nu_some in Q. congruence.
  - exfalso. pose proof (left_answers (SE := SE) cs cu Hcu (r_names d) n Hok) as Ha. rewrite Hl in Ha. destruct Ha as [q Ha]. congruence.
Qed.
Lemma found_then {A C} (L1 L2 : list S) (p : PR A) (f : A -> PR C) M us :
  knows (found L1 us) p M us -> (forall a M', knows (found L2 us) (f a) M' us) -> knows (found (L1 ++ L2) us) (bind_ok p f) M us.
Proof.
  intros Hp Hf. eapply knows_bind_later; [exact Hp|]. intros [a|e] M1 us1 L1' (-> & H1); cbn [knows].
  - eapply knows_mono; [|apply knows_later, Hf]. intros [c|e] M2 us2 (L2' & -> & H2); (split; [reflexivity|]).
    + intros W s Hs. apply in_app_iff in Hs. destruct Hs as [Hs|Hs]; auto. specialize (H1 W s Hs).
      destruct (M1 s) as [i|] eqn:Q; [|congruence]. rewrite (L2' W _ _ Q). discriminate.
    + destruct e as [e|e|s]; auto. destruct H2 as (pre & post & -> & A1 & A2). exists (L1 ++ pre), post.
      split; [now rewrite <- app_assoc|]. split; auto. intros W. destruct (A1 W) as [A3 A4]. split; auto.
      intros n Hn. apply in_app_iff in Hn. destruct Hn as [Hn|Hn]; auto. specialize (H1 W n Hn).
      destruct (M1 n) as [i|] eqn:Q; [|congruence]. rewrite (L2' W _ _ Q). discriminate.
  - split; auto. destruct e as [e|e|s]; auto. destruct H1 as (pre & post & -> & A1 & A2). exists pre, (post ++ L2).
    split; [now rewrite <- app_assoc|]. auto.
Qed.
Lemma found_ret {A} (a : A) M us : knows (found [] us) (Ret (Ok a) : PR A) M us.
Proof. split; auto. Qed.
Lemma found_end {A C} (L : list S) (p : PR A) (f : A -> C) M us :
  knows (found L us) p M us -> knows (found L us) (bind_ok p (fun a => Ret (Ok (f a)))) M us.
Proof. intros H. rewrite <- (app_nil_r L). apply found_then; auto. intros. apply found_ret. Qed.
Lemma knows_find3 t M us : knows (found (names_of t) us) (try_map_prog (rs_lookup_entity (SE := SE) cs cu) t) M us.
Proof.
  apply found_then; [apply knows_find|]. intros s M1. apply found_then; [apply knows_find|]. intros p M2.
  apply found_end, knows_find.
Qed.

(** ** Answers *)
Definition rwell o M (r : answer) : Prop := watch ->
  (exists known, (forall s, In s known -> M s <> None) /\ (forall s, In s (sought o) -> B s <> None -> In s known) /\ r = r_answer seqb known o) \/
  exists e, r = Err (LeftE e) /\ why (given o) M e.
Lemma rwell_later o M M' r : later M M' -> rwell o M r -> rwell o M' r.
Proof.
  intros H Hr W. destruct (Hr W) as [(known & A1 & A2 & A3)|(e & A1 & A2)].
  - left. exists known. split; auto. intros s Hs. specialize (A1 s Hs). destruct (M s) as [i|] eqn:Q; [|congruence]. rewrite (H W _ _ Q). discriminate.
  - right. exists e. split; auto. eapply why_later; eauto. apply incl_refl.
Qed.
Definition replies o m : answer * rhandle -> ids -> list I -> Prop :=
  fun rh M' us' => haves m (snd rh) us' /\ rwell o M' (fst rh).

Lemma first_unknown_all L : first_unknown seqb L L = None.
Proof.
  unfold first_unknown. destruct (find _ L) as [s|] eqn:Q; auto. apply find_some in Q. destruct Q as [Q1 Q2].
  apply negb_true_iff in Q2. exfalso. apply (eq_true_false_abs _ (proj2 (existsb_exists (seqb s) L) (ex_intro _ s (conj Q1 (proj2 (seqb_eq s s) eq_refl)))) Q2).
Qed.
Definition some_in M (s : S) : bool := match M s with Some _ => true | None => false end.
Lemma first_unknown_at M pre s post : (forall n, In n pre -> M n <> None) -> M s = None ->
  first_unknown seqb (filter (some_in M) (pre ++ s :: post)) (pre ++ s :: post) = Some s.
Proof.
  intros Hp Hs. assert (forall n, existsb (seqb n) (filter (some_in M) (pre ++ s :: post)) = true <-> (In n (pre ++ s :: post) /\ M n <> None)) as Hin.
  { intros n. rewrite existsb_exists. split.
    - intros (x & Hx & Hq). apply seqb_eq in Hq. subst x. apply filter_In in Hx. destruct Hx as [H1 H2]. split; auto. unfold some_in in H2. destruct (M n); congruence.
    - intros [H1 H2]. exists n. split; [|now apply seqb_eq]. apply filter_In. split; auto. unfold some_in. destruct (M n); congruence. }
  unfold first_unknown. revert Hin. generalize (filter (some_in M) (pre ++ s :: post)) as K. intros K Hin.
  assert (forall q, (forall n, In n q -> In n pre) -> find (fun n => negb (existsb (seqb n) K)) (q ++ s :: post) = Some s) as H; [|now apply H].
  induction q as [|n q IH]; intros Hq; simpl.
  - replace (existsb (seqb s) K) with false; [reflexivity|]. symmetry. apply not_true_is_false. intros Q. apply Hin in Q. tauto.
  - assert (In n pre) as Hn by (apply Hq; simpl; auto).
    rewrite (proj2 (Hin n)) by (split; [apply in_app_iff; auto|auto]). simpl. apply IH. intros. apply Hq. simpl. auto.
Qed.

Lemma knows_removal {A} o (p : PR A) (step : A -> prog db SE (result (sled_error SE BE) unit)) h M us m :
  given o = [] -> (forall known, r_answer (SE := SE) (BE := BE) seqb known o =
    match first_unknown seqb known (sought o) with Some s => Err (LeftE (NameNotFound s)) | None => Ok tt end) ->
  haves m h us -> knows (found (sought o) us) p M us -> (forall a, tame JG F (well cn ce F (fun _ => True)) (step a)) ->
  knows (replies o m) (left_out (bind_h (bind p (fun r => Ret (r, h))) (fun a => graph_call (fun g => and_handle g (step a))))) M us.
Proof.
  intros Hg Ho Hh Hp Hs. unfold left_out. apply knows_bind. unfold bind_h. apply knows_bind, knows_bind.
  eapply knows_mono; [|exact Hp]. intros [a|e] M1 us1 (-> & H1); cbn [knows fst snd].
  - eapply knows_mono; [|apply knows_later; apply (knows_graph_call (fun g => and_handle g (step a)) h [] M1 us m Hh);
      apply (tame_and_handle cn ce F (well cn ce F (fun _ => True))), Hs].
    intros [[[]|e] h'] M2 us2 (L & A1 & A2); simpl in *; (split; [exact A1|]); intros W.
    + left. exists (sought o). split; [|split].
      * intros s Hin. specialize (H1 W s Hin). destruct (M1 s) as [i|] eqn:Q; [|congruence]. rewrite (L W _ _ Q). discriminate.
      * auto.
      * cbn [fst]. now rewrite Ho, first_unknown_all.
    + right. exists e. split; auto. rewrite Hg. exact A2.
  - split; [exact Hh|]. intros W. cbn [fst]. destruct e as [e|e|s].
    1,2: right; eexists; split; [reflexivity|]; rewrite Hg; exact H1.
    destruct H1 as (pre & post & HL & A1 & A2). destruct (A1 W) as [A3 A4]. left. exists (filter (some_in M1) (sought o)). split; [|split].
    + intros n Hn. apply filter_In in Hn. destruct Hn as [_ Hn]. unfold some_in in Hn. destruct (M1 n); congruence.
    + intros n Hn HB. apply filter_In. split; auto. unfold some_in. destruct (B n) as [i|] eqn:Q; [|congruence]. now rewrite (A4 _ _ Q).
    + rewrite Ho, HL, first_unknown_at; auto.
Qed.
Lemma knows_adding o (p : PH unit) h M us m : (forall known, r_answer (SE := SE) (BE := BE) seqb known o = Ok tt) -> sought o = [] ->
  knows (got (given o) m h) p M us -> knows (replies o m) (left_out p) M us.
Proof.
  intros Ho Hs Hp. apply knows_bind. eapply knows_mono; [|exact Hp]. intros [[[]|e] h'] M' us' (A1 & A2); simpl in *; (split; [exact A1|]); intros W.
  - left. exists []. split; [intros ? []|]. split; [rewrite Hs; intros ? []|]. now rewrite Ho.
  - right. exists e. split; [reflexivity|exact A2].
Qed.

(** Loops *)
Definition loops (err : option E) X m : answer * rhandle -> ids -> list I -> Prop :=
  fun rh M' us' => haves m (snd rh) us' /\
    (fst rh = match err with Some e => Err (RightE e) | None => Ok tt end \/ exists e, fst rh = Err (LeftE e) /\ why X M' e).
Lemma knows_for_each {A} (names : A -> list S) (step : A -> rhandle -> PH unit) m (l : list (result E A)) :
  (forall a h M us m, (forall n, In n (names a) -> N n) -> haves (length (names a) + m) h us -> knows (got (names a) m h) (step a h) M us) ->
  forall h M us,
  (forall s, In s (flat_map names (before_error l)) -> N s) ->
  haves (length (flat_map names (before_error l)) + m) h us ->
  knows (loops (first_error l) (flat_map names (before_error l)) m) (rs_for_each step l h) M us.
Proof.
  intros Hstep. induction l as [|[a|e] l IH]; intros h M us HN Hh.
  - simpl in *. split; auto.
  - cbn [rs_for_each]. apply knows_bind. simpl before_error in *. simpl in HN, Hh. rewrite app_length, <- Nat.add_assoc in Hh.
    assert (forall s, In s (names a) -> N s) as HN1 by (intros s Hs; apply HN, in_app_iff; auto).
    eapply knows_mono; [|exact (Hstep a h M us _ HN1 Hh)].
    intros [[[]|y] h'] M' us' (A1 & A2); cbn [fst snd first_error] in *.
    + eapply knows_mono; [|apply IH; auto; intros s Hs; apply HN, in_app_iff; auto].
      intros rh M2 us2 (B1 & B2). split; auto. destruct B2 as [B2|(e & B2 & B3)]; auto. right. exists e. split; auto.
      eapply why_later; [|apply later_refl|exact B3]. simpl. apply incl_appr, incl_refl.
    + simpl. split; [eapply haves_less; eauto|]. right. exists y. split; auto.
      eapply why_later; [|apply later_refl|exact A2]. apply incl_appl, incl_refl.
  - simpl in *. split; auto.
Qed.
Lemma knows_bulk o (fn : ent -> NP -> rhandle -> PH unit) (fe : triple ent -> EP -> rhandle -> PH unit) m (q : rdf_source S NP EP E) h M us :
  given o = flat_map (fun ip => name_of (fst ip)) (used_nodes q) ++ flat_map (fun te => names_of (fst te)) (used_edges q) ->
  (forall known, r_answer (SE := SE) (BE := BE) seqb known o = match rdf_source_error q with Some e => Err (RightE e) | None => Ok tt end) ->
  sought o = [] ->
  (forall e p h M us m, (forall n, In n (name_of e) -> N n) -> haves (length (name_of e) + m) h us -> knows (got (name_of e) m h) (fn e p h) M us) ->
  (forall t p h M us m, (forall n, In n (names_of t) -> N n) -> haves (length (names_of t) + m) h us -> knows (got (names_of t) m h) (fe t p h) M us) ->
  (forall s, In s (given o) -> N s) -> haves (length (given o) + m) h us ->
  knows (replies o m) (rs_bulk fn fe q h) M us.
Proof.
  intros Hgv Ho Hs Hn He HN Hh. rewrite Hgv in HN, Hh. rewrite app_length, <- Nat.add_assoc in Hh.
  unfold rs_bulk. apply knows_bind. unfold used_nodes, used_edges, rdf_source_error in *.
  eapply knows_mono; [|apply (knows_for_each (fun ip : ent * NP => name_of (fst ip)) (fun ip => fn (fst ip) (snd ip))
    (length (flat_map (fun te : triple ent * EP => names_of (fst te)) match first_error (rs_nodes q) with Some _ => [] | None => before_error (rs_edges q) end) + m) (rs_nodes q))].
  2: { intros [e p]. intros. now apply Hn. }
  2: { intros s Hin. apply HN, in_app_iff. auto. }
  2: exact Hh.
  intros [r h'] M' us' (A1 & A2). cbn [fst snd] in *.
  assert (forall known, (forall s : S, In s known -> False) -> forall M1 : ids, (forall s, In s known -> M1 s <> None) /\ (forall s, In s (sought o) -> B s <> None -> In s known)) as Hk.
  { intros known Hk M1. rewrite Hs. split; [intros s Hin; destruct (Hk s Hin)|intros s []]. }
  destruct A2 as [->|(e & -> & A2)].
  - destruct (first_error (rs_nodes q)) as [e|].
    + simpl. split; [exact A1|]. intros W. left. exists []. destruct (Hk [] (fun s H => H) M'). now rewrite Ho.
    + eapply knows_mono; [|apply (knows_for_each (fun te : triple ent * EP => names_of (fst te)) (fun te => fe (fst te) (snd te)) m (rs_edges q))].
      2: { intros [t p]. intros. now apply He. }
      2: { intros s Hin. apply HN, in_app_iff. auto. }
      2: exact A1.
      intros rh M2 us2 (B1 & B2). split; auto. intros W. destruct B2 as [->|(e & -> & B2)].
      * left. exists []. destruct (Hk [] (fun s H => H) M2). now rewrite Ho.
      * right. exists e. split; auto. eapply why_later; [|apply later_refl|exact B2]. rewrite Hgv. apply incl_appr, incl_refl.
  - simpl. split; [eapply haves_less; eauto|]. intros W. right. exists e. split; auto.
    eapply why_later; [|apply later_refl|exact A2]. rewrite Hgv. apply incl_appl, incl_refl.
Qed.

Lemma knows_apply c o h M us m : (forall s, In s (given o) -> N s) -> haves (length (given o) + m) h us ->
  knows (replies o m) (rl_apply cs cu cn ce mn me c o h) M us.
Proof.
  intros HN Hh. destruct o as [e p|t p|e|t|e p|t p|q|q]; cbn [rl_apply rs_apply].
  - eapply knows_adding; [reflexivity|reflexivity|now apply knows_insert_node].
  - eapply knows_adding; [reflexivity|reflexivity|now apply knows_insert_edge].
  - unfold rl_remove_node. apply (knows_removal (RRemoveNode e)); auto; [apply knows_find|]. intros. apply tame_remove_node.
  - unfold rs_remove_edge. apply (knows_removal (RRemoveEdge t)); auto; [apply knows_find3|]. intros. apply tame_remove_edge.
  - eapply knows_adding; [reflexivity|reflexivity|now apply knows_merge_node].
  - eapply knows_adding; [reflexivity|reflexivity|now apply knows_merge_edge].
  - apply (knows_bulk (RExtend q)); auto; intros; [now apply knows_insert_node|now apply knows_insert_edge].
  - apply (knows_bulk (RMerge q)); auto; intros; [now apply knows_merge_node|now apply knows_merge_edge].
Qed.
Lemma knows_history cuts m (l : list rop) : forall j h M us,
  (forall s, In s (flat_map given l) -> N s) -> haves (length (flat_map given l) + m) h us ->
  knows (fun rsh M' us' => haves m (snd rsh) us' /\ Forall2 (fun o => rwell o M') l (fst rsh)) (rl_history cs cu cn ce mn me cuts j l h) M us.
Proof.
  induction l as [|o l IH]; intros j h M us HN Hh; cbn [rl_history].
  - simpl in *. auto.
  - simpl in HN, Hh. rewrite app_length, <- Nat.add_assoc in Hh.
    assert (forall s, In s (given o) -> N s) as HN1 by (intros s Hs; apply HN, in_app_iff; auto).
    apply knows_bind. eapply knows_mono; [|exact (knows_apply (cuts j) o h M us _ HN1 Hh)].
    intros [r h'] M' us' (A1 & A2). cbn [fst snd] in *. apply knows_bind.
    eapply knows_mono; [|apply knows_later, (IH (Datatypes.S j) h' M' us'); auto; intros s Hs; apply HN, in_app_iff; auto].
    intros [rs h2] M2 us2 (Hb & B1 & B2). simpl. split; auto. constructor; auto. eapply rwell_later; eauto.
Qed.

(** ** Readers *)
Definition rbut {A} (X : rerr -> Prop) : result rerr A -> ids -> list I -> Prop :=
  fun r _ _ => match r with Ok _ => True | Err e => X e end.
Definition ritems {A} (X : rerr -> Prop) : list (result rerr A) -> ids -> list I -> Prop :=
  fun xs _ _ => forall e, In (Err e) xs -> X e.
Definition plain (e : rerr) : Prop :=
  match e with
  | NameIndexStorageError (ISledError x) | GraphStorageError (SledError x) => F x
  | NameIndexStorageError (ISerializationError b) => exists i, ser cu i = Err b
  | _ => False
  end.
Lemma rbut_ok {A C} X (p : PR A) (f : A -> PR C) M us : knows (rbut X) p M us -> (forall a M us, knows (rbut X) (f a) M us) -> knows (rbut X) (bind_ok p f) M us.
Proof. intros Hp Hf. apply knows_bind. eapply knows_mono; [|exact Hp]. intros [a|e] M' us' H; simpl; auto. Qed.
Lemma rbut_mono {A} (X Y : rerr -> Prop) (p : PR A) M us : (forall e, X e -> Y e) -> knows (rbut X) p M us -> knows (rbut Y) p M us.
Proof. intros H. apply knows_mono. intros [a|e] M' us'; simpl; auto. Qed.

Lemma rho_nu d s i : J d -> (rho d i = Some s <-> nu d s = Some i).
Proof.
  intros [Hok _]. rewrite rho_some, nu_some, (right_spec cs cu Hcs _ _ _ Hok), (left_spec cs cu Hcu _ _ _ Hok).
  split; intros (lb & rb & H1 & H2 & H3); exists lb, rb; repeat split; auto; now apply (ok_both _ _ _ Hok).
Qed.
Lemma knows_show_at i M us :
  knows (fun r M' _ => match r with Ok (EString s) => M' s = Some i /\ forall s', M' s' = Some i -> s' = s | Ok (EUlid _) => True | Err e => plain e end)
    (rs_lookup_id (SE := SE) cs cu i) M us.
Proof.
  unfold rs_lookup_id. apply knows_bind. unfold si_right_to_left. destruct (ser cu i) as [rb|b] eqn:Hr; [|simpl; eauto].
  apply knows_names_read; [intros x Hx; exact Hx|]. intros d Hd _. cbn [on_names knows].
  assert (index_ok cs cu (r_names d)) as Hok by apply Hd.
  pose proof (right_answers (SE := SE) cs cu Hcs (r_names d) i Hok) as Ha. rewrite Hr in Ha. destruct Ha as [q Ha].
  assert (de_opt (L := S) (R := I) (SE := SE) cs (bget rb (i_r2l (r_names d))) = right_now cs cu (r_names d) i) as ->.
  { unfold right_now, si_right_to_left, ret_of. rewrite Hr. reflexivity. }
  rewrite Ha. destruct q as [s|]; [|exact Logic.I]. assert (rho d i = Some s) as W by (now apply rho_some). split.
  - now apply rho_nu.
  - intros s' Hs'. apply rho_nu in Hs'; auto. congruence.
Qed.
Lemma knows_show i M us : knows (rbut plain) (rs_lookup_id (SE := SE) cs cu i) M us.
Proof. eapply knows_mono; [|apply knows_show_at]. intros [e|e] M' us' H; simpl; auto. Qed.
Lemma knows_show3 (t : triple I) M us : knows (rbut plain) (try_map_prog (rs_lookup_id (SE := SE) cs cu) t) M us.
Proof. unfold try_map_prog. repeat (apply rbut_ok; [apply knows_show|intros]). exact Logic.I. Qed.
Lemma knows_show_pair {X} (ip : I * X) M us : knows (rbut plain) (rs_show_pair (SE := SE) cs cu ip) M us.
Proof. apply rbut_ok; [apply knows_show|]. intros. exact Logic.I. Qed.
Lemma knows_show_edge (te : triple I * EP) M us : knows (rbut plain) (rs_show_edge (SE := SE) cs cu te) M us.
Proof. apply rbut_ok; [apply knows_show3|]. intros. exact Logic.I. Qed.
Lemma knows_show_props (t : props_triple I NP EP) M us : knows (rbut plain) (rs_show_props (SE := SE) cs cu t) M us.
Proof. unfold rs_show_props. repeat (apply rbut_ok; [apply knows_show_pair|intros]). exact Logic.I. Qed.

Lemma knows_on_graph {A} X (Y : rerr -> Prop) (p : prog db SE (result (sled_error SE BE) A)) M us : tame JG F (but X) p -> (forall e, X e -> Y (GraphStorageError e)) ->
  knows (fun r _ _ => match r with Ok _ => True | Err e => Y (GraphStorageError e) end) (on_graph p) M us.
Proof. intros Hp H. eapply knows_mono; [|apply knows_graph, Hp]. intros [a|e] M' us' (_ & W); simpl in *; auto. Qed.

Lemma knows_item {A C} (X : sled_error SE BE -> Prop) (Y : rerr -> Prop) (item : bytes * bytes -> prog db SE (result (sled_error SE BE) A)) (show : A -> PR C) kv M us :
  (forall y, F y -> X (SledError y)) -> (forall e, X e -> Y (GraphStorageError e)) -> (forall e, plain e -> Y e) ->
  tame JG F (but X) (item kv) -> (forall a M us, knows (rbut plain) (show a) M us) ->
  knows (rbut Y) (shown_item item show kv) M us.
Proof.
  intros HF HX HP Hi Hs. apply knows_bind. eapply knows_mono; [|apply (knows_on_graph X Y); [|exact HX]].
  - intros [a|e] M' us' H; simpl; auto. eapply rbut_mono; [exact HP|apply Hs].
  - apply but_next; auto.
Qed.
Lemma knows_map {X C} Y (f : X -> PR C) l : (forall x M us, In x l -> knows (rbut Y) (f x) M us) -> forall M us, knows (ritems Y) (map_prog f l) M us.
Proof.
  induction l as [|x l IH]; intros H M us; [intros e []|]. cbn [map_prog]. apply knows_bind. eapply knows_mono; [|apply H; now left]. intros y M1 us1 Hy.
  apply knows_bind. eapply knows_mono; [|apply IH; intros; apply H; now right]. intros ys M2 us2 Hys e [->|He']; [exact Hy|now apply Hys].
Qed.
Lemma knows_scan {A C} Y x entries (item : bytes * bytes -> prog db SE (result (sled_error SE BE) A)) (show : A -> PR C) :
  from (k := KUlid) cn ce x entries -> (forall kv M us, entry_ok (k := KUlid) cn ce x kv -> knows (rbut Y) (shown_item item show kv) M us) ->
  forall cuts lo M us, knows (ritems Y) (rl_scan_from entries item show lo cuts) M us.
Proof.
  intros Hx Hf.
  assert (forall lo hi M us, knows (ritems Y) (Look (fun d => map_prog (shown_item item show) (piece lo hi (entries (r_trees d))))) M us) as H.
  { intros lo hi M us d Hd. apply knows_map. intros kv M1 us1 Hin. apply Hf. eapply Hx; [apply Hd|]. eauto using in_piece. }
  induction cuts as [|c cuts IH]; intros lo M us; [apply H|]. cbn [rl_scan_from]. apply knows_bind. eapply knows_mono; [|apply H]. intros xs M1 us1 Hxs.
  apply knows_bind. eapply knows_mono; [|apply IH]. intros ys M2 us2 Hys e Hin. apply in_app_iff in Hin. destruct Hin; auto.
Qed.
Definition short (e : rerr) : Prop := plain e \/ e = GraphStorageError MissingPropertyData.
Lemma met_plain e : just_met (BE := BE) F e -> plain (GraphStorageError e).
Proof. intros (x & Hx & ->). exact Hx. Qed.
Lemma lacks_short e : lacking (BE := BE) F e -> short (GraphStorageError e).
Proof. intros [H| ->]; [left; now apply met_plain|now right]. Qed.

Lemma knows_iter_vertices cuts M us : knows (ritems plain) (rl_iter_vertices (SE := SE) cs cu cn cuts) M us.
Proof.
  apply (knows_scan _ TNode); [apply from_all|]. intros kv M1 us1 Hkv.
  apply (knows_item (just_met F)); auto using met_is, met_plain, knows_show_pair. destruct kv as [key v]. destruct Hkv as [Hl Hv]. simpl in Hl.
  destruct (id_ok (SE := SE) (BE := BE) (k := KUlid) key Hl) as [i Hi]. unfold node_item. simpl. rewrite Hi. simpl. destruct Hv as [p Hp]. apply Hcn in Hp. simpl in Hp. rewrite Hp. exact Logic.I.
Qed.
Lemma knows_vertices cuts M us : knows (rbut plain) (rl_vertices (SE := SE) (BE := BE) cs cu cuts) M us.
Proof.
  unfold rl_vertices. apply knows_bind. eapply knows_mono; [|apply knows_graph, tame_vertices].
  intros [is|e] M1 us1 (_ & H); [|now apply met_plain]. clear H. revert M1 us1. induction is as [|i is IH]; intros M1 us1; [exact Logic.I|]. cbn [collect_prog].
  apply rbut_ok; [apply knows_show|]. intros. apply rbut_ok; [apply IH|]. intros. exact Logic.I.
Qed.
Lemma edges_from (o : edge_order) : exists x, from (k := KUlid) cn ce x (edge_entries o) /\ forall kv, entry_ok (k := KUlid) cn ce x kv -> length (fst kv) = 3 * width KUlid.
Proof. destruct o; [exists TSpo|exists TPos|exists TOsp]; (split; [apply from_all|auto]). Qed.
Lemma knows_iter_edges cuts (o : edge_order) M us : knows (ritems short) (rl_iter_edges (SE := SE) cs cu ce cuts o) M us.
Proof.
  destruct (edges_from o) as (x & H1 & H2). apply (knows_scan _ x); auto. intros kv M1 us1 Hkv.
  apply (knows_item (lacking F)); auto using met_lacks, lacks_short, knows_show_edge; [now left|].
  unfold edge_of_entry. rewrite well_key by auto. apply (tame_edge_item cn ce Hce).
Qed.
Lemma knows_iter_edges_with_props cuts (o : edge_order) M us : knows (ritems short) (rl_iter_edges_with_props (SE := SE) cs cu cn ce cuts o) M us.
Proof.
  destruct (edges_from o) as (x & H1 & H2). apply (knows_scan _ x); auto. intros kv M1 us1 Hkv.
  apply (knows_item (lacking F)); auto using met_lacks, lacks_short, knows_show_props; [now left|].
  unfold props_of_entry. rewrite well_key by auto. apply (tame_iter_impl cn ce Hcn Hce).
Qed.

(** Queries *)
Definition qplain (q : query ent) (e : rerr) : Prop :=
  match e with
  | NameIndexStorageError (ISerializationError b) => (exists i, ser cu i = Err b) \/ exists s, In (EString s) (asked q) /\ ser cs s = Err b
  | NameNotFound s => watch -> In (EString s) (asked q) /\ B s = None
  | _ => plain e
  end.
Lemma knows_collect {X C} Y (f : X -> PR C) l : (forall x M us, In x l -> knows (rbut Y) (f x) M us) -> forall M us, knows (rbut Y) (collect_prog f l) M us.
Proof.
  induction l as [|x l IH]; intros H M us; [exact Logic.I|]. cbn [collect_prog]. apply rbut_ok; [apply H; now left|]. intros.
  apply rbut_ok; [apply IH; intros; apply H; now right|]. intros. exact Logic.I.
Qed.
Lemma knows_find_q q e M us : In e (asked q) -> knows (rbut (qplain q)) (rs_lookup_entity (SE := SE) cs cu e) M us.
Proof.
  intros Hin. destruct e as [s|i]; [|exact Logic.I].
  cbn [rs_lookup_entity]. apply knows_bind. unfold si_left_to_right. destruct (ser cs s) as [lb|b] eqn:Hl; [|simpl; eauto].
  apply knows_names_read; [intros x Hx; exact Hx|]. intros d Hw Hr. cbn [on_names knows]. assert (index_ok cs cu (r_names d)) as Hok by apply Hw.
  rewrite (de_left cs cu d s lb) by auto. pose proof (left_answers (SE := SE) cs cu Hcu (r_names d) s Hok) as Ha. rewrite Hl in Ha.
  destruct Ha as [[i|] Ha]; rewrite Ha; [exact Logic.I|]. intros W. split; auto. destruct (Hr W) as (R1 & _). destruct (B s) as [j|] eqn:Q; auto.
  apply R1, nu_some in Q. congruence.
Qed.
Lemma knows_look_query q M us : knows (rbut (qplain q)) (query_try_prog (rs_lookup_entity (SE := SE) cs cu) q) M us.
Proof.
  pose proof (knows_find_q q) as H.
  destruct q; cbn [query_try_prog asked] in *; (apply rbut_ok; [apply knows_collect|intros; exact Logic.I]); intros x M1 us1 Hx; auto.
  - destruct x as [[a b] c]. unfold triple_prog.
    assert (forall e, In e [a; b; c] -> In e (flat_map (fun t : ent * ent * ent => [fst (fst t); snd (fst t); snd t]) l)) as W
      by (intros e He; apply in_flat_map; eauto).
    repeat (apply rbut_ok; [apply H, W; simpl; auto|intros]). exact Logic.I.
  - unfold pair_prog. assert (forall e, In e [fst x; snd x] -> In e (flat_map (fun t : ent * ent => [fst t; snd t]) l)) as W by (intros e He; apply in_flat_map; eauto).
    repeat (apply rbut_ok; [apply H, W; simpl; auto|intros]). exact Logic.I.
  - unfold pair_prog. assert (forall e, In e [fst x; snd x] -> In e (flat_map (fun t : ent * ent => [fst t; snd t]) l)) as W by (intros e He; apply in_flat_map; eauto).
    repeat (apply rbut_ok; [apply H, W; simpl; auto|intros]). exact Logic.I.
  - unfold pair_prog. assert (forall e, In e [fst x; snd x] -> In e (flat_map (fun t : ent * ent => [fst t; snd t]) l)) as W by (intros e He; apply in_flat_map; eauto).
    repeat (apply rbut_ok; [apply H, W; simpl; auto|intros]). exact Logic.I.
Qed.

Notation rix := (mem_index S I).
Notation qerr := (lr_error rerr (rdf_error S (index_error S I) unit)).
(** The names of the result are names of the store. *)
Definition copied (new : rix) M : Prop :=
  (forall s i, left_to_right seqb new s = Some i -> M s = Some i) /\ forall s i, right_to_left id_eqb new i = Some s -> left_to_right seqb new s = Some i.
Definition qwell {A} (q : query ent) (Q : A -> ids -> Prop) : result qerr A -> ids -> list I -> Prop :=
  fun r M _ => match r with
  | Ok a => Q a M
  | Err (LeftE e) => qplain q e
  | Err (RightE (NameIndexStorageError x)) => watch -> exists s i, x = DuplicateRight s i i /\ M s = Some i
  | Err (RightE _) => True
  end.
Lemma plain_q q e : plain e -> qplain q e.
Proof. destruct e as [e|e|n]; [destruct e|destruct e|]; simpl; auto. intros []. Qed.
Lemma qwell_ok {A C} q (Q : A -> ids -> Prop) (Q' : C -> ids -> Prop) (p : P (result qerr A)) (f : A -> P (result qerr C)) M us :
  knows (qwell q Q) p M us -> (forall a M' us', later M M' -> Q a M' -> knows (qwell q Q') (f a) M' us') -> knows (qwell q Q') (bind_ok p f) M us.
Proof. intros Hp Hf. eapply knows_bind_later; [exact Hp|]. intros [a|e] M' us' L H; simpl; auto. Qed.
Lemma knows_on_left {A} q (Q : A -> ids -> Prop) (p : PR A) M us :
  knows (fun r M' _ => match r with Ok a => Q a M' | Err e => qplain q e end) p M us -> knows (qwell q Q) (on_left p) M us.
Proof. intros Hp. apply knows_bind. eapply knows_mono; [|exact Hp]. intros [a|e] M' us' H; simpl; auto. Qed.
Lemma copied_later new M M' : later M M' -> watch -> copied new M -> copied new M'.
Proof. intros H W [H1 H2]. split; auto. intros s i Q. apply (H W); auto. Qed.
Lemma knows_set_names q is : forall new M us, (watch -> copied new M) ->
  knows (qwell q (fun new' M' => watch -> copied new' M')) (rs_set_names (SE := SE) cs cu seqb is new) M us.
Proof.
  induction is as [|i is IH]; intros new M us Hc; [exact Hc|]. cbn [rs_set_names]. eapply qwell_ok.
  { apply knows_on_left. eapply knows_mono; [|apply knows_show_at].
    intros r M' us' H. instantiate (1 := fun e M' => match e with EString s => M' s = Some i /\ forall s', M' s' = Some i -> s' = s | EUlid _ => True end).
    destruct r as [[s|j]|e]; simpl; auto. now apply plain_q. }
  intros [s|j] M' us' L H; [|apply IH; intros W; now apply (copied_later _ _ _ L W), Hc].
  destruct H as [H1 H2]. unfold index_set. destruct (left_to_right seqb new s) as [r0|] eqn:E0.
  { intros W. exists s, i. split; auto. destruct (copied_later _ _ _ L W (Hc W)) as [C1 _]. apply C1 in E0. congruence. }
  cbn [right_to_left idx_r2l]. destruct (right_to_left id_eqb (MemIndex ((s, i) :: idx_l2r new) (idx_r2l new)) i) as [l0|] eqn:E1.
  { intros W. exfalso. destruct (copied_later _ _ _ L W (Hc W)) as [C1 C2]. change (right_to_left id_eqb new i = Some l0) in E1.
    apply C2 in E1. pose proof (C1 _ _ E1) as E2. apply H2 in E2. subst. congruence. }
  apply IH. intros W. destruct (copied_later _ _ _ L W (Hc W)) as [C1 C2]. split.
  - intros s1 i1. unfold left_to_right. simpl. destruct (seqb s1 s) eqn:Q; [|apply C1]. apply seqb_eq in Q. intros [= <-]. now subst.
  - intros s1 i1. unfold right_to_left, left_to_right. simpl. destruct (id_eqb i1 i) eqn:Q.
    + apply id_eqb_eq in Q. intros [= <-]. subst. destruct (seqb s s) eqn:R; auto. assert (seqb s s = true) by (now apply seqb_eq). congruence.
    + intros Hs. apply C2 in Hs. destruct (seqb s1 s) eqn:R; [|exact Hs]. apply seqb_eq in R. subst. congruence.
Qed.
Lemma knows_set_edge_names q (es : list (result unit (triple I * EP))) : forall new M us, (watch -> copied new M) ->
  knows (qwell q (fun new' M' => watch -> copied new' M')) (rs_set_edge_names (SE := SE) cs cu seqb es new) M us.
Proof.
  induction es as [|[[t p]|e] es IH]; intros new M us Hc; [exact Hc| |exact Logic.I]. cbn [rs_set_edge_names].
  eapply qwell_ok; [now apply knows_set_names|]. intros. now apply IH.
Qed.
Lemma knows_run cuts g u (q : query ent) M us : knows (qwell q (fun _ _ => True)) (rl_run (SE := SE) cs cu cn ce cuts seqb g u q) M us.
Proof.
  unfold rl_run. eapply (qwell_ok _ (fun _ _ => True)).
  { apply knows_on_left. eapply knows_mono; [|apply knows_look_query]. intros [a|e] M' us' H; simpl in *; auto. }
  intros qi M1 us1 _ _. eapply (qwell_ok _ (fun _ _ => True)).
  { apply knows_on_left. apply knows_bind. eapply knows_mono; [|apply knows_graph, (tame_run cn ce Hcn Hce)].
    intros [a|e] M' us' (_ & H); [exact Logic.I|]. exact (plain_q q _ (met_plain _ H)). }
  intros m M2 us2 _ _. eapply qwell_ok; [apply knows_set_names; split; discriminate|]. intros ix M3 us3 _ H3.
  eapply qwell_ok; [apply knows_set_edge_names; exact H3|]. intros. exact Logic.I.
Qed.
End Caller.

(** ** Together *)
Section Crowd.
Context (watch strict : Prop) {A : Type} (schedule : list (nat * option SE)) (Gv : nat -> S -> Prop) (B : ids) (Q : nat -> A -> ids -> Prop).
Definition by_other (i : nat) (s : S) : Prop := exists j, j <> i /\ Gv j s.
Definition hits (i : nat) (x : SE) : Prop := In (i, Some x) schedule.
Record part : Type := Part { pt_seen : ids; pt_ids : list I }.
Definition fits (d : rdb) (i : nat) (p : P A) (x : part) : Prop :=
  knows watch strict (hits i) (Gv i) (by_other i) B (fun a M _ => Q i a M) p (pt_seen x) (pt_ids x) /\
  relies watch (by_other i) B (pt_seen x) d.
Definition all_fit (ps : list (P A)) d (xs : list part) : Prop :=
  length ps = length xs /\
  (forall i p x, nth_error ps i = Some p -> nth_error xs i = Some x -> fits d i p x) /\
  J d /\ (strict -> unused (flat_map pt_ids xs) d).

Lemma fits_later d d' i p x : below (nu d) (nu d') -> names_from (by_other i) d d' -> fits d i p x -> fits d' i p x.
Proof.
  intros H1 H2 (H3 & R). split; auto. intros W. destruct (R W) as (R1 & R2 & R3).
  split; [eapply below_trans; eauto|]. split; [eapply below_trans; eauto|].
  intros n Hn. destruct (H2 n Hn); auto.
Qed.

Lemma crowd_step todo : forall ps d xs, incl todo schedule -> all_fit ps d xs ->
  exists xs', all_fit (fst (interleave todo ps d)) (snd (interleave todo ps d)) xs'.
Proof.
  induction todo as [|[i f] todo IH]; intros ps d xs Hin Hall; simpl; [eauto|].
  assert (incl todo schedule) as Hin' by (intros z Hz; apply Hin; simpl; auto).
  destruct (nth_error ps i) as [p|] eqn:Hi; [|now apply IH with xs].
  destruct Hall as (Hlen & Hsuit & Hw & Hun).
  destruct (nth_error xs i) as [x|] eqn:Hx.
  2: { apply nth_error_None in Hx. assert (i < length ps) by (apply nth_error_Some; congruence). lia. }
  pose proof (Hsuit i p x Hi Hx) as [Ht Hr].
  apply nth_error_split in Hi. destruct Hi as (pa & pb & -> & <-).
  apply nth_error_split in Hx. destruct Hx as (xa & xb & -> & Hla).
  rewrite !app_length in Hlen. simpl in Hlen.
  assert (exists x' uused upost, fits (snd (step1 f p d)) (length pa) (fst (step1 f p d)) x' /\
    pt_ids x = uused ++ pt_ids x' ++ upost /\
    J (snd (step1 f p d)) /\ below (nu d) (nu (snd (step1 f p d))) /\
    names_from (Gv (length pa)) d (snd (step1 f p d)) /\ ids_from uused d (snd (step1 f p d)))
    as (x' & uused & upost & Hs' & Hi & Hw' & Hb & Hn & Hd).
  { assert (forall p', fits d (length pa) p' x -> exists x' uused upost, fits d (length pa) p' x' /\
      pt_ids x = uused ++ pt_ids x' ++ upost /\
      J d /\ below (nu d) (nu d) /\ names_from (Gv (length pa)) d d /\ ids_from uused d d) as Hsame.
    { intros p' Hp'. exists x, [], []. rewrite !app_nil_r. split; auto. split; auto. split; auto.
      split; [apply below_refl|]. split; [now apply names_refl|now apply ids_refl]. }
    destruct p as [a|k|u k e]; simpl.
    - apply Hsame. split; auto.
    - apply Hsame. split; auto.
    - destruct Ht as [H1 H2]. destruct f as [y|]; simpl.
      + apply Hsame. split; auto. apply H1. apply Hin. simpl. auto.
      + assert (strict -> unused (pt_ids x) d) as Hux.
        { intros Hs. destruct (Hun Hs) as [F1 F2]. rewrite flat_map_app in F1, F2. simpl in F1, F2. apply NoDup_app_iff in F1. destruct F1 as (_ & F1 & _).
          apply NoDup_app_iff in F1. split; [apply F1|]. intros z Hz. apply F2. rewrite !in_app_iff. auto. }
        destruct (H2 d Hw Hux Hr) as (uused & us' & upost & W1 & W2 & W3 & W4 & W5 & W6).
        exists (Part (nu (u d)) us'), uused, upost. simpl. split; [|auto 10]. split; auto.
        intros W. destruct (Hr W) as (R1 & R2 & R3). split; [eapply below_trans; eauto|]. split; [apply below_refl|]. auto. }
  rewrite (surjective_pairing (step1 f p d)). rewrite replace_app.
  set (d' := snd (step1 f p d)) in *. set (p' := fst (step1 f p d)) in *.
  apply (IH (pa ++ p' :: pb) d' (xa ++ x' :: xb)); auto. split; [rewrite !app_length; simpl; lia|]. split; [|split; [exact Hw'|]].
  - intros j q y Hq Hy. destruct (Nat.eq_dec j (length pa)) as [->|Hne].
    + rewrite nth_mid in Hq. injection Hq as <-. rewrite <- Hla, nth_mid in Hy. injection Hy as <-. exact Hs'.
    + rewrite (nth_mid_other pa p' p pb j) in Hq by auto. rewrite (nth_mid_other xa x' x xb j) in Hy by lia.
      apply (fits_later d d' j q y Hb); auto. intros n H. destruct (Hn n H) as [W|W]; auto. right. exists (length pa). auto.
  - intros Hs. specialize (Hun Hs). rewrite !flat_map_app in *. simpl in *. rewrite Hi in Hun.
    destruct Hun as [G1 G2]. split.
    + apply NoDup_app_iff in G1. destruct G1 as (A1 & A2 & A3). apply NoDup_app_iff in A2. destruct A2 as (B1 & B2 & B3).
      apply NoDup_app_iff in B1. destruct B1 as (C1 & C2 & C3). apply NoDup_app_iff in C2. destruct C2 as (D1 & D2 & D3).
      apply NoDup_app_iff. split; auto. split.
      * apply NoDup_app_iff. split; auto. split; auto. intros z Hz. apply B3. rewrite !in_app_iff. auto.
      * intros z Hz Hz2. apply (A3 z Hz). rewrite !in_app_iff in *. tauto.
    + intros z Hz. destruct (rho d' z) eqn:W; auto. exfalso. destruct (Hd z) as [Hu|Hu]; [congruence| |].
      * apply Hu. apply G2. rewrite !in_app_iff in *. tauto.
      * apply NoDup_app_iff in G1. destruct G1 as (A1 & A2 & A3). apply NoDup_app_iff in A2. destruct A2 as (B1 & B2 & B3).
        apply NoDup_app_iff in B1. destruct B1 as (C1 & C2 & C3).
        rewrite !in_app_iff in Hz. destruct Hz as [Hz|[Hz|Hz]].
        -- apply (A3 z Hz). rewrite !in_app_iff. auto.
        -- apply (C3 z Hu). rewrite !in_app_iff. auto.
        -- apply (B3 z); auto. rewrite !in_app_iff. auto.
Qed.
End Crowd.

(** Without a watch on names, [knows] is [tame]. *)
Lemma knows_tame {A} F N O B (Q : A -> Prop) (p : P A) : forall M us,
  knows False False F N O B (fun a _ _ => Q a) p M us -> tame J F Q p.
Proof.
  induction p as [a|k IH|u k IHk e IHe]; intros M us; simpl; auto.
  - intros H d Hd. eapply IH, H, Hd.
  - intros [H1 H2]. split; [|intros; eapply IHe; eauto]. intros d Hd.
    destruct (H2 d Hd) as (uused & us' & upost & _ & W1 & _ & _ & _ & W2); [intros []|intros []|]. split; auto. eapply IHk, W2.
Qed.

Notation crowd := (name_crowd (S := S) (NP := NP) (EP := EP) (SE := SE) (E := E)).
Notation run := (name_run (SE := SE) (E := E) cs cu cn ce mn me).

Lemma nth_rl_callers cuts (ts : list (rhandle * list rop)) : forall i0 i p, nth_error (rl_callers (SE := SE) cs cu cn ce mn me cuts i0 ts) i = Some p ->
  exists h l, nth_error ts i = Some (h, l) /\ p = rl_history cs cu cn ce mn me (cuts (i0 + i)) 0 l h.
Proof.
  induction ts as [|[h l] ts IH]; intros i0 [|i] p H; simpl in *; try discriminate.
  - inversion H; subst. exists h, l. now rewrite Nat.add_0_r.
  - destruct (IH (Datatypes.S i0) i p H) as (h' & l' & E1 & ->). exists h', l'. split; auto. now rewrite Nat.add_succ_r.
Qed.
Lemma length_rl_callers cuts (ts : list (rhandle * list rop)) : forall i0, length (rl_callers (SE := SE) cs cu cn ce mn me cuts i0 ts) = length ts.
Proof. induction ts as [|hl ts IH]; intros i0; simpl; auto. Qed.

Lemma tame_caller cuts j (l : list rop) h F : tame J F (fun _ => True) (rl_history (SE := SE) cs cu cn ce mn me cuts j l h).
Proof.
  apply (knows_tame F (fun _ => True) (fun _ => True) (fun _ => None) (fun _ => True) _ (fun _ => None) (next_ids (rh_ulids h) (length (flat_map given l) + 0))).
  eapply knows_mono; [|apply (knows_history False False F (fun _ => True) (fun _ => True) (fun _ => None) cuts 0 l j h)]; auto.
  exists [], []. now rewrite app_nil_r.
Qed.
Lemma readable_run (c : crowd) d : J d -> J (snd (run c d)).
Proof.
  intros Hd. apply (tame_interleave J (fun _ _ => True) (nc_schedule c) (nc_schedule c)); auto using incl_refl.
  intros i p Hp. apply nth_rl_callers in Hp. destruct Hp as (h & l & _ & ->). apply tame_caller.
Qed.
Lemma readable_runs (l : list crowd) : forall d, J d -> J (name_crowds cs cu cn ce mn me l d).
Proof. induction l as [|c l IH]; intros d Hd; simpl; auto. apply IH. now apply readable_run. Qed.

Lemma run_answers (c : crowd) d i h l rs h' : J d ->
  nth_error (nc_callers c) i = Some (h, l) -> nth_error (fst (run c d)) i = Some (Ret (rs, h')) ->
  Forall2 (r_answers_well seqb cs cu cn ce c d i (nu (snd (run c d)))) l rs.
Proof.
  intros Hd Hi Hr. set (strict := fresh_names (SE := SE) cs cu c d).
  set (Q := fun i (rsh : list answer * rhandle) M => forall h l, nth_error (nc_callers c) i = Some (h, l) ->
    Forall2 (fun o => rwell True strict (hits (nc_schedule c) i) (by_other (names_it c) i) (nu d) o M) l (fst rsh)).
  set (xs := map (fun hl : rhandle * list rop => Part (nu d) (next_ids (rh_ulids (fst hl)) (length (flat_map given (snd hl))))) (nc_callers c)).
  destruct (crowd_step True strict (nc_schedule c) (names_it c) (nu d) Q (nc_schedule c) (name_programs cs cu cn ce mn me c) d xs (incl_refl _)) as (xs' & H1 & H2 & _).
  - split; [unfold xs, name_programs; now rewrite map_length, length_rl_callers|]. split; [|split; auto].
    + intros j p x Hp Hx. apply nth_rl_callers in Hp. destruct Hp as (h1 & l1 & Hj & ->).
      unfold xs in Hx. rewrite (map_nth_error _ j _ Hj) in Hx. injection Hx as <-. split; simpl.
      * eapply knows_mono; [|apply (knows_history True strict (hits (nc_schedule c) j) (names_it c j) (by_other (names_it c) j) (nu d) (nc_cuts c j) 0 l1 0 h1)].
        -- intros rsh M us (_ & W) h2 l2 E2. rewrite Hj in E2. inversion E2; subst. exact W.
        -- intros s Hs. exists h1, l1. auto.
        -- rewrite Nat.add_0_r. exists [], []. now rewrite app_nil_r.
      * intros _. split; [apply below_refl|]. split; [apply below_refl|]. auto.
    + intros [F1 F2]. unfold xs. rewrite flat_map_concat_map, map_map. simpl. rewrite <- flat_map_concat_map. split; auto.
  - fold (run c d) in H1, H2. destruct (nth_error xs' i) as [x|] eqn:Hx.
    2: { apply nth_error_None in Hx. assert (i < length (fst (run c d))) by (apply nth_error_Some; congruence). lia. }
    destruct (H2 i _ _ Hr Hx) as (Ht & R). simpl in Ht. specialize (Ht h l Hi). simpl in Ht.
    destruct (R Logic.I) as (_ & R1 & _). revert Ht. clear -R1. intros Ht. induction Ht as [|o r l rs H _ IH]; constructor; auto.
    destruct (rwell_later True strict _ _ _ o (pt_seen x) (nu (snd (run c d))) r (fun _ => R1) H Logic.I) as [W|(e & -> & W)]; [now left|].
    right. exists e. split; auto. destruct e as [e|e|n]; [destruct e|destruct e|]; simpl in *; auto. destruct (W Logic.I) as (W1 & W2 & W3 & W4). auto.
Qed.

(** Next to a crowd: program 0 reads, and names nothing. *)
Lemma beside_knows {A} (reader : P A) (Q : A -> ids -> Prop) (c : crowd) d a : J d ->
  knows True False (hits (nc_schedule c) 0) (fun _ => False) (by_other (fun i => match i with O => fun _ => False | Datatypes.S i => names_it c i end) 0)
    (nu d) (fun a M _ => Q a M) reader (nu d) [] ->
  has_read a (fst (interleave (nc_schedule c) (beside reader (name_programs cs cu cn ce mn me c)) d)) ->
  exists M, Q a M /\ below M (nu (snd (interleave (nc_schedule c) (beside reader (name_programs cs cu cn ce mn me c)) d))).
Proof.
  intros Hd Hq Hr. set (Gv := fun i => match i with O => fun _ => False | Datatypes.S i => names_it c i end) in *.
  set (Q1 := fun (i : nat) (x : A + (list answer * rhandle)) M => match x with inl a => Q a M | inr _ => True end).
  set (ps := beside reader (name_programs cs cu cn ce mn me c)) in *.
  set (xs := Part (nu d) [] :: map (fun hl : rhandle * list rop => Part (nu d) (next_ids (rh_ulids (fst hl)) (length (flat_map given (snd hl))))) (nc_callers c)).
  destruct (crowd_step True False (nc_schedule c) Gv (nu d) Q1 (nc_schedule c) ps d xs (incl_refl _)) as (xs' & H1 & H2 & _).
  - split; [unfold xs, ps, beside, name_programs; simpl; now rewrite !map_length, length_rl_callers|]. split; [|split; [auto|intros []]].
    assert (forall x, pt_seen x = nu d -> forall j, relies True (by_other Gv j) (nu d) (pt_seen x) d) as Hrel.
    { intros x -> j _. split; [apply below_refl|]. split; [apply below_refl|]. auto. }
    intros [|j] p x Hp Hx.
    + inversion Hp; inversion Hx; subst. split; [|now apply Hrel]. apply knows_bind. eapply knows_mono; [|exact Hq]. simpl. auto.
    + unfold ps, beside in Hp. cbn [nth_error] in Hp. rewrite nth_error_map in Hp. destruct (nth_error (name_programs cs cu cn ce mn me c) j) as [p0|] eqn:Hp0; [|discriminate].
      injection Hp as <-. apply nth_rl_callers in Hp0. destruct Hp0 as (h1 & l1 & Hj & ->).
      unfold xs in Hx. cbn [nth_error] in Hx. rewrite (map_nth_error _ j _ Hj) in Hx. injection Hx as <-. split; [|now apply Hrel].
      cbn [pt_seen pt_ids fst snd]. apply knows_bind.
      eapply knows_mono; [|apply (knows_history True False (hits (nc_schedule c) (Datatypes.S j)) (names_it c j) (by_other Gv (Datatypes.S j)) (nu d) (nc_cuts c j) 0 l1 0 h1)].
      * simpl. auto.
      * intros s Hs. exists h1, l1. auto.
      * rewrite Nat.add_0_r. exists [], []. now rewrite app_nil_r.
  - destruct xs' as [|x xs']; [destruct (fst (interleave (nc_schedule c) ps d)); discriminate|].
    destruct (H2 0 _ x Hr eq_refl) as (Ht & R). simpl in Ht. destruct (R Logic.I) as (_ & R1 & _). eauto.
Qed.
End Tame.

Section Top.
Context {S NP EP SE BE E : Type} (seqb : S -> S -> bool) (cs : codec BE S) (cu : codec BE (Id KUlid)) (cn : codec BE NP) (ce : codec BE EP).
Context (mn : NP -> NP -> NP) (me : EP -> EP -> EP).
Notation crowd := (name_crowd (S := S) (NP := NP) (EP := EP) (SE := SE) (E := E)).

Lemma name_answers (past : list crowd) (c : crowd) i h l rs h' :
  (forall a b, seqb a b = true <-> a = b) -> codec_ok cs -> codec_ok cu -> codec_ok cn -> codec_ok ce ->
  let d := name_crowds cs cu cn ce mn me past rdb_new in
  let after := name_now (SE := SE) cs cu (snd (name_run cs cu cn ce mn me c d)) in
  nth_error (nc_callers c) i = Some (h, l) ->
  nth_error (fst (name_run cs cu cn ce mn me c d)) i = Some (Ret (rs, h')) ->
  Forall2 (r_answers_well seqb cs cu cn ce c d i after) l rs.
Proof.
  intros He H1 H2 H3 H4 d after Hi Hr. eapply run_answers; eauto. eapply readable_runs; eauto. apply readable_new.
Qed.

Lemma name_alike (past : list crowd) (c : crowd) i h l rs h' :
  (forall a b, seqb a b = true <-> a = b) -> codec_ok cs -> codec_ok cu -> codec_ok cn -> codec_ok ce ->
  codec_total cs -> codec_total cu -> codec_total cn -> codec_total ce ->
  let d := name_crowds cs cu cn ce mn me past rdb_new in
  let after := name_now (SE := SE) cs cu (snd (name_run cs cu cn ce mn me c d)) in
  nth_error (nc_callers c) i = Some (h, l) -> (forall x, ~ In (i, Some x) (nc_schedule c)) ->
  fresh_names (SE := SE) cs cu c d ->
  (forall s j, In s (flat_map given l) -> name_now (SE := SE) cs cu d s = None -> j <> i -> ~ names_it c j s) ->
  nth_error (fst (name_run cs cu cn ce mn me c d)) i = Some (Ret (rs, h')) ->
  Forall2 (fun o r => exists known, (forall s, In s known -> after s <> None) /\
     (forall s, In s (sought o) -> name_now (SE := SE) cs cu d s <> None -> In s known) /\ r = r_answer seqb known o) l rs.
Proof.
  intros He H1 H2 H3 H4 T1 T2 T3 T4 d after Hi Hx Hf Hn Hr.
  pose proof (name_answers past c i h l rs h' He H1 H2 H3 H4 Hi Hr) as H. fold d after in H. clear Hr Hi.
  induction H as [|o r l rs [W|(e & -> & W)] _ IH]; constructor; auto.
  1: apply IH; intros s j Hs; apply Hn, in_app_iff; auto. 2: apply IH; intros s j Hs; apply Hn, in_app_iff; auto.
  exfalso. destruct e as [e|e|n]; [destruct e|destruct e|]; simpl in W; try solve [destruct W].
  - destruct W as (A1 & A2 & _ & j & A3 & A4). apply (Hn l0 j); auto. apply in_app_iff. auto.
  - auto.
  - exact (Hx _ W).
  - destruct W as [[s Hs]|[j Hj]]; [destruct (T1 s)|destruct (T2 j)]; congruence.
  - exact (Hx _ W).
  - destruct W as [[p Hp]|[p Hp]]; [destruct (T3 p)|destruct (T4 p)]; congruence.
Qed.

Lemma name_readers (past : list crowd) (c : crowd) :
  (forall a b, seqb a b = true <-> a = b) -> codec_ok cs -> codec_ok cu -> codec_ok cn -> codec_ok ce ->
  let d := name_crowds cs cu cn ce mn me past rdb_new in
  let next_to := fun A (reader : prog rdb SE A) =>
    interleave (nc_schedule c) (beside reader (name_programs cs cu cn ce mn me c)) d in
  (forall cuts xs e, has_read xs (fst (next_to _ (rl_iter_vertices cs cu cn cuts))) -> In (Err e) xs -> r_troubled cu (nc_schedule c) e) /\
  (forall cuts e, has_read (Err e) (fst (next_to _ (rl_vertices cs cu cuts))) -> r_troubled cu (nc_schedule c) e) /\
  (forall cuts o xs e, has_read xs (fst (next_to _ (rl_iter_edges cs cu ce cuts o))) -> In (Err e) xs ->
     r_troubled cu (nc_schedule c) e \/ e = GraphStorageError MissingPropertyData) /\
  (forall cuts o xs e, has_read xs (fst (next_to _ (rl_iter_edges_with_props cs cu cn ce cuts o))) -> In (Err e) xs ->
     r_troubled cu (nc_schedule c) e \/ e = GraphStorageError MissingPropertyData) /\
  (forall cuts g u (q : query (entity S)) e, has_read (Err e) (fst (next_to _ (rl_run cs cu cn ce cuts seqb g u q))) ->
     match e with
     | LeftE e => q_troubled cs cu (nc_schedule c) d q e
     | RightE (NameIndexStorageError e) => exists s i, e = DuplicateRight s i i /\
         name_now (SE := SE) cs cu (snd (next_to _ (rl_run cs cu cn ce cuts seqb g u q))) s = Some i
     | RightE _ => True
     end).
Proof.
  intros He H1 H2 H3 H4 d next_to.
  assert (readable cs cu cn ce d) as Hd by (eapply readable_runs; eauto; apply readable_new).
  split; [|split; [|split; [|split]]].
  - intros cuts xs e Hr Hin. destruct (beside_knows seqb He cs cu cn ce H1 H2 H3 H4 mn me _ (fun xs M => ritems (plain cu (hits (nc_schedule c) 0)) xs M []) c d _ Hd
      (knows_iter_vertices cs cu cn ce H1 H2 H3 True False _ _ _ _ cuts _ _) Hr) as (M & W & _). now apply W.
  - intros cuts e Hr. destruct (beside_knows seqb He cs cu cn ce H1 H2 H3 H4 mn me _ (fun xs M => rbut (plain cu (hits (nc_schedule c) 0)) xs M []) c d _ Hd
      (knows_vertices cs cu cn ce H1 H2 True False _ _ _ _ cuts _ _) Hr) as (M & W & _). exact W.
  - intros cuts o xs e Hr Hin. destruct (beside_knows seqb He cs cu cn ce H1 H2 H3 H4 mn me _ (fun xs M => ritems (short cu (hits (nc_schedule c) 0)) xs M []) c d _ Hd
      (knows_iter_edges cs cu cn ce H1 H2 H4 True False _ _ _ _ cuts o _ _) Hr) as (M & W & _). now apply W.
  - intros cuts o xs e Hr Hin. destruct (beside_knows seqb He cs cu cn ce H1 H2 H3 H4 mn me _ (fun xs M => ritems (short cu (hits (nc_schedule c) 0)) xs M []) c d _ Hd
      (knows_iter_edges_with_props cs cu cn ce H1 H2 H3 H4 True False _ _ _ _ cuts o _ _) Hr) as (M & W & _). now apply W.
  - intros cuts g u q e Hr. destruct (beside_knows seqb He cs cu cn ce H1 H2 H3 H4 mn me _ (fun r M => qwell cs cu True (hits (nc_schedule c) 0) _ q (fun _ _ => True) r M []) c d _ Hd
      (knows_run seqb He cs cu cn ce H1 H2 H3 H4 True False _ _ _ _ cuts g u q _ _) Hr) as (M & W & Hb).
    destruct e as [e|e]; cbn in W.
    + destruct e as [e|e|n]; [destruct e|destruct e|]; simpl in *; auto.
    + destruct e as [e|e|n]; auto. destruct (W Logic.I) as (s & i & A1 & A2). exists s, i. split; auto.
Qed.
End Top.
