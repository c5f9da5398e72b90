(** Why calls that add to an RdfTripleStore over sled fail while others add to it too. *)
From Coq Require Import Arith NArith List Bool Sorted Lia.
From Verif Require Import Bytes BytesFacts OMap OMapFacts Core IdType IdTypeFacts Store Mem Spec GenSpec
  CodecFacts ListFacts MemSim History Prog ProgFacts Sled SledHistory SledSched SledDb SledOps SledBulk
  SledRun SledRead SledTop SledMain SledCrash SledConc SledIndex SledIndexFacts Rdf RdfSpec RdfTop RdfSled RdfSledSpec
  RdfSledSafe RdfSledConc RdfSledTop RdfSledRead RdfSledBlame RdfSledMain.
Import ListNotations.

Section Race.
Context {S NP EP SE BE E : Type} (seqb : S -> S -> bool) (seqb_eq : forall a b, seqb a b = true <-> a = b).
Context (cs : codec BE S) (cu : codec BE (Id KUlid)) (cn : codec BE NP) (ce : codec BE EP).
Context (Hcs : codec_ok cs) (Hcu : codec_ok cu) (Hcn : codec_ok cn) (Hce : codec_ok ce).
Context (mn : NP -> NP -> NP) (me : EP -> EP -> EP).
Notation I := (Id KUlid).
Notation ent := (entity S).
Notation P A := (prog rdb SE A).
Notation rop := (rop S NP EP E).
Notation op := (op KUlid NP EP E).
Notation answer := (routcome (S := S) (SE := SE) (BE := BE) (E := E)).
Notation apply := (rs_apply (SE := SE) (E := E) cs cu cn ce mn me).
Notation hist := (rs_history (SE := SE) (E := E) cs cu cn ce mn me).
Notation gapply := (sled_apply (SE := SE) (E := E) cn ce mn me).
Notation nu := (name_now (SE := SE) cs cu).
Notation rho := (id_now (SE := SE) cs cu).
Notation world := (world cs cu cn ce).
Notation rerr := (rdf_error S (sled_index_error S I SE BE) (sled_error SE BE)).
Notation PH A := (P (result rerr A * rhandle)).
Notation single_prog := (single_prog (SE := SE) (E := E) cs cu cn ce mn me).
Notation ids := (S -> option I).
Implicit Types d : rdb.
Implicit Types M : S -> option I.
Implicit Types own : list bytes.
Implicit Types us : list I.
Implicit Types h : rhandle.
Implicit Types o : rop.

Definition names_from (N : S -> Prop) d d' : Prop := forall n, nu d' n <> None -> nu d n <> None \/ N n.
Definition ids_from us d d' : Prop := forall i, rho d' i <> None -> rho d i <> None \/ In i us.
Definition unused us d : Prop := NoDup us /\ forall i, In i us -> rho d i = None.

Section Caller.
(** The failures that this caller may meet, the names it gives, those that others give, and the
    names in the beginning. *)
Context (F : SE -> Prop) (N O : S -> Prop) (B : ids).

Definition iraced M (e : sled_index_error S I SE BE) : Prop :=
  match e with
  | ISledError x => F x
  | ISerializationError b => (exists s, ser cs s = Err b) \/ (exists i, ser cu i = Err b)
  | SDuplicateRight n i _ => B n = None /\ N n /\ O n /\ M n = Some i
  | SDuplicateLeft _ _ _ => False
  end.
Definition eraced M (e : rerr) : Prop :=
  match e with
  | NameIndexStorageError e => iraced M e
  | GraphStorageError e => blame cn ce F e
  | NameNotFound _ => False
  end.
Definition rraced {A} M (r : result rerr A) : Prop := match r with Ok _ => True | Err e => eraced M e end.
Definition raced M (r : answer) : Prop := match r with Err (LeftE e) => eraced M e | _ => True end.

Lemma eraced_below M M' e : below M M' -> eraced M e -> eraced M' e.
Proof.
  intros H. destruct e as [e|e|n]; simpl; auto. destruct e; simpl; auto. intros (H1 & H2 & H3 & H4). auto.
Qed.
Lemma rraced_below {A} M M' (r : result rerr A) : below M M' -> rraced M r -> rraced M' r.
Proof. intros H. destruct r; simpl; auto. now apply eraced_below. Qed.
Lemma raced_below M M' r : below M M' -> raced M r -> raced M' r.
Proof. intros H. destruct r as [|[e|e]]; simpl; auto. now apply eraced_below. Qed.

Definition rely M d : Prop := below B (nu d) /\ below M (nu d) /\ forall n, nu d n <> None -> M n <> None \/ O n.

Fixpoint told {A} (Q : A -> ids -> list bytes -> list I -> Prop) (p : P A) M own us {struct p} : Prop :=
  match p with
  | Ret a => Q a M own us
  | Look _ => False
  | Act u k e =>
      (forall x, F x -> told Q (e x) M own us) /\
      forall U d, world U d -> fresh_keys U own -> unused us d -> rely M d ->
        exists used own' post uused us' upost, own = used ++ own' ++ post /\ us = uused ++ us' ++ upost /\
          world (plus_keys U used) (u d) /\ below (nu d) (nu (u d)) /\ names_from N d (u d) /\ ids_from uused d (u d) /\
          told Q (k d) (nu (u d)) own' us'
  end.

Lemma told_mono {A} (Q Q' : A -> ids -> list bytes -> list I -> Prop) (p : P A) :
  (forall a M own us, Q a M own us -> Q' a M own us) ->
  forall M own us, told Q p M own us -> told Q' p M own us.
Proof.
  intros HQ. induction p as [a|k IH|u k IHk e IHe]; intros M own us; simpl; auto.
  intros (H1 & H2). split; auto. intros U d Hw Hf Hu Hr.
  destruct (H2 U d Hw Hf Hu Hr) as (used & own' & post & uused & us' & upost & W).
  exists used, own', post, uused, us', upost. intuition auto.
Qed.

Lemma told_bind {A C} (Q : C -> ids -> list bytes -> list I -> Prop) (p : P A) (f : A -> P C) :
  forall M own us, told (fun a => told Q (f a)) p M own us -> told Q (bind p f) M own us.
Proof.
  induction p as [a|k IH|u k IHk e IHe]; intros M own us; simpl; auto.
  intros (H1 & H2). split; auto. intros U d Hw Hf Hu Hr.
  destruct (H2 U d Hw Hf Hu Hr) as (used & own' & post & uused & us' & upost & W).
  exists used, own', post, uused, us', upost. intuition auto.
Qed.

Lemma told_below {A} (Q : A -> ids -> list bytes -> list I -> Prop) (p : P A) :
  forall M own us, told Q p M own us -> told (fun a M' own' us' => below M M' /\ Q a M' own' us') p M own us.
Proof.
  assert (forall M M0 own us, below M0 M -> told Q p M own us ->
    told (fun a M' own' us' => below M0 M' /\ Q a M' own' us') p M own us) as H.
  { induction p as [a|k IH|u k IHk e IHe]; intros M M0 own us HM; simpl; auto.
    intros (H1 & H2). split; auto. intros U d Hw Hf Hu Hr.
    destruct (H2 U d Hw Hf Hu Hr) as (used & own' & post & uused & us' & upost & W1 & W2 & W3 & W4 & W5 & W6 & W7).
    exists used, own', post, uused, us', upost. repeat (split; [solve [auto]|]). apply IHk; auto.
    eapply below_trans; [exact HM|]. destruct Hr as (_ & Hr & _). eapply below_trans; eauto. }
  intros M own us. apply H, below_refl.
Qed.

Definition haves (m : nat) h us : Prop := exists pre post, us = pre ++ next_ids (rh_ulids h) m ++ post.
Lemma haves_same m h h' us : rh_ulids h' = rh_ulids h -> haves m h us -> haves m h' us.
Proof. intros H (pre & post & ->). exists pre, post. now rewrite H. Qed.
Lemma haves_less a m h us : haves (a + m) h us -> haves m h us.
Proof.
  intros (pre & post & ->). rewrite Nat.add_comm. unfold next_ids. rewrite List.seq_app, map_app.
  eexists pre, _. now rewrite <- !app_assoc.
Qed.

(** ** Names *)
Lemma names_refl (X : S -> Prop) d d' : r_names d' = r_names d -> names_from X d d'.
Proof. intros H n. unfold name_now. rewrite H. auto. Qed.
Lemma ids_refl us d d' : r_names d' = r_names d -> ids_from us d d'.
Proof. intros H n. unfold id_now. rewrite H. auto. Qed.
Lemma world_more U used d : world U d -> world (plus_keys U used) d.
Proof. apply world_mono. intros x Hx. left. auto. Qed.

Definition got {A} m h own : result rerr A * rhandle -> ids -> list bytes -> list I -> Prop :=
  fun rh M' own' us' => own' = own /\ rh_graph (snd rh) = rh_graph h /\ haves m (snd rh) us' /\ rraced M' (fst rh).

Lemma told_names_read {A} (Q : A -> ids -> list bytes -> list I -> Prop)
    (k : idb -> prog idb SE A) (e : SE -> prog idb SE A) M own us :
  (forall x, F x -> told Q (on_names (e x)) M own us) ->
  (forall U d, world U d -> unused us d -> rely M d -> told Q (on_names (k (r_names d))) (nu d) own us) ->
  told Q (on_names (Act (fun x => x) k e)) M own us.
Proof.
  intros He Hk. cbn [on_names told]. split; auto. intros U d Hw Hf Hu Hr.
  exists [], own, [], [], us, []. split; [now rewrite app_nil_r|]. split; [now rewrite app_nil_r|].
  replace (RDb (r_names d) (r_trees d)) with d by (destruct d; reflexivity).
  split; [now apply world_more|]. split; [apply below_refl|]. split; [now apply names_refl|]. split; [now apply ids_refl|].
  eauto.
Qed.

Lemma told_create e h M own us m : (forall n, In n (name_of e) -> N n) -> haves (length (name_of e) + m) h us ->
  told (got m h own) (rs_lookup_or_create (SE := SE) cs cu e h) M own us.
Proof.
  intros HN Hh. destruct e as [n|i]; cbn [rs_lookup_or_create name_of length] in *.
  2: { simpl. unfold got. simpl. auto. }
  pose proof (haves_less 1 m h us Hh) as Hh'.
  apply told_bind. unfold si_left_to_right. destruct (ser cs n) as [lb|b] eqn:Hl.
  2: { simpl. unfold got. simpl. repeat (split; [solve [auto]|]). left. eauto. }
  apply told_names_read.
  { intros x Hx. simpl. unfold got. simpl. auto. }
  intros U d Hw Hu Hr. cbn [on_names told]. assert (index_ok cs cu (r_names d)) as Hok by apply Hw.
  rewrite (de_left cs cu d n lb) by auto.
  destruct (left_now cs cu (r_names d) n) as [[i|]|x] eqn:Hn.
  - simpl. unfold got. simpl. auto.
  - unfold fresh. apply told_bind. set (i := g_seq (rh_ulids h) (g_pos (rh_ulids h))) in *.
    set (u := Gen (g_seq (rh_ulids h)) (Datatypes.S (g_pos (rh_ulids h)))).
    assert (next_ids (rh_ulids h) (1 + m) = i :: next_ids u m) as Hids by reflexivity.
    destruct Hh as (upre & upost & ->). rewrite Hids in *.
    assert (haves m (RHandle (rh_graph h) u) (upre ++ (i :: next_ids u m) ++ upost)) as Hhu.
    { exists (upre ++ [i]), upost. rewrite <- app_assoc. reflexivity. }
    assert (B n = None) as HB.
    { destruct (B n) as [j|] eqn:HBn; auto. apply Hr in HBn. apply nu_some in HBn. congruence. }
    assert (nu d n = None) as Hdn.
    { destruct (nu d n) as [j|] eqn:Q; auto. apply nu_some in Q. congruence. }
    unfold si_set. rewrite Hl. destruct (ser cu i) as [rb|b] eqn:Hrb.
    2: { simpl. unfold got. simpl. repeat (split; [solve [auto]|]). right. eauto. }
    cbn [on_names told]. split.
    { intros x Hx. simpl. unfold got. simpl. auto. }
    intros U' d' Hw' Hf' Hu' Hr'. assert (index_ok cs cu (r_names d')) as Hok' by apply Hw'.
    destruct Hu' as [U1 U2]. assert (rho d' i = None) as Hfree by (apply U2; rewrite !in_app_iff; simpl; auto).
    pose proof (set_grows (SE := SE) cs cu Hcs Hcu n i lb rb (r_names d') Hl Hrb) as Hg.
    assert (forall x' : sled_index_error S I SE BE, set_body cs cu n i lb rb (r_names d') = Err x' -> iraced (nu d') x') as Hbad.
    { intros x'. pose proof (rho_free cs cu Hcs d' i rb Hok' Hrb Hfree) as B2. unfold set_body.
      destruct (bget lb (i_l2r (r_names d'))) as [b|] eqn:Q1; cbn [i_l2r i_r2l]; [|rewrite B2; discriminate].
      destruct (ok_ser cs cu (r_names d') Hok' _ _ Q1) as (n' & i' & Hn' & Hi').
      rewrite (Hcu _ _ Hi'). intros Q. injection Q as <-. simpl.
      assert (nu d' n = Some i') as Hnow.
      { apply nu_some. apply (left_spec cs cu Hcu _ _ _ Hok'). exists lb, b. auto. }
      split; auto. split; [apply HN; simpl; auto|]. split; auto.
      destruct Hr' as (_ & _ & Hr'). destruct (Hr' n) as [Hx|Hx]; auto; congruence. }
    destruct (set_body cs cu n i lb rb (r_names d')) as [x'|x'] eqn:Hsb.
    + destruct Hg as (Hg & Hn' & Hother).
      exists [], own, [], (upre ++ [i]), (next_ids u m), upost. split; [now rewrite app_nil_r|].
      split; [rewrite <- app_assoc; reflexivity|].
      split; [apply world_more; eapply grows_world; eauto|].
      split; [apply grows_below; auto|].
      split.
      { intros m' Hm. destruct (nu d' m') eqn:E1; [left; discriminate|]. right.
        destruct (seqb n m') eqn:Q; [apply seqb_eq in Q; subst m'; apply HN; simpl; auto|].
        exfalso. apply Hm. destruct (nu (RDb x' (r_trees d')) m') as [j|] eqn:Hj; auto. apply nu_some in Hj. simpl in Hj.
        rewrite Hother in Hj by (intros ->; rewrite (proj2 (seqb_eq n n) eq_refl) in Q; discriminate).
        apply nu_some in Hj. congruence. }
      split.
      { intros j Hj. destruct (id_eqb i j) eqn:Q.
        - right. apply in_app_iff. right. left. now apply id_eqb_eq.
        - left. revert Hj. unfold id_now. cbn [r_names].
          assert (j <> i) as Hne by (intros ->; rewrite (proj2 (id_eqb_eq i i) eq_refl) in Q; discriminate).
          assert (set_body (L := S) (R := I) (SE := SE) cs cu n i lb rb (r_names d') =
            Ok (IDb (binsert lb rb (i_l2r (r_names d'))) (binsert rb lb (i_r2l (r_names d'))))) as Hsb'.
          { unfold set_body in Hsb |- *. destruct (bget lb (i_l2r (r_names d'))); [destruct (de cu b); discriminate|].
            cbn [i_l2r i_r2l] in *. destruct (bget rb (i_r2l (r_names d'))); [destruct (de cs b); discriminate|]. reflexivity. }
          rewrite Hsb' in Hsb. injection Hsb as <-.
          destruct (right_insert (SE := SE) cs cu Hcs Hcu (r_names d') n i lb rb Hl Hrb j) as [_ Hi]. now rewrite (Hi Hne). }
      cbn [on_names bind told]. unfold got. cbn [fst snd rh_graph rh_ulids]. split; auto. split; auto.
      split; [exists [], []; now rewrite app_nil_r|]. exact Logic.I.
    + exists [], own, [], [], (upre ++ (i :: next_ids u m) ++ upost), []. split; [now rewrite app_nil_r|].
      split; [now rewrite app_nil_r|].
      replace (RDb (r_names d') (r_trees d')) with d' by (destruct d'; reflexivity).
      split; [now apply world_more|]. split; [apply below_refl|]. split; [now apply names_refl|]. split; [now apply ids_refl|].
      cbn [on_names bind told]. unfold got. cbn [fst snd rh_graph]. split; auto. split; auto. split; auto.
      simpl. now apply Hbad.
  - exfalso. pose proof (left_answers (SE := SE) cs cu Hcu (r_names d) n Hok) as Ha. rewrite Hl in Ha. destruct Ha as [q Ha]. congruence.
Qed.

Lemma told_bind_h {A C} (Q : _ -> ids -> list bytes -> list I -> Prop) (p : PH A) (f : A -> rhandle -> PH C) h M own us m :
  told (got m h own) p M own us ->
  (forall a h' M' us', rh_graph h' = rh_graph h -> haves m h' us' -> told Q (f a h') M' own us') ->
  (forall e h' M' us', rh_graph h' = rh_graph h -> haves m h' us' -> eraced M' e -> Q (Err e, h') M' own us') ->
  told Q (bind_h p f) M own us.
Proof.
  intros Hp Hf He. apply told_bind. eapply told_mono; [|exact Hp].
  intros [[a|x] h'] M' own' us' (-> & H1 & H2 & H3); simpl in *; auto.
Qed.

Lemma told_create3 t h M own us m : (forall n, In n (names_of t) -> N n) -> haves (length (names_of t) + m) h us ->
  told (got m h own) (rs_create3 (SE := SE) cs cu t h) M own us.
Proof.
  intros HN Hh. unfold names_of in Hh. rewrite !app_length, <- !Nat.add_assoc in Hh. unfold rs_create3.
  assert ((forall n, In n (name_of (sub t)) -> N n) /\ (forall n, In n (name_of (pred t)) -> N n) /\ (forall n, In n (name_of (obj t)) -> N n))
    as (N1 & N2 & N3).
  { repeat split; intros x Hx; apply HN; unfold names_of; rewrite !in_app_iff; auto. }
  eapply told_bind_h; [apply (told_create _ _ _ _ _ _ N1 Hh)| |].
  2: { intros e h' M' us' A1 A2 A3. split; auto. split; auto. split; auto. apply haves_less in A2. now apply haves_less in A2. }
  intros a h1 M1 us1 G1 H1.
  eapply told_bind_h; [apply (told_create _ _ _ _ _ _ N2 H1)| |].
  2: { intros e h' M' us' A1 A2 A3. split; auto. split; [cbn; congruence|]. split; auto. now apply haves_less in A2. }
  intros b h2 M2 us2 G2 H2.
  eapply told_bind_h; [apply (told_create _ _ _ _ _ _ N3 H2)| |].
  2: { intros e h' M' us' A1 A2 A3. split; auto. split; [cbn; congruence|]. split; auto. }
  intros c h3 M3 us3 G3 H3. simpl. split; auto. split; [cbn; congruence|]. split; auto. exact Logic.I.
Qed.

(** ** Calls on the graph *)
Definition kept {A} n m : result rerr A * rhandle -> ids -> list bytes -> list I -> Prop :=
  fun rh M' own' us' => owns n (snd rh) own' /\ haves m (snd rh) us' /\ rraced M' (fst rh).

Lemma few_keys h (x : op) : transactional x -> NoDup (keysn h (draws x)).
Proof. intros Ht. destruct x; simpl in *; try contradiction; unfold keysn, next_ids; simpl; repeat constructor; auto. Qed.

Lemma graph_raced {A} M (e : sled_error SE BE) : blame cn ce F e -> rraced (A := A) M (Err (GraphStorageError e)).
Proof. simpl. auto. Qed.

Lemma told_graph (x : op) f h M own us n m :
  (forall gh, gapply x gh = SledHistory.lift (f gh)) -> transactional x ->
  owns (draws x + n) h own -> haves m h us ->
  told (kept n m) (graph_call (S := S) f h) M own us.
Proof.
  intros Hf Ht (pre & post & ->) Hh. pose proof (transactional_one mn me x Ht) as Ho.
  pose proof (single_apply cn ce mn me (SE := SE) x (rh_graph h) Ht) as Hsg.
  assert (forall fs (d : db), snd (ret_of (gapply x (rh_graph h)) fs d) = advance (rh_graph h) (draws x)) as Hadv
    by (intros; now apply apply_handle).
  assert (forall U fs (d : db), SledDb.fair (k := KUlid) cn ce U d -> indexes_agree (k := KUlid) d -> fresh_keys U (keysn h (draws x)) ->
    SledDb.fair (k := KUlid) cn ce (plus_keys U (keysn h (draws x))) (db_of (gapply x (rh_graph h)) fs d) /\
    indexes_agree (k := KUlid) (db_of (gapply x (rh_graph h)) fs d)) as Hm.
  { intros U fs d F0 A [K1 K2]. rewrite <- (history_keys_one h x Ho) in *.
    destruct (call_moves cn ce mn me Hcn Hce U x (rh_graph h) fs d Ho F0 A K1 K2) as (A1 & A2 & _). auto. }
  assert (forall U fs d, allowed F fs -> world U d -> fresh_keys U (keysn h (draws x)) ->
    forall M', rraced M' (fst (ret_of (graph_call (S := S) f h) fs d))) as Hbl.
  { intros U fs d Ha Hw Hfk M'.
    destruct (post_graph cs cu cn ce Hcn Hce mn me F x f U h d Hf Ho Hw Hfk fs Ha) as (Q & _).
    revert Q. unfold graph_call. rewrite ret_bind_ret. cbn [fst]. unfold from_graph.
    destruct (fst (ret_of (on_graph (f (rh_graph h))) fs d)) as [[]|y]; simpl; auto. }
  rewrite Hf in Hsg, Hadv, Hm. apply single_lift in Hsg. pose proof (on_graph_shape _ Hsg) as Hshape.
  assert (fresh_keys (fun _ => False) (keysn h (draws x))) as Hfk0 by (split; [now apply few_keys|auto]).
  unfold graph_call in Hbl |- *. destruct (f (rh_graph h)) as [[r gh]|k|u k e] eqn:Ef; [|destruct Hsg|].
  - specialize (Hbl _ [] rdb_new (allowed_nil F) (world_new cs cu cn ce _) Hfk0 M).
    cbn [on_graph bind told]. specialize (Hadv [] db_new). simpl in Hadv. subst gh. unfold kept. cbn [fst snd].
    rewrite keysn_split. split; [|split; [eapply haves_same; [|exact Hh]; reflexivity|exact Hbl]].
    exists (pre ++ keysn h (draws x)), post. now rewrite <- !app_assoc.
  - cbn [on_graph bind told]. split.
    + intros y Hy. destruct (Hshape rdb_new y) as [_ ([r gh] & He & He')].
      rewrite He'. cbn [bind told].
      specialize (Hadv [Some y] db_new). unfold ret_of in Hadv. simpl in Hadv. rewrite He in Hadv. simpl in Hadv. subst gh.
      unfold kept. cbn [fst snd]. rewrite keysn_split.
      split; [|split; [eapply haves_same; [|exact Hh]; reflexivity|]].
      * exists (pre ++ keysn h (draws x)), post. now rewrite <- !app_assoc.
      * assert (allowed F [Some y]) as Hal by (intros z [Q|[]]; injection Q as <-; auto).
        specialize (Hbl _ [Some y] rdb_new Hal (world_new cs cu cn ce _) Hfk0 M). unfold ret_of in Hbl. simpl in Hbl. rewrite He' in Hbl. exact Hbl.
    + intros U d Hw Hfr Hu Hr. pose proof Hw as (W1 & W2 & W3).
      rewrite keysn_split in Hfr |- *.
      assert (fresh_keys U (keysn h (draws x))) as Hfr'.
      { destruct Hfr as [F1 F2]. apply NoDup_app_iff in F1. destruct F1 as (_ & F1 & _). apply NoDup_app_iff in F1. destruct F1 as (F1 & _ & _).
        apply NoDup_app_iff in F1. split; [apply F1|]. intros z Hz. apply F2. rewrite !in_app_iff. auto. }
      specialize (Hm U [] (r_trees d) W2 W3 Hfr'). specialize (Hadv [] (r_trees d)).
      specialize (Hbl U [] d (allowed_nil F) Hw Hfr').
      assert (exists rg, k (r_trees d) = Ret rg) as [[r gh] Hk] by apply Hsg.
      unfold SledHistory.lift, ret_of, db_of in Hm, Hadv, Hbl. simpl in Hm, Hadv, Hbl. rewrite Hk in Hm, Hadv, Hbl |- *. simpl in Hm, Hadv, Hbl. subst gh.
      destruct Hm as (H1 & H2).
      exists (pre ++ keysn h (draws x)), (keysn (adv h (draws x)) n), post, [], us, [].
      split; [now rewrite <- !app_assoc|]. split; [now rewrite app_nil_r|].
      split; [|split; [apply below_refl|split; [now apply names_refl|split; [now apply ids_refl|]]]].
      * split; auto. split; auto. eapply fair_mono; [|exact H1]. intros z [Hz|Hz]; [left; auto|right; apply in_app_iff; auto].
      * cbn [on_graph bind told]. unfold kept. cbn [fst snd].
        split; [exists [], []; now rewrite app_nil_r|]. split; [eapply haves_same; [|exact Hh]; reflexivity|apply Hbl].
Qed.

(** ** Calls *)
Lemma told_single o h M own us n m : single_add o -> (forall s, In s (given o) -> N s) ->
  owns (r_draws o + n) h own -> haves (length (given o) + m) h us ->
  told (kept n m) (single_prog o h) M own us.
Proof.
  intros Ho HN Hown Hh.
  assert (forall A (p : PH A) (f : A -> handle KUlid -> prog db SE (result (sled_error SE BE) unit * handle KUlid)) (x : A -> op),
    (forall a gh, gapply (x a) gh = SledHistory.lift (f a gh)) -> (forall a, transactional (x a)) -> (forall a, draws (x a) = r_draws o) ->
    told (got m h own) p M own us ->
    told (kept n m) (bind_h p (fun a => graph_call (f a))) M own us) as Hgen.
  { intros A p f x Hx1 Hx2 Hx3 Hp. eapply told_bind_h; [exact Hp| |].
    - intros a h' M' us' G1 H1. apply (told_graph (x a) (f a)); auto. rewrite Hx3. now apply owns_graph with h.
    - intros e h' M' us' G1 H1 H2. split; [|split; auto]. apply owns_graph with h; auto. eapply owns_less; eauto. }
  destruct o as [e p|t p|e|t|e p|t p|q|q]; try contradiction; simpl RdfSledSafe.single_prog; cbn [given] in *.
  - eapply (Hgen I _ _ (fun i => OInsertNode i p)); simpl; auto. now apply told_create.
  - eapply (Hgen (triple I) _ _ (fun i => OInsertEdge i p)); simpl; auto. now apply told_create3.
  - eapply (Hgen I _ _ (fun i => OMergeNode i p)); simpl; auto. now apply told_create.
  - eapply (Hgen (triple I) _ _ (fun i => OMergeEdge i p)); simpl; auto. now apply told_create3.
Qed.

Definition looped (err : option E) n m : answer * rhandle -> ids -> list bytes -> list I -> Prop :=
  fun rh M' own' us' => owns n (snd rh) own' /\ haves m (snd rh) us' /\ raced M' (fst rh) /\ (fst rh = Ok tt -> err = None).

Lemma told_for_each {A} (mk : A -> rop) (step : A -> rhandle -> PH unit) n m (l : list (result E A)) :
  (forall a, single_add (mk a)) -> (forall a h, step a h = single_prog (mk a) h) ->
  forall h M own us,
  (forall s, In s (flat_map given (map mk (before_error l))) -> N s) ->
  owns (sum (map r_draws (map mk (before_error l))) + n) h own ->
  haves (length (flat_map given (map mk (before_error l))) + m) h us ->
  told (looped (first_error l) n m) (rs_for_each step l h) M own us.
Proof.
  intros Hmk Hstep. induction l as [|[a|e] l IH]; intros h M own us HN Hown Hh.
  - simpl in *. split; auto. split; auto. split; simpl; auto.
  - cbn [rs_for_each]. apply told_bind. rewrite Hstep. simpl before_error in *. simpl in HN, Hown, Hh.
    rewrite <- Nat.add_assoc in Hown. rewrite app_length, <- Nat.add_assoc in Hh.
    assert (forall s, In s (given (mk a)) -> N s) as HN1 by (intros s Hs; apply HN, in_app_iff; auto).
    eapply told_mono; [|exact (told_single (mk a) h M own us _ _ (Hmk a) HN1 Hown Hh)].
    intros [[[]|y] h'] M' own' us' (A1 & A2 & A3); cbn [fst snd first_error] in *.
    + apply IH; auto. intros s Hs. apply HN, in_app_iff. auto.
    + simpl. split; [eapply owns_less; eauto|]. split; [eapply haves_less; eauto|]. split; [exact A3|discriminate].
  - simpl in *. split; auto. split; auto. split; simpl; auto. discriminate.
Qed.

Lemma told_bulk (mkn : ent * NP -> rop) (mke : triple ent * EP -> rop)
    (fn : ent -> NP -> rhandle -> PH unit) (fe : triple ent -> EP -> rhandle -> PH unit) n m (q : rdf_source S NP EP E) h M own us :
  (forall a, single_add (mkn a)) -> (forall a, single_add (mke a)) ->
  (forall a h, fn (fst a) (snd a) h = single_prog (mkn a) h) -> (forall a h, fe (fst a) (snd a) h = single_prog (mke a) h) ->
  let l := map mkn (used_nodes q) ++ map mke (used_edges q) in
  (forall s, In s (flat_map given l) -> N s) -> owns (sum (map r_draws l) + n) h own -> haves (length (flat_map given l) + m) h us ->
  told (fun rh M' own' us' => owns n (snd rh) own' /\ haves m (snd rh) us' /\ raced M' (fst rh)) (rs_bulk fn fe q h) M own us.
Proof.
  intros Hn He Hfn Hfe. cbv zeta. unfold used_nodes, used_edges. intros HN Hown Hh.
  rewrite map_app, sum_app, <- Nat.add_assoc in Hown. rewrite flat_map_app in HN, Hh. rewrite app_length, <- Nat.add_assoc in Hh.
  unfold rs_bulk. apply told_bind.
  assert (forall s, In s (flat_map given (map mkn (before_error (rs_nodes q)))) -> N s) as HN1 by (intros s Hs; apply HN, in_app_iff; auto).
  eapply told_mono; [|exact (told_for_each mkn _ _ _ (rs_nodes q) Hn Hfn h M own us HN1 Hown Hh)].
  intros [r h'] M' own' us' (A1 & A2 & A3 & A4). cbn [fst snd] in *. destruct r as [[]|e].
  - rewrite (A4 eq_refl) in *. eapply told_mono; [|apply (told_for_each mke _ n m (rs_edges q) He Hfe h' M' own' us')]; auto.
    + intros rh M2 own2 us2 (B1 & B2 & B3 & _). auto.
    + intros s Hs. apply HN, in_app_iff. auto.
  - simpl. split; [eapply owns_less; eauto|]. split; [eapply haves_less; eauto|]. exact A3.
Qed.

Lemma told_left (p : PH unit) M own us n m : told (kept n m) p M own us ->
  told (fun rh M' own' us' => owns n (snd rh) own' /\ haves m (snd rh) us' /\ raced M' (fst rh)) (left_out (E := E) p) M own us.
Proof.
  intros H. apply told_bind. eapply told_mono; [|exact H]. intros [[[]|e] h'] M' own' us' (A1 & A2 & A3); simpl; auto.
Qed.

Lemma told_apply o h M own us n m : adding o -> (forall s, In s (given o) -> N s) ->
  owns (r_draws o + n) h own -> haves (length (given o) + m) h us ->
  told (fun rh M' own' us' => owns n (snd rh) own' /\ haves m (snd rh) us' /\ raced M' (fst rh)) (apply o h) M own us.
Proof.
  intros Ho HN Hown Hh. destruct o as [e p|t p|e|t|e p|t p|q|q]; try contradiction.
  - apply told_left. now apply (told_single (RInsertNode e p)).
  - apply told_left. now apply (told_single (RInsertEdge t p)).
  - apply told_left. now apply (told_single (RMergeNode e p)).
  - apply told_left. now apply (told_single (RMergeEdge t p)).
  - rewrite <- (draws_parts (RExtend (E := E) q)) in Hown. rewrite <- (given_parts (RExtend (E := E) q)) in Hh, HN.
    apply (told_bulk (fun ip => RInsertNode (fst ip) (snd ip)) (fun te => RInsertEdge (fst te) (snd te)) (rs_insert_node cs cu cn) (rs_insert_edge cs cu ce) n m q h M own us);
      simpl; auto.
  - rewrite <- (draws_parts (RMerge (E := E) q)) in Hown. rewrite <- (given_parts (RMerge (E := E) q)) in Hh, HN.
    apply (told_bulk (fun ip => RMergeNode (fst ip) (snd ip)) (fun te => RMergeEdge (fst te) (snd te)) (rs_merge_node cs cu cn mn) (rs_merge_edge cs cu ce me) n m q h M own us);
      simpl; auto.
Qed.

Lemma told_history n m (l : list rop) : forall h M own us, Forall adding l ->
  (forall s, In s (flat_map given l) -> N s) ->
  owns (sum (map r_draws l) + n) h own -> haves (length (flat_map given l) + m) h us ->
  told (fun rsh M' own' us' => owns n (snd rsh) own' /\ haves m (snd rsh) us' /\ Forall (raced M') (fst rsh)) (hist l h) M own us.
Proof.
  induction l as [|o l IH]; intros h M own us Ha HN Hown Hh; cbn [rs_history].
  - simpl in *. auto.
  - inversion_clear Ha as [|? ? Ho Hl]. simpl in HN, Hown, Hh. rewrite <- Nat.add_assoc in Hown. rewrite app_length, <- Nat.add_assoc in Hh.
    assert (forall s, In s (given o) -> N s) as HN1 by (intros s Hs; apply HN, in_app_iff; auto).
    apply told_bind. eapply told_mono; [|exact (told_apply o h M own us _ _ Ho HN1 Hown Hh)].
    intros [r h'] M' own' us' (A1 & A2 & A3). cbn [fst snd] in *. apply told_bind.
    eapply told_mono; [|apply told_below, (IH h' M' own' us' Hl); auto; intros s Hs; apply HN, in_app_iff; auto].
    intros [rs h2] M2 own2 us2 (Hb & B1 & B2 & B3). simpl. split; auto. split; auto. constructor; auto. eapply raced_below; eauto.
Qed.

End Caller.

(** ** Together *)
Section Crowd.
Context (callers : list (rhandle * list rop)) (schedule : list (nat * option SE)) (B : ids).
Definition gives_ (i : nat) (s : S) : Prop := exists h l, nth_error callers i = Some (h, l) /\ In s (flat_map given l).
Definition gives_other (i : nat) (s : S) : Prop := exists j, j <> i /\ gives_ j s.
Definition meets (i : nat) (x : SE) : Prop := In (i, Some x) schedule.
Notation mine i := (raced (meets i) (gives_ i) (gives_other i) B).

Record share : Type := Share { sh_seen : ids; sh_own : list bytes; sh_ids : list I }.
Definition suits (d : rdb) (i : nat) (p : P (list answer * rhandle)) (x : share) : Prop :=
  told (meets i) (gives_ i) (gives_other i) B (fun rsh M _ _ => Forall (mine i M) (fst rsh)) p (sh_seen x) (sh_own x) (sh_ids x) /\
  rely (gives_other i) B (sh_seen x) d.
Definition all_suit (ps : list (P (list answer * rhandle))) d (xs : list share) : Prop :=
  length ps = length xs /\
  (forall i p x, nth_error ps i = Some p -> nth_error xs i = Some x -> suits d i p x) /\
  exists U, world U d /\ fresh_keys U (flat_map sh_own xs) /\ unused (flat_map sh_ids xs) d.

Lemma nth_mid {X} (a : list X) x b : nth_error (a ++ x :: b) (length a) = Some x.
Proof. rewrite nth_error_app2 by lia. now rewrite Nat.sub_diag. Qed.
Lemma nth_mid_other {X} (a : list X) x y b i : i <> length a -> nth_error (a ++ x :: b) i = nth_error (a ++ y :: b) i.
Proof.
  intros H. destruct (Nat.lt_ge_cases i (length a)) as [Q|Q]; [now rewrite !nth_error_app1 by auto|].
  rewrite !nth_error_app2 by auto. destruct (i - length a) as [|n] eqn:Z; [lia|]. reflexivity.
Qed.

Lemma suits_later d d' i p x : below (nu d) (nu d') -> names_from (gives_other i) d d' -> suits d i p x -> suits d' i p x.
Proof.
  intros H1 H2 (H3 & R1 & R2 & R3). split; auto. split; [eapply below_trans; eauto|]. split; [eapply below_trans; eauto|].
  intros n Hn. destruct (H2 n Hn); auto.
Qed.

Lemma race_step todo : forall ps d xs, incl todo schedule -> all_suit ps d xs ->
  exists xs', all_suit (fst (interleave todo ps d)) (snd (interleave todo ps d)) xs'.
Proof.
  induction todo as [|[i f] todo IH]; intros ps d xs Hin Hall; simpl; [eauto|].
  assert (incl todo schedule) as Hin' by (intros z Hz; apply Hin; simpl; auto).
  destruct (nth_error ps i) as [p|] eqn:Hi; [|now apply IH with xs].
  destruct Hall as (Hlen & Hsuit & U & Hw & Hfr & Hun).
  destruct (nth_error xs i) as [x|] eqn:Hx.
  2: { apply nth_error_None in Hx. assert (i < length ps) by (apply nth_error_Some; congruence). lia. }
  pose proof (Hsuit i p x Hi Hx) as [Ht Hr].
  apply nth_error_split in Hi. destruct Hi as (pa & pb & -> & <-).
  apply nth_error_split in Hx. destruct Hx as (xa & xb & -> & Hla).
  rewrite !app_length in Hlen. simpl in Hlen.
  assert (exists x' used post uused upost, suits (snd (step1 f p d)) (length pa) (fst (step1 f p d)) x' /\
    sh_own x = used ++ sh_own x' ++ post /\ sh_ids x = uused ++ sh_ids x' ++ upost /\
    world (plus_keys U used) (snd (step1 f p d)) /\ below (nu d) (nu (snd (step1 f p d))) /\
    names_from (gives_ (length pa)) d (snd (step1 f p d)) /\ ids_from uused d (snd (step1 f p d)))
    as (x' & used & post & uused & upost & Hs' & Ho & Hi & Hw' & Hb & Hn & Hd).
  { assert (forall p', suits d (length pa) p' x -> exists x' used post uused upost, suits d (length pa) p' x' /\
      sh_own x = used ++ sh_own x' ++ post /\ sh_ids x = uused ++ sh_ids x' ++ upost /\
      world (plus_keys U used) d /\ below (nu d) (nu d) /\ names_from (gives_ (length pa)) d d /\ ids_from uused d d) as Hsame.
    { intros p' Hp'. exists x, [], [], [], []. rewrite !app_nil_r. split; auto. split; auto. split; auto.
      split; [now apply world_more|]. split; [apply below_refl|]. split; [now apply names_refl|now apply ids_refl]. }
    destruct p as [a|k|u k e]; simpl.
    - apply Hsame. split; auto.
    - destruct Ht.
    - destruct Ht as [H1 H2]. destruct f as [y|]; simpl.
      + apply Hsame. split; auto. apply H1. apply Hin. simpl. auto.
      + assert (fresh_keys U (sh_own x)) as Hfx.
        { destruct Hfr as [F1 F2]. rewrite flat_map_app in F1, F2. simpl in F1, F2. apply NoDup_app_iff in F1. destruct F1 as (_ & F1 & _).
          apply NoDup_app_iff in F1. split; [apply F1|]. intros z Hz. apply F2. rewrite !in_app_iff. auto. }
        assert (unused (sh_ids x) d) as Hux.
        { destruct Hun as [F1 F2]. rewrite flat_map_app in F1, F2. simpl in F1, F2. apply NoDup_app_iff in F1. destruct F1 as (_ & F1 & _).
          apply NoDup_app_iff in F1. split; [apply F1|]. intros z Hz. apply F2. rewrite !in_app_iff. auto. }
        destruct (H2 U d Hw Hfx Hux Hr) as (used & own' & post & uused & us' & upost & W1 & W2 & W3 & W4 & W5 & W6 & W7).
        exists (Share (nu (u d)) own' us'), used, post, uused, upost. simpl. split; [|auto 10]. split; auto.
        destruct Hr as (R1 & R2 & R3). split; [eapply below_trans; eauto|]. split; [apply below_refl|]. auto. }
  rewrite (surjective_pairing (step1 f p d)). rewrite replace_app.
  set (d' := snd (step1 f p d)) in *. set (p' := fst (step1 f p d)) in *.
  apply (IH (pa ++ p' :: pb) d' (xa ++ x' :: xb)); auto. split; [rewrite !app_length; simpl; lia|]. split.
  - intros j q y Hq Hy. destruct (Nat.eq_dec j (length pa)) as [->|Hne].
    + rewrite nth_mid in Hq. injection Hq as <-. rewrite <- Hla, nth_mid in Hy. injection Hy as <-. exact Hs'.
    + rewrite (nth_mid_other pa p' p pb j) in Hq by auto. rewrite (nth_mid_other xa x' x xb j) in Hy by lia.
      apply (suits_later d d' j q y Hb); auto. intros n H. destruct (Hn n H) as [Q|Q]; auto. right. exists (length pa). auto.
  - exists (plus_keys U used). split; auto. rewrite !flat_map_app in *. simpl in *. rewrite Ho in Hfr. rewrite Hi in Hun.
    destruct Hfr as [F1 F2]. destruct Hun as [G1 G2]. split; split.
    + apply NoDup_app_iff in F1. destruct F1 as (A1 & A2 & A3). apply NoDup_app_iff in A2. destruct A2 as (B1 & B2 & B3).
      apply NoDup_app_iff in B1. destruct B1 as (C1 & C2 & C3). apply NoDup_app_iff in C2. destruct C2 as (D1 & D2 & D3).
      apply NoDup_app_iff. split; auto. split.
      * apply NoDup_app_iff. split; auto. split; auto. intros z Hz. apply B3. rewrite !in_app_iff. auto.
      * intros z Hz Hz2. apply (A3 z Hz). rewrite !in_app_iff in *. tauto.
    + intros z Hz [Hu|Hu]; [apply (F2 z); auto; rewrite !in_app_iff in *; tauto|].
      apply NoDup_app_iff in F1. destruct F1 as (A1 & A2 & A3). apply NoDup_app_iff in A2. destruct A2 as (B1 & B2 & B3).
      apply NoDup_app_iff in B1. destruct B1 as (C1 & C2 & C3).
      rewrite !in_app_iff in Hz. destruct Hz as [Hz|[Hz|Hz]].
      * apply (A3 z Hz). rewrite !in_app_iff. auto.
      * apply (C3 z Hu). rewrite !in_app_iff. auto.
      * apply (B3 z); auto. rewrite !in_app_iff. auto.
    + apply NoDup_app_iff in G1. destruct G1 as (A1 & A2 & A3). apply NoDup_app_iff in A2. destruct A2 as (B1 & B2 & B3).
      apply NoDup_app_iff in B1. destruct B1 as (C1 & C2 & C3). apply NoDup_app_iff in C2. destruct C2 as (D1 & D2 & D3).
      apply NoDup_app_iff. split; auto. split.
      * apply NoDup_app_iff. split; auto. split; auto. intros z Hz. apply B3. rewrite !in_app_iff. auto.
      * intros z Hz Hz2. apply (A3 z Hz). rewrite !in_app_iff in *. tauto.
    + intros z Hz. destruct (rho d' z) eqn:Q; auto. exfalso. destruct (Hd z) as [Hu|Hu]; [congruence| |].
      * apply Hu. apply G2. rewrite !in_app_iff in *. tauto.
      * apply NoDup_app_iff in G1. destruct G1 as (A1 & A2 & A3). apply NoDup_app_iff in A2. destruct A2 as (B1 & B2 & B3).
        apply NoDup_app_iff in B1. destruct B1 as (C1 & C2 & C3).
        rewrite !in_app_iff in Hz. destruct Hz as [Hz|[Hz|Hz]].
        -- apply (A3 z Hz). rewrite !in_app_iff. auto.
        -- apply (C3 z Hu). rewrite !in_app_iff. auto.
        -- apply (B3 z); auto. rewrite !in_app_iff. auto.
Qed.
End Crowd.

Definition crowd_ids (callers : list (rhandle * list rop)) : list I :=
  flat_map (fun hl => next_ids (rh_ulids (fst hl)) (length (flat_map given (snd hl)))) callers.

Lemma crowd_raced U d callers schedule i rs h' :
  let pd := interleave schedule (map (fun hl => hist (snd hl) (fst hl)) callers) d in
  world U d -> fresh_keys U (flat_map (fun hl => rs_keys (fst hl) (snd hl)) callers) ->
  Forall (fun hl => Forall adding (snd hl)) callers -> unused (crowd_ids callers) d ->
  nth_error (fst pd) i = Some (Ret (rs, h')) ->
  Forall (raced (meets schedule i) (gives_ callers i) (gives_other callers i) (nu d) (nu (snd pd))) rs.
Proof.
  intros pd Hw Hf Ha Hu Hi.
  set (xs := map (fun hl => Share (nu d) (rs_keys (fst hl) (snd hl)) (next_ids (rh_ulids (fst hl)) (length (flat_map given (snd hl))))) callers).
  destruct (race_step callers schedule (nu d) schedule (map (fun hl => hist (snd hl) (fst hl)) callers) d xs (incl_refl _)) as (xs' & H1 & H2 & _).
  - split; [unfold xs; now rewrite !map_length|]. split.
    + intros j p x Hp Hx. unfold xs in Hx. destruct (nth_error callers j) as [[h l]|] eqn:Hc.
      2: { apply nth_error_None in Hc. rewrite <- (map_length (fun hl => hist (snd hl) (fst hl))) in Hc. apply nth_error_None in Hc. congruence. }
      rewrite (map_nth_error (fun hl => hist (snd hl) (fst hl)) j _ Hc) in Hp. injection Hp as <-.
      rewrite (map_nth_error _ j _ Hc) in Hx. injection Hx as <-. simpl. split; simpl.
      * rewrite Forall_forall in Ha. pose proof (Ha _ (nth_error_In _ _ Hc)) as Hl. simpl in Hl.
        eapply told_mono; [|apply (told_history (meets schedule j) (gives_ callers j) (gives_other callers j) (nu d) 0 0 l h)]; auto.
        -- intros rsh M own us (_ & _ & Q). exact Q.
        -- intros s Hs. exists h, l. auto.
        -- rewrite Nat.add_0_r. exists [], []. now rewrite app_nil_r.
        -- rewrite Nat.add_0_r. exists [], []. now rewrite app_nil_r.
      * split; [apply below_refl|]. split; [apply below_refl|]. auto.
    + exists U. split; auto. unfold xs. rewrite !flat_map_concat_map, !map_map. simpl.
      rewrite <- !flat_map_concat_map. auto.
  - fold pd in H1, H2. destruct (nth_error xs' i) as [x|] eqn:Hx.
    2: { apply nth_error_None in Hx. assert (i < length (fst pd)) by (apply nth_error_Some; congruence). lia. }
    destruct (H2 i _ _ Hi Hx) as (Ht & _ & Hb & _). simpl in Ht. eapply Forall_impl; [|exact Ht].
    intros r. now apply raced_below.
Qed.
End Race.

Section Main.
Context {S NP EP SE BE E : Type} (seqb : S -> S -> bool).
Context (cs : codec BE S) (cu : codec BE (Id KUlid)) (cn : codec BE NP) (ce : codec BE EP).
Context (mn : NP -> NP -> NP) (me : EP -> EP -> EP).
Context (seqb_eq : forall a b, seqb a b = true <-> a = b).
Context (Hcs : codec_ok cs) (Hcu : codec_ok cu) (Hcn : codec_ok cn) (Hce : codec_ok ce).
Notation repoch := (repoch (S := S) (NP := NP) (EP := EP) (SE := SE) (E := E)).
Notation epochs := (rs_epochs (SE := SE) (E := E) cs cu cn ce mn me).
Notation crowd := (rs_crowd (SE := SE) (E := E) cs cu cn ce mn me).
Notation nu := (name_now (SE := SE) cs cu).
Notation rho := (id_now (SE := SE) cs cu).

Lemma main_raced (es : list repoch) (k : rcrowd) :
  NoDup (flat_map epoch_keys (es ++ [Together k])) -> Forall calm (es ++ [Together k]) ->
  let d := epochs es rdb_new in let pd := crowd k d in
  NoDup (crowd_ulids k) -> (forall i, In i (crowd_ulids k) -> rho d i = None) ->
  forall i rs h', nth_error (fst pd) i = Some (Ret (rs, h')) ->
  forall r, In r rs -> r_caused_together cs cu cn ce k i (nu d) (nu (snd pd)) r.
Proof.
  intros Hnd Hc d pd Hu1 Hu2 i rs h' Hi r Hr. rewrite flat_map_app in Hnd. apply Forall_app in Hc. destruct Hc as [Hc1 Hc2].
  inversion_clear Hc2 as [|? ? Hk _]. simpl in Hk.
  pose proof (NoDup_app_iff (flat_map epoch_keys es) (flat_map epoch_keys [Together k])) as [Hn _]. destruct (Hn Hnd) as (N1 & _ & _).
  destruct (epochs_world seqb cs cu cn ce mn me seqb_eq Hcs Hcu Hcn Hce es N1 Hc1) as (W & _).
  pose proof (fresh_tail (fun _ => False) _ _ (fresh_start _ Hnd)) as Hf. simpl in Hf. rewrite app_nil_r in Hf.
  pose proof (crowd_raced seqb seqb_eq cs cu cn ce Hcs Hcu Hcn Hce mn me _ d (rc_callers k) (rc_schedule k) i rs h' W Hf Hk (conj Hu1 Hu2) Hi) as H.
  rewrite Forall_forall in H. specialize (H r Hr). fold (crowd k d) in H. fold pd in H.
  destruct r as [[]|[[e|e|n]|e]]; simpl in *; auto.
  - destruct e; simpl in *; auto. destruct H as (H1 & H2 & H3 & H4). auto.
Qed.

Lemma main_apart (es : list repoch) (k : rcrowd) i :
  codec_total cs -> codec_total cu -> codec_total cn -> codec_total ce ->
  NoDup (flat_map epoch_keys (es ++ [Together k])) -> Forall calm (es ++ [Together k]) ->
  let d := epochs es rdb_new in let pd := crowd k d in
  NoDup (crowd_ulids k) -> (forall i, In i (crowd_ulids k) -> rho d i = None) ->
  (forall x, ~ In (i, Some x) (rc_schedule k)) ->
  (forall s j, gives k i s -> gives k j s -> j <> i -> nu d s <> None) ->
  forall rs h', nth_error (fst pd) i = Some (Ret (rs, h')) ->
  forall r, In r rs -> r_failed r = false.
Proof.
  intros Ts Tu Tn Te Hnd Hc d pd Hu1 Hu2 Hno Hap rs h' Hi r Hr.
  pose proof (main_raced es k Hnd Hc Hu1 Hu2 i rs h' Hi r Hr) as B.
  destruct r as [[]|[y|e]]; auto. destruct y as [y|y|n]; auto; destruct y; simpl in *; try contradiction; try (now apply Hno in B);
    try (destruct B as [[p B]|[p B]]; solve [destruct (Ts p); congruence|destruct (Tu p); congruence|destruct (Tn p); congruence|destruct (Te p); congruence]).
  destruct B as (B1 & _ & B2 & j & B3 & B4). exfalso. apply (Hap l j B2 B4 B3). exact B1.
Qed.
End Main.
