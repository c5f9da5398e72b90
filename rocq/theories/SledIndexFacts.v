(** Facts about SledHashIndex. *)
From Coq Require Import List Arith Lia.
From Verif Require Import Bytes BytesFacts OMap OMapFacts Core Prog Sled SledHistory SledConc SledIndex.
Import ListNotations.

Section SledIndexFacts.
Context {L R SE BE : Type} (cl : codec BE L) (cr : codec BE R).
Notation err := (sled_index_error L R SE BE).
Notation run := (si_run (SE := SE) cl cr).
Notation calls := (si_calls (SE := SE) cl cr).
Notation callers cs := (map (fun l => calls l []) cs).
Notation left_now := (left_now (SE := SE) cl cr).
Notation right_now := (right_now (SE := SE) cl cr).
Notation answer := (ianswer (L := L) (R := R) (SE := SE) (BE := BE)).
Notation icall := (icall L R).
Notation bytes_dec := (list_eq_dec Byte.byte_eq_dec).
Let BC := bytes_cmp_ok.
Implicit Types d : idb.

(** ** Every call is one storage step, or none *)
Lemma run_single c : match run c with
  | Ret _ => True
  | Look _ => False
  | Act _ g e => (forall d, exists a, g d = Ret a) /\ (forall x, exists a, e x = Ret a)
  end.
Proof.
  destruct c as [l r|l|r]; simpl; [unfold si_set|unfold si_left_to_right|unfold si_right_to_left];
    destruct (ser cl _) || destruct (ser cr _); simpl; auto; try destruct (ser cr _); simpl; auto; split; eauto.
Qed.

Notation seq_run := (si_one_at_a_time (SE := SE) cl cr).

Lemma seq_app o1 : forall o2 ts d,
  seq_run (o1 ++ o2) ts d = let (ts', d') := seq_run o1 ts d in seq_run o2 ts' d'.
Proof.
  induction o1 as [|[i f] o1 IH]; intros o2 ts d; simpl; auto. destruct (si_turn cl cr i f ts d). apply IH.
Qed.

Lemma step_calls (l : list icall) : forall done f d ts i, nth_error ts i = Some (l, done) ->
  exists order l' done',
    seq_run order ts d = (replace_nth i (l', done') ts, snd (step1 f (calls l done) d)) /\
    fst (step1 f (calls l done) d) = calls l' done' /\
    Forall (fun x => fst x = i /\ (snd x = None \/ snd x = f)) order.
Proof.
  induction l as [|c l IH]; intros done f d ts i Hi.
  - exists [], [], done. simpl. rewrite (replace_same _ _ _ Hi). auto.
  - pose proof (run_single c) as Hs. cbn [si_calls].
    destruct (run c) as [a|g|u g e] eqn:Ec; [|destruct Hs|].
    + cbn [bind]. assert (si_turn cl cr i None ts d = (replace_nth i (l, done ++ [a]) ts, d)) as Ht.
      { unfold si_turn. now rewrite Hi, Ec. }
      destruct (IH (done ++ [a]) f d (replace_nth i (l, done ++ [a]) ts) i) as (order & l' & done' & H1 & H2 & H3).
      { eapply nth_replace_eq; eauto. }
      exists ((i, None) :: order), l', done'. cbn [si_one_at_a_time]. rewrite Ht, H1, replace_twice.
      repeat split; auto.
    + destruct Hs as [Hg He]. cbn [bind].
      exists [(i, f)], l, (done ++ [match f with Some x => ret_of (e x) [] d | None => ret_of (g d) [] d end]).
      cbn [si_one_at_a_time]. unfold si_turn. rewrite Hi, Ec. destruct f as [x|]; cbn [step1 fst snd].
      * destruct (He x) as [a Ea]. unfold ret_of, db_of. simpl. rewrite Ea. simpl. split; [reflexivity|]. split; [reflexivity|]. constructor; simpl; auto.
      * destruct (Hg d) as [a Ea]. unfold ret_of, db_of. simpl. rewrite Ea. simpl. split; [reflexivity|]. split; [reflexivity|]. constructor; simpl; auto.
Qed.

Lemma calls_done (l : list icall) : forall done rs d ts i, nth_error ts i = Some (l, done) ->
  calls l done = Ret rs ->
  exists order, seq_run order ts d = (replace_nth i ([], rs) ts, d) /\ Forall (fun x => snd x = None) order.
Proof.
  induction l as [|c l IH]; intros done rs d ts i Hi Hp.
  - simpl in Hp. injection Hp as <-. exists []. simpl. rewrite (replace_same _ _ _ Hi). auto.
  - cbn [si_calls] in Hp. destruct (run c) as [a|g|u g e] eqn:Ec; try discriminate. cbn [bind] in Hp.
    destruct (IH (done ++ [a]) rs d (replace_nth i (l, done ++ [a]) ts) i) as (order & H1 & H2); auto.
    { eapply nth_replace_eq; eauto. }
    exists ((i, None) :: order). cbn [si_one_at_a_time]. unfold si_turn. rewrite Hi, Ec. cbn [ret_of db_of exec fst snd].
    rewrite H1, replace_twice. auto.
Qed.

Notation is_calls := (fun p (t : list icall * list answer) => p = calls (fst t) (snd t)).

Lemma interleave_calls schedule : forall ps ts d, Forall2 is_calls ps ts ->
  exists order ts', seq_run order ts d = (ts', snd (interleave schedule ps d)) /\
    Forall2 is_calls (fst (interleave schedule ps d)) ts' /\
    Forall (fun x => snd x = None \/ In x schedule) order.
Proof.
  induction schedule as [|[i f] schedule IH]; intros ps ts d Hf.
  - exists [], ts. simpl. auto.
  - simpl. destruct (nth_error ps i) as [p|] eqn:Hp.
    + destruct (Forall2_nth_l _ _ _ _ _ Hf Hp) as ([l done] & Ht & Hpe). simpl in Hpe. subst p.
      destruct (step_calls l done f d ts i Ht) as (o1 & l' & done' & H1 & H2 & H3).
      destruct (step1 f (calls l done) d) as [p' d']. simpl in H1, H2. subst p'.
      destruct (IH (replace_nth i (calls l' done') ps) (replace_nth i (l', done') ts) d') as (o2 & ts' & H5 & H6 & H7).
      { apply Forall2_replace; auto. }
      exists (o1 ++ o2), ts'. rewrite seq_app, H1. split; auto. split; auto. apply Forall_app. split.
      * eapply Forall_impl; [|exact H3]. intros [j g] [Hj [Hg|Hg]]; simpl in *; subst; auto.
      * eapply Forall_impl; [|exact H7]. intros x [Hx|Hx]; auto.
    + destruct (IH ps ts d Hf) as (o & ts' & H5 & H6 & H7). exists o, ts'. split; auto. split; auto.
      eapply Forall_impl; [|exact H7]. intros x [Hx|Hx]; auto.
Qed.

Lemma settle_calls (ps : list (prog idb SE (list answer))) : forall ts d, Forall2 is_calls ps ts ->
  exists order ts', seq_run order ts d = (ts', d) /\ Forall (fun x => snd x = None) order /\
    forall i rs, nth_error ps i = Some (Ret rs) -> nth_error ts' i = Some ([], rs).
Proof.
  intros ts d Hf.
  assert (forall n, n <= length ps -> exists order ts', seq_run order ts d = (ts', d) /\
    Forall (fun x => snd x = None) order /\ Forall2 is_calls ps ts' /\
    forall i rs, i < n -> nth_error ps i = Some (Ret rs) -> nth_error ts' i = Some ([], rs)) as H.
  { induction n as [|n IH]; intros Hn.
    - exists [], ts. simpl. split; auto. split; auto. split; auto. intros i rs Hi. inversion Hi.
    - destruct IH as (order & ts' & H1 & H2 & H3 & H4); [lia|].
      destruct (nth_error ps n) as [p|] eqn:Hp; [|apply nth_error_None in Hp; lia].
      destruct p as [rs|g|u g e].
      2,3: exists order, ts'; split; [exact H1|]; split; [exact H2|]; split; [exact H3|]; intros i rs Hi Hr;
        assert (i < n \/ i = n) as [Hi'| ->] by lia; [now apply H4|rewrite Hp in Hr; discriminate].
      destruct (Forall2_nth_l _ _ _ _ _ H3 Hp) as ([l done] & Ht & Hpe). simpl in Hpe.
      destruct (calls_done l done rs d ts' n Ht (eq_sym Hpe)) as (o' & H5 & H6).
      exists (order ++ o'), (replace_nth n ([], rs) ts'). rewrite seq_app, H1. split; auto. split; [now apply Forall_app|]. split.
      + eapply Forall2_replace_r; eauto.
      + intros i rs' Hi Hr. assert (i < n \/ i = n) as [Hi'| ->] by lia.
        * rewrite nth_replace_neq; [now apply H4|]. lia.
        * rewrite Hp in Hr. injection Hr as ->. eapply nth_replace_eq; eauto. }
  destruct (H _ (le_n _)) as (order & ts' & H1 & H2 & _ & H4). exists order, ts'. split; auto. split; auto.
  intros i rs Hr. apply H4; auto. apply nth_error_Some. now rewrite Hr.
Qed.

Lemma index_serial (cs : list (list icall)) schedule d :
  let (ps, d') := interleave schedule (callers cs) d in
  exists order ts, seq_run order (map (fun l => (l, [])) cs) d = (ts, d') /\
    (forall i rs, nth_error ps i = Some (Ret rs) -> nth_error ts i = Some ([], rs)) /\
    (forall i e, In (i, Some e) order -> In (i, Some e) schedule).
Proof.
  assert (Forall2 is_calls (callers cs) (map (fun l => (l, [])) cs)) as Hs.
  { clear. induction cs as [|l cs IH]; simpl; constructor; auto. }
  destruct (interleave_calls schedule _ _ d Hs) as (o1 & ts1 & H1 & H2 & H3).
  destruct (interleave schedule (callers cs) d) as [ps d']. simpl in *.
  destruct (settle_calls ps ts1 d' H2) as (o2 & ts & H4 & H5 & H6).
  exists (o1 ++ o2), ts. rewrite seq_app, H1. split; auto. split; auto.
  intros i e Hin. apply in_app_iff in Hin. rewrite Forall_forall in H3, H5. destruct Hin as [Hin|Hin].
  - destruct (H3 _ Hin) as [Hx|Hx]; auto. discriminate.
  - apply H5 in Hin. discriminate.
Qed.

(** ** The tables *)

(** What any call does to the tables. *)
Definition grows d d' : Prop :=
  d' = d \/ exists l r lb rb, ser cl l = Ok lb /\ ser cr r = Ok rb /\
    bget lb (i_l2r d) = None /\ bget rb (i_r2l d) = None /\
    d' = IDb (binsert lb rb (i_l2r d)) (binsert rb lb (i_r2l d)).

Lemma run_grows c fs d : grows d (db_of (run c) fs d).
Proof.
  destruct c as [l r|l|r]; cbn [si_run].
  - unfold si_set. destruct (ser cl l) as [lb|e] eqn:El; [|left; reflexivity].
    destruct (ser cr r) as [rb|e] eqn:Er; [|left; reflexivity]. cbn [bind].
    assert (grows d (match set_body (SE := SE) cl cr l r lb rb d with Ok d' => d' | Err _ => d end)) as H.
    { unfold set_body. destruct (bget lb (i_l2r d)) eqn:E1; [destruct (de cr _); left; reflexivity|]. cbn [i_l2r i_r2l].
      destruct (bget rb (i_r2l d)) eqn:E2; [destruct (de cl _); left; reflexivity|]. right. exists l, r, lb, rb. auto. }
    destruct fs as [|[x|] fs]; [exact H|left; reflexivity|exact H].
  - left. unfold si_left_to_right. destruct (ser cl l); [|reflexivity]. destruct fs as [|[x|] fs]; reflexivity.
  - left. unfold si_right_to_left. destruct (ser cr r); [|reflexivity]. destruct fs as [|[x|] fs]; reflexivity.
Qed.

Lemma epochs_grow (J : idb -> Prop) : (forall d d', grows d d' -> J d -> J d') ->
  forall es d, J d -> J (si_epochs (SE := SE) cl cr es d).
Proof.
  intros HJ.
  assert (forall order ts d, J d -> J (snd (seq_run order ts d))) as Hs.
  { induction order as [|[i f] order IH]; intros ts d Hd; simpl; auto.
    destruct (si_turn cl cr i f ts d) as [ts' d'] eqn:Et. apply IH. unfold si_turn in Et.
    destruct (nth_error ts i) as [[[|c l] done]|]; injection Et as <- <-; auto.
    eapply HJ; [apply run_grows|exact Hd]. }
  induction es as [|[cs schedule] es IH]; intros d Hd; simpl; auto. apply IH. cbn [fst snd].
  pose proof (index_serial cs schedule d) as Hi. destruct (interleave schedule (callers cs) d) as [ps d'].
  destruct Hi as (order & ts & H1 & _). specialize (Hs order (map (fun l => (l, [])) cs) d Hd). now rewrite H1 in Hs.
Qed.

Record index_ok d : Prop := {
  ok_both : forall lb rb, bget lb (i_l2r d) = Some rb <-> bget rb (i_r2l d) = Some lb;
  ok_ser : forall lb rb, bget lb (i_l2r d) = Some rb -> exists l r, ser cl l = Ok lb /\ ser cr r = Ok rb
}.

Lemma ok_new : index_ok idb_new.
Proof. split; simpl; [split|]; discriminate. Qed.

Lemma ok_grows d d' : grows d d' -> index_ok d -> index_ok d'.
Proof.
  intros [->|(l & r & lb & rb & El & Er & Hl & Hr & ->)] Hok; auto. split; simpl.
  - intros a b. destruct (bytes_dec a lb) as [->|Na]; destruct (bytes_dec b rb) as [->|Nb].
    + rewrite !(get_insert_eq BC). split; auto.
    + rewrite (get_insert_eq BC), (get_insert_neq BC) by auto. split; [intros [= <-]; now elim Nb|].
      intros H. apply Hok in H. rewrite Hl in H. discriminate.
    + rewrite (get_insert_eq BC), (get_insert_neq BC) by auto. split; [|intros [= <-]; now elim Na].
      intros H. apply Hok in H. rewrite Hr in H. discriminate.
    + rewrite !(get_insert_neq BC) by auto. apply Hok.
  - intros a b. destruct (bytes_dec a lb) as [->|Na].
    + rewrite (get_insert_eq BC). intros [= <-]. eauto.
    + rewrite (get_insert_neq BC) by auto. apply Hok.
Qed.

Lemma ok_epochs es : index_ok (si_epochs (SE := SE) cl cr es idb_new).
Proof. apply epochs_grow; [apply ok_grows|apply ok_new]. Qed.

Context (Hcl : codec_ok cl) (Hcr : codec_ok cr).

Lemma left_spec d l r : index_ok d ->
  (left_now d l = Ok (Some r) <-> exists lb rb, ser cl l = Ok lb /\ ser cr r = Ok rb /\ bget lb (i_l2r d) = Some rb).
Proof.
  intros Hok. unfold SledIndex.left_now, si_left_to_right. destruct (ser cl l) as [lb|e] eqn:El; cbn.
  - split.
    + destruct (bget lb (i_l2r d)) as [b|] eqn:Eb; simpl; [|discriminate].
      destruct (de cr b) as [r'|e] eqn:Ed; [|discriminate]. intros [= ->].
      destruct (ok_ser d Hok _ _ Eb) as (l' & r' & _ & Er). pose proof (Hcr _ _ Er) as Hd. rewrite Ed in Hd. injection Hd as <-.
      exists lb, b. auto.
    + intros (lb' & rb & [= <-] & Er & ->). simpl. now rewrite (Hcr _ _ Er).
  - split; [discriminate|]. intros (lb & rb & Hx & _). discriminate.
Qed.

Lemma right_spec d l r : index_ok d ->
  (right_now d r = Ok (Some l) <-> exists lb rb, ser cl l = Ok lb /\ ser cr r = Ok rb /\ bget rb (i_r2l d) = Some lb).
Proof.
  intros Hok. unfold SledIndex.right_now, si_right_to_left. destruct (ser cr r) as [rb|e] eqn:Er; cbn.
  - split.
    + destruct (bget rb (i_r2l d)) as [b|] eqn:Eb; simpl; [|discriminate].
      destruct (de cl b) as [l'|e] eqn:Ed; [|discriminate]. intros [= ->].
      pose proof (proj2 (ok_both d Hok _ _) Eb) as Eb'.
      destruct (ok_ser d Hok _ _ Eb') as (l' & r' & El & _). pose proof (Hcl _ _ El) as Hd. rewrite Ed in Hd. injection Hd as <-.
      exists b, rb. auto.
    + intros (lb & rb' & El & [= <-] & ->). simpl. now rewrite (Hcl _ _ El).
  - split; [discriminate|]. intros (lb & rb & _ & Hx & _). discriminate.
Qed.

Lemma left_answers d l : index_ok d ->
  match ser cl l with Ok _ => exists o, left_now d l = Ok o | Err e => left_now d l = Err (ISerializationError e) end.
Proof.
  intros Hok. unfold SledIndex.left_now, si_left_to_right. destruct (ser cl l) as [lb|e] eqn:El; [|reflexivity].
  unfold ret_of. simpl. destruct (bget lb (i_l2r d)) as [b|] eqn:Eb; simpl; eauto.
  destruct (ok_ser d Hok _ _ Eb) as (l' & r & _ & Er). rewrite (Hcr _ _ Er). eauto.
Qed.

Lemma right_answers d r : index_ok d ->
  match ser cr r with Ok _ => exists o, right_now d r = Ok o | Err e => right_now d r = Err (ISerializationError e) end.
Proof.
  intros Hok. unfold SledIndex.right_now, si_right_to_left. destruct (ser cr r) as [rb|e] eqn:Er; [|reflexivity].
  unfold ret_of. simpl. destruct (bget rb (i_r2l d)) as [b|] eqn:Eb; simpl; eauto.
  apply (ok_both d Hok) in Eb. destruct (ok_ser d Hok _ _ Eb) as (l' & r' & El & _). rewrite (Hcl _ _ El). eauto.
Qed.

Lemma epochs_one_to_one es :
  let d := si_epochs (SE := SE) cl cr es idb_new in
  (forall l r, left_now d l = Ok (Some r) <-> right_now d r = Ok (Some l)) /\
  (forall l, match ser cl l with Ok _ => exists o, left_now d l = Ok o | Err e => left_now d l = Err (ISerializationError e) end) /\
  (forall r, match ser cr r with Ok _ => exists o, right_now d r = Ok o | Err e => right_now d r = Err (ISerializationError e) end).
Proof.
  cbv zeta. pose proof (ok_epochs es) as Hok. split; [|split].
  - intros l r. rewrite (left_spec _ l r Hok), (right_spec _ l r Hok). split; intros (lb & rb & El & Er & H);
      exists lb, rb; (split; [exact El|]); (split; [exact Er|]); now apply (ok_both _ Hok).
  - intros l. now apply left_answers.
  - intros r. now apply right_answers.
Qed.

Lemma grows_keeps d d' lb rb : grows d d' ->
  (bget lb (i_l2r d) = Some rb -> bget lb (i_l2r d') = Some rb) /\ (bget rb (i_r2l d) = Some lb -> bget rb (i_r2l d') = Some lb).
Proof.
  intros [->|(l & r & lb' & rb' & El & Er & Hl & Hr & ->)]; auto. simpl. split; intros H.
  - destruct (bytes_dec lb lb') as [->|Na]; [rewrite Hl in H; discriminate|]. now rewrite (get_insert_neq BC) by auto.
  - destruct (bytes_dec rb rb') as [->|Na]; [rewrite Hr in H; discriminate|]. now rewrite (get_insert_neq BC) by auto.
Qed.

(** Whatever the tables contain. *)
Lemma epochs_keep es d :
  let d' := si_epochs (SE := SE) cl cr es d in
  (forall l r, left_now d l = Ok (Some r) -> left_now d' l = Ok (Some r)) /\
  (forall l r, right_now d r = Ok (Some l) -> right_now d' r = Ok (Some l)).
Proof.
  cbv zeta. assert (forall lb rb, (bget lb (i_l2r d) = Some rb -> bget lb (i_l2r (si_epochs (SE := SE) cl cr es d)) = Some rb) /\
    (bget rb (i_r2l d) = Some lb -> bget rb (i_r2l (si_epochs (SE := SE) cl cr es d)) = Some lb)) as Hk.
  { intros lb rb. apply (epochs_grow (fun x => (bget lb (i_l2r d) = Some rb -> bget lb (i_l2r x) = Some rb) /\
      (bget rb (i_r2l d) = Some lb -> bget rb (i_r2l x) = Some lb))); auto.
    intros x y Hg [H1 H2]. destruct (grows_keeps x y lb rb Hg). auto. }
  unfold SledIndex.left_now, SledIndex.right_now, si_left_to_right, si_right_to_left, ret_of. split; intros l r.
  - destruct (ser cl l) as [lb|e]; simpl; auto. destruct (bget lb (i_l2r d)) as [b|] eqn:Eb; simpl; [|discriminate].
    now rewrite (proj1 (Hk lb b) Eb).
  - destruct (ser cr r) as [rb|e]; simpl; auto. destruct (bget rb (i_r2l d)) as [b|] eqn:Eb; simpl; [|discriminate].
    now rewrite (proj2 (Hk b rb) Eb).
Qed.

(** ** One call of set *)
Lemma ser_inj {A} (c : codec BE A) : codec_ok c -> forall a b x, ser c a = Ok x -> ser c b = Ok x -> a = b.
Proof. intros H a b x Ha Hb. apply H in Ha, Hb. congruence. Qed.

Lemma left_insert d l r lb rb : ser cl l = Ok lb -> ser cr r = Ok rb ->
  forall l', (l' = l -> left_now (IDb (binsert lb rb (i_l2r d)) (binsert rb lb (i_r2l d))) l' = Ok (Some r)) /\
    (l' <> l -> left_now (IDb (binsert lb rb (i_l2r d)) (binsert rb lb (i_r2l d))) l' = left_now d l').
Proof.
  intros El Er l'. unfold SledIndex.left_now, si_left_to_right, ret_of. split.
  - intros ->. rewrite El. simpl. rewrite (get_insert_eq BC). simpl. now rewrite (Hcr _ _ Er).
  - intros Hne. destruct (ser cl l') as [lb'|e] eqn:El'; simpl; auto. rewrite (get_insert_neq BC); auto.
    intros ->. apply Hne. eapply ser_inj; eauto.
Qed.

Lemma right_insert d l r lb rb : ser cl l = Ok lb -> ser cr r = Ok rb ->
  forall r', (r' = r -> right_now (IDb (binsert lb rb (i_l2r d)) (binsert rb lb (i_r2l d))) r' = Ok (Some l)) /\
    (r' <> r -> right_now (IDb (binsert lb rb (i_l2r d)) (binsert rb lb (i_r2l d))) r' = right_now d r').
Proof.
  intros El Er r'. unfold SledIndex.right_now, si_right_to_left, ret_of. split.
  - intros ->. rewrite Er. simpl. rewrite (get_insert_eq BC). simpl. now rewrite (Hcl _ _ El).
  - intros Hne. destruct (ser cr r') as [rb'|e] eqn:Er'; simpl; auto. rewrite (get_insert_neq BC); auto.
    intros ->. apply Hne. eapply ser_inj; eauto.
Qed.

Lemma set_call es l r (fault : option SE) :
  let d := si_epochs (SE := SE) cl cr es idb_new in
  let x := ret_of (si_set cl cr l r) [fault] d in
  let d' := db_of (si_set cl cr l r) [fault] d in
  match x with
  | Ok _ => left_now d l = Ok None /\ right_now d r = Ok None /\
      (forall l', (l' = l -> left_now d' l' = Ok (Some r)) /\ (l' <> l -> left_now d' l' = left_now d l')) /\
      (forall r', (r' = r -> right_now d' r' = Ok (Some l)) /\ (r' <> r -> right_now d' r' = right_now d r'))
  | Err (SDuplicateRight l1 r1 r2) => l1 = l /\ r2 = r /\ left_now d l = Ok (Some r1) /\ d' = d
  | Err (SDuplicateLeft r1 l1 l2) => r1 = r /\ l2 = l /\ left_now d l = Ok None /\ right_now d r = Ok (Some l1) /\ d' = d
  | Err (ISledError e) => fault = Some e /\ d' = d
  | Err (ISerializationError e) => (ser cl l = Err e \/ ser cr r = Err e) /\ d' = d
  end.
Proof.
  cbv zeta. pose proof (ok_epochs es) as Hok. set (d := si_epochs cl cr es idb_new) in *. clearbody d.
  unfold ret_of, db_of, si_set. destruct (ser cl l) as [lb|e] eqn:El; [|simpl; auto].
  destruct (ser cr r) as [rb|e] eqn:Er; [|simpl; auto]. simpl. destruct fault as [x|]; [simpl; auto|]. simpl.
  unfold set_body. cbn [i_l2r i_r2l]. destruct (bget lb (i_l2r d)) as [b|] eqn:E1.
  - destruct (ok_ser d Hok _ _ E1) as (l0 & r0 & El0 & Er0). rewrite (Hcr _ _ Er0). repeat split; auto.
    unfold SledIndex.left_now, si_left_to_right, ret_of. rewrite El. simpl. rewrite E1. simpl. now rewrite (Hcr _ _ Er0).
  - assert (left_now d l = Ok None) as Hl.
    { unfold SledIndex.left_now, si_left_to_right, ret_of. rewrite El. simpl. now rewrite E1. }
    destruct (bget rb (i_r2l d)) as [b|] eqn:E2.
    + pose proof (proj2 (ok_both d Hok _ _) E2) as E2'. destruct (ok_ser d Hok _ _ E2') as (l0 & r0 & El0 & Er0).
      rewrite (Hcl _ _ El0). repeat split; auto.
      unfold SledIndex.right_now, si_right_to_left, ret_of. rewrite Er. simpl. rewrite E2. simpl. now rewrite (Hcl _ _ El0).
    + split; [exact Hl|]. split; [|split; [apply left_insert; auto|apply right_insert; auto]].
      unfold SledIndex.right_now, si_right_to_left, ret_of. rewrite Er. simpl. now rewrite E2.
Qed.

End SledIndexFacts.
