(** Why calls on an RdfTripleStore over sled fail when nobody else uses the database. *)
From Coq Require Import Arith NArith List Bool Sorted Lia.
From Verif Require Import Bytes BytesFacts OMap OMapFacts Core IdType IdTypeFacts Store Mem Spec GenSpec
  CodecFacts ListFacts MemSim History Prog ProgFacts Sled SledHistory SledSched SledDb SledOps SledBulk
  SledRun SledRead SledTop SledMain SledCrash SledConc SledIndex SledIndexFacts Rdf RdfSpec RdfTop RdfSled RdfSledSpec
  RdfSledSafe RdfSledConc RdfSledTop.
Import ListNotations.

(** ** The end of a run *)
Section Post.
Context {D SE : Type}.
Definition post {A} (F : SE -> Prop) (p : prog D SE A) (d : D) (Q : A -> D -> Prop) : Prop :=
  forall fs, allowed F fs -> Q (ret_of p fs d) (db_of p fs d).

Lemma allowed_exec {A} (F : SE -> Prop) (p : prog D SE A) : forall fs d, allowed F fs -> allowed F (snd (exec p fs d)).
Proof.
  induction p as [a|k IH|u k IHk e IHe]; intros fs d H; simpl; auto.
  destruct fs as [|[x|] fs]; auto; [apply IHe|apply IHk]; eapply allowed_tl; eauto.
Qed.
Lemma post_ret {A} F (a : A) d (Q : A -> D -> Prop) : Q a d -> post F (Ret a) d Q.
Proof. intros H fs _. exact H. Qed.
Lemma post_bind {A B} F (p : prog D SE A) (f : A -> prog D SE B) d (Q : B -> D -> Prop) :
  post F p d (fun a x => post F (f a) x Q) -> post F (bind p f) d Q.
Proof.
  intros H fs Hf. rewrite ret_of_bind, db_of_bind. apply (H fs Hf). now apply allowed_exec.
Qed.
Lemma post_mono {A} F (p : prog D SE A) d (Q Q' : A -> D -> Prop) :
  (forall a x, Q a x -> Q' a x) -> post F p d Q -> post F p d Q'.
Proof. intros H Hp fs Hf. apply H, Hp, Hf. Qed.
Lemma post_and {A} F (p : prog D SE A) d (Q Q' : A -> D -> Prop) :
  post F p d Q -> post F p d Q' -> post F p d (fun a x => Q a x /\ Q' a x).
Proof. intros H H' fs Hf. split; auto. Qed.
Lemma post_wp {A} F R (Q : A -> D -> Prop) (p : prog D SE A) d : wp F R Q p d -> post F p d (fun a x => R x /\ Q a x).
Proof. intros H fs Hf. destruct (wp_exec F R Q p fs d Hf H) as (H1 & H2 & _). auto. Qed.
End Post.

Section Blame.
Context {S NP EP SE BE E : Type} (seqb : S -> S -> bool) (seqb_eq : forall a b, seqb a b = true <-> a = b).
Context (cs : codec BE S) (cu : codec BE (Id KUlid)) (cn : codec BE NP) (ce : codec BE EP).
Context (Hcs : codec_ok cs) (Hcu : codec_ok cu) (Hcn : codec_ok cn) (Hce : codec_ok ce).
Context (mn : NP -> NP -> NP) (me : EP -> EP -> EP).
Notation I := (Id KUlid).
Notation ent := (entity S).
Notation P A := (prog rdb SE A).
Notation rop := (rop S NP EP E).
Notation op := (op KUlid NP EP E).
Notation answer := (routcome (S := S) (SE := SE) (BE := BE) (E := E)).
Notation apply := (rs_apply (SE := SE) (E := E) cs cu cn ce mn me).
Notation hist := (rs_history (SE := SE) (E := E) cs cu cn ce mn me).
Notation gapply := (sled_apply (SE := SE) (E := E) cn ce mn me).
Notation nu := (name_now (SE := SE) cs cu).
Notation rho := (id_now (SE := SE) cs cu).
Notation world := (world cs cu cn ce).
Notation rerr := (rdf_error S (sled_index_error S I SE BE) (sled_error SE BE)).
Notation PH A := (P (result rerr A * rhandle)).
Notation single_prog := (single_prog (SE := SE) (E := E) cs cu cn ce mn me).
Implicit Types d : rdb.
Implicit Types own : list bytes.
Implicit Types h : rhandle.
Implicit Types o : rop.
Context (F : SE -> Prop).

Definition iblame (e : sled_index_error S I SE BE) : Prop :=
  match e with
  | ISledError x => F x
  | ISerializationError b => (exists s, ser cs s = Err b) \/ (exists i, ser cu i = Err b)
  | _ => False
  end.
Definition eblame (e : rerr) : Prop :=
  match e with
  | NameIndexStorageError e => iblame e
  | GraphStorageError e => blame cn ce F e
  | NameNotFound _ => True
  end.
Definition rblame {A} (r : result rerr A) : Prop := match r with Ok _ => True | Err e => eblame e end.
Definition cblame (r : answer) : Prop := match r with Err (LeftE e) => eblame e | _ => True end.

(** The next [m] identifiers of the handle are new to the index. *)
Definition spare (m : nat) h d : Prop :=
  NoDup (next_ids (rh_ulids h) m) /\ forall i, In i (next_ids (rh_ulids h) m) -> rho d i = None.

Lemma spare_same m h h' d d' : r_names d' = r_names d -> rh_ulids h' = rh_ulids h -> spare m h d -> spare m h' d'.
Proof. intros H1 H2. unfold spare, id_now. rewrite H1, H2. auto. Qed.
Lemma next_ids_less {j} (g : gen j) a b : incl (next_ids g a) (next_ids g (a + b)).
Proof. intros x. unfold next_ids. rewrite List.seq_app, map_app, in_app_iff. auto. Qed.
Lemma spare_less a m h d : spare (a + m) h d -> spare m h d.
Proof.
  rewrite Nat.add_comm. intros [H1 H2]. split.
  - unfold next_ids in *. rewrite List.seq_app, map_app in H1. apply NoDup_app_iff in H1. apply H1.
  - intros i Hi. apply H2. now apply next_ids_less.
Qed.

Lemma rho_free d i rb : index_ok cs cu (r_names d) -> ser cu i = Ok rb -> rho d i = None -> bget rb (i_r2l (r_names d)) = None.
Proof.
  intros Hok Hr Hn. destruct (bget rb (i_r2l (r_names d))) as [lb|] eqn:Hb; auto. exfalso.
  pose proof (proj2 (ok_both cs cu (r_names d) Hok lb rb) Hb) as Hl. destruct (ok_ser cs cu (r_names d) Hok _ _ Hl) as (s & i' & Hs & Hi).
  assert (rho d i = Some s) as Hx; [|congruence].
  apply rho_some. apply (right_spec cs cu Hcs _ _ _ Hok). eauto.
Qed.
Lemma nu_free d s lb : index_ok cs cu (r_names d) -> ser cs s = Ok lb -> left_now (SE := SE) cs cu (r_names d) s = Ok None ->
  bget lb (i_l2r (r_names d)) = None.
Proof.
  intros _ Hs. unfold left_now, si_left_to_right, ret_of. rewrite Hs. simpl.
  destruct (bget lb (i_l2r (r_names d))) as [b|]; auto. simpl. now destruct (de cu b).
Qed.

Lemma wp_create U e h d m : world U d -> spare (length (name_of e) + m) h d ->
  wp F (fun _ => True) (fun rh x => world U x /\ r_trees x = r_trees d /\ rh_graph (snd rh) = rh_graph h /\
      spare m (snd rh) x /\ rblame (fst rh))
    (rs_lookup_or_create (SE := SE) cs cu e h) d.
Proof.
  intros Hw Hs. destruct e as [n|i]; cbn [rs_lookup_or_create name_of length] in *.
  2: { simpl. auto 10. }
  pose proof (spare_less 1 m h d Hs) as Hs'. assert (RDb (r_names d) (r_trees d) = d) as Hd by (destruct d; reflexivity).
  assert (index_ok cs cu (r_names d)) as Hok by apply Hw.
  apply wp_bind. unfold si_left_to_right. destruct (ser cs n) as [lb|b] eqn:Hl.
  2: { simpl. split; auto. split; auto. simpl. repeat (split; [solve [auto]|]). simpl. eauto. }
  cbn [on_names wp]. rewrite Hd. split; auto. split.
  2: { intros x Hx. simpl. auto 10. }
  split; auto. rewrite (de_left cs cu d n lb) by auto.
  destruct (left_now cs cu (r_names d) n) as [[i|]|x] eqn:Hn.
  - simpl. auto 10.
  - unfold fresh. apply wp_bind. set (i := g_seq (rh_ulids h) (g_pos (rh_ulids h))) in *.
    set (u := Gen (g_seq (rh_ulids h)) (Datatypes.S (g_pos (rh_ulids h)))).
    destruct Hs as [S1 S2].
    assert (next_ids (rh_ulids h) (1 + m) = i :: next_ids u m) as Hids by reflexivity.
    rewrite Hids in S1, S2. inversion_clear S1 as [|? ? S3 S4].
    assert (spare m (RHandle (rh_graph h) u) d) as Hsd by (split; auto; intros; apply S2; simpl; auto).
    unfold si_set. rewrite Hl. destruct (ser cu i) as [rb|b] eqn:Hr.
    2: { simpl. repeat (split; [solve [auto]|]). simpl. eauto. }
    cbn [on_names wp]. split; auto. split.
    2: { intros x Hx. simpl. repeat (split; [solve [auto]|]). exact Hx. }
    split; auto.
    pose proof (nu_free d n lb Hok Hl Hn) as B1. pose proof (rho_free d i rb Hok Hr (S2 i (or_introl eq_refl))) as B2.
    assert (set_body (L := S) (R := I) (SE := SE) cs cu n i lb rb (r_names d) =
      Ok (IDb (binsert lb rb (i_l2r (r_names d))) (binsert rb lb (i_r2l (r_names d))))) as Hsb.
    { unfold set_body. rewrite B1. cbn [i_l2r i_r2l]. now rewrite B2. }
    rewrite Hsb. simpl. split; auto.
    split; [eapply grows_world; eauto; right; exists n, i, lb, rb; auto|]. split; auto. split; auto. split; auto.
    split; auto. intros j Hj. cbn [rh_ulids] in Hj.
    assert (j <> i) as Hne by (intros ->; auto).
    unfold id_now. cbn [r_names].
    destruct (right_insert (SE := SE) cs cu Hcs Hcu (r_names d) n i lb rb Hl Hr j) as [_ Hi]. rewrite (Hi Hne).
    apply (S2 j). simpl. auto.
  - exfalso. pose proof (left_answers (SE := SE) cs cu Hcu (r_names d) n Hok) as Ha. rewrite Hl in Ha. destruct Ha as [o Ha]. congruence.
Qed.

Lemma wp_bind_h {A B} (Q : _ -> rdb -> Prop) (p : PH A) (f : A -> rhandle -> PH B) d :
  wp F (fun _ => True) (fun rh x => match fst rh with Ok a => wp F (fun _ => True) Q (f a (snd rh)) x | Err e => Q (Err e, snd rh) x end) p d ->
  wp F (fun _ => True) Q (bind_h p f) d.
Proof.
  intros H. apply wp_bind. eapply wp_mono; [| |exact H]; auto. intros [[a|e] h'] x _ H'; simpl in *; auto.
Qed.

Lemma wp_create3 U t h d m : world U d -> spare (length (names_of t) + m) h d ->
  wp F (fun _ => True) (fun rh x => world U x /\ r_trees x = r_trees d /\ rh_graph (snd rh) = rh_graph h /\
      spare m (snd rh) x /\ rblame (fst rh))
    (rs_create3 (SE := SE) cs cu t h) d.
Proof.
  intros Hw Hs. unfold names_of in Hs. rewrite !app_length, <- !Nat.add_assoc in Hs. unfold rs_create3.
  apply wp_bind_h. eapply wp_mono; [| |apply (wp_create U _ _ _ _ Hw Hs)]; auto.
  intros [[a|e] h1] x _ (W1 & T1 & H1 & S1 & B1); cbn [fst snd] in *.
  2: { split; auto. split; auto. split; auto. split; auto. apply spare_less in S1. now apply spare_less in S1. }
  apply wp_bind_h. eapply wp_mono; [| |apply (wp_create U _ _ _ _ W1 S1)]; auto.
  intros [[b|e] h2] y _ (W2 & T2 & H2 & S2 & B2); cbn [fst snd] in *.
  2: { split; auto. split; [congruence|]. split; [congruence|]. split; auto. now apply spare_less in S2. }
  apply wp_bind_h. eapply wp_mono; [| |apply (wp_create U _ _ _ _ W2 S2)]; auto.
  intros [[c|e] h3] z _ (W3 & T3 & H3 & S3 & B3); cbn [fst snd] in *.
  - simpl. split; auto. split; auto. split; [congruence|]. split; [congruence|]. auto.
  - split; auto. split; [congruence|]. split; [congruence|]. auto.
Qed.

Lemma wp_find U e d : world U d -> wp F (fun x => x = d) (fun r _ => rblame r) (rs_lookup_entity (SE := SE) cs cu e) d.
Proof.
  intros Hw. destruct e as [n|i]; [|simpl; auto]. assert (RDb (r_names d) (r_trees d) = d) as Hd by (destruct d; reflexivity).
  assert (index_ok cs cu (r_names d)) as Hok by apply Hw.
  cbn [rs_lookup_entity]. apply wp_bind. unfold si_left_to_right. destruct (ser cs n) as [lb|b] eqn:Hl.
  2: { simpl. split; auto. split; auto. simpl. eauto. }
  cbn [on_names wp]. rewrite Hd, (de_left cs cu d n lb) by auto. split; auto. split.
  2: { intros x Hx. simpl. auto. }
  split; auto. destruct (left_now cs cu (r_names d) n) as [[i|]|x] eqn:Hn; simpl; auto.
  exfalso. pose proof (left_answers (SE := SE) cs cu Hcu (r_names d) n Hok) as Ha. rewrite Hl in Ha. destruct Ha as [o Ha]. congruence.
Qed.
Lemma wp_find3 U t d : world U d ->
  wp F (fun x => x = d) (fun r _ => rblame r) (try_map_prog (SE := SE) (BE := BE) (rs_lookup_entity (SE := SE) cs cu) t) d.
Proof.
  intros Hw. unfold try_map_prog.
  apply wp_bind_ok. eapply wp_mono; [| |eapply wp_find; eauto]; auto. intros [i|y] x -> H1; [|auto].
  apply wp_bind_ok. eapply wp_mono; [| |eapply wp_find; eauto]; auto. intros [j|y] x -> H2; [|auto].
  apply wp_bind_ok. eapply wp_mono; [| |eapply wp_find; eauto]; auto. intros [k|y] x -> H3; simpl; auto.
Qed.

Lemma post_graph (x : op) f U h d : (forall gh, gapply x gh = SledHistory.lift (f gh)) -> one_call x ->
  world U d -> fresh_keys U (keysn h (draws x)) ->
  post F (graph_call (S := S) f h) d (fun rh y => rblame (fst rh) /\ r_names y = r_names d /\ rh_ulids (snd rh) = rh_ulids h).
Proof.
  intros Hf Ho (W1 & W2 & W3) [K1 K2] fs Ha. unfold graph_call. rewrite ret_bind_ret, db_bind_ret, ret_on_graph, db_on_graph.
  cbn [fst snd r_names rh_ulids]. split; auto.
  rewrite <- (history_keys_one h x Ho) in K1, K2.
  pose proof (handle_history cn ce Hcn Hce mn me F U (rh_graph h) [x] (r_trees d) K1 K2 W2) as W.
  apply post_wp in W. specialize (W fs Ha). destruct W as (_ & W & _). revert W.
  cbn [sled_history]. rewrite ret_of_bind. cbn [bind]. unfold ret_of at 1. cbn [exec fst].
  rewrite Hf. unfold SledHistory.lift. rewrite ret_bind_ret. cbn [fst]. intros W. inversion_clear W as [|? ? B _].
  destruct (fst (ret_of (f (rh_graph h)) fs (r_trees d))) as [[]|y]; simpl in *; auto.
Qed.

(** What a caller needs to have. *)
Definition cond (n m : nat) h d : Prop :=
  exists U own, world U d /\ fresh_keys U own /\ owns n h own /\ spare m h d.

Lemma cond_less a n b m h d : cond (a + n) (b + m) h d -> cond n m h d.
Proof.
  intros (U & own & H1 & H2 & H3 & H4). exists U, own. split; auto. split; auto. split; [eapply owns_less; eauto|eapply spare_less; eauto].
Qed.

Lemma owns_fresh U n h own : fresh_keys U own -> owns n h own -> fresh_keys U (keysn h n).
Proof.
  intros [F1 F2] (pre & post & ->). apply NoDup_app_iff in F1. destruct F1 as (_ & F1 & _). apply NoDup_app_iff in F1.
  split; [apply F1|]. intros x Hx. apply F2. rewrite !in_app_iff. auto.
Qed.
Lemma owns_more n m h own : owns (n + m) h own -> owns n h own.
Proof. rewrite Nat.add_comm. apply owns_less. Qed.

Lemma post_single o h d n m : single_add o -> cond (r_draws o + n) (length (given o) + m) h d ->
  post F (single_prog o h) d (fun rh x => rblame (fst rh) /\ cond n m (snd rh) x).
Proof.
  intros Ho (U & own & Hw & Hf & Hown & Hs).
  assert (post F (single_prog o h) d (fun rh x => exists U' own', world U' x /\ fresh_keys U' own' /\ owns n (snd rh) own')) as P1.
  { intros fs _.
    destruct (safe_exec seqb seqb_eq cs cu cn ce mn me (given o) _ (fun _ => True) _ _ _ _ U d fs
      (safe_single seqb seqb_eq cs cu cn ce Hcs Hcu Hcn Hce mn me (given o) (fun _ => True) o h [] (nu d) own n Ho (incl_refl _) Logic.I Logic.I Hown)
      Hw Hf (below_refl _)) as (s1 & M' & own' & U' & Z1 & _ & _ & Z4 & Z5 & _).
    exists U', own'. split; auto. split; auto. apply Z1. }
  assert (forall A (p : PH A) (f : A -> handle KUlid -> prog db SE (result (sled_error SE BE) unit * handle KUlid)) (x : A -> op),
    (forall a gh, gapply (x a) gh = SledHistory.lift (f a gh)) -> (forall a, one_call (x a)) -> (forall a, draws (x a) = r_draws o) ->
    wp F (fun _ => True) (fun rh x => world U x /\ r_trees x = r_trees d /\ rh_graph (snd rh) = rh_graph h /\
      spare m (snd rh) x /\ rblame (fst rh)) p d ->
    post F (bind_h p (fun a => graph_call (f a))) d (fun rh x => rblame (fst rh) /\ spare m (snd rh) x)) as Hgen.
  { intros A p f x Hx1 Hx2 Hx3 Hp. unfold bind_h. apply post_bind. apply post_wp in Hp. eapply post_mono; [|exact Hp].
    intros [[a|e] h'] y (_ & W1 & T1 & H1 & S1 & B1); cbn [fst snd] in *; [|now apply post_ret].
    eapply post_mono; [|eapply (post_graph (x a) (f a) U h' y); eauto].
    - intros rh z (R1 & R2 & R3). split; auto. eapply spare_same; eauto.
    - rewrite Hx3, (keysn_graph h h') by auto. apply (owns_fresh U _ h own Hf). now apply owns_more with n. }
  assert (post F (single_prog o h) d (fun rh x => rblame (fst rh) /\ spare m (snd rh) x)) as P2.
  { destruct o as [e p|t p|e|t|e p|t p|q|q]; try contradiction; simpl RdfSledSafe.single_prog; cbn [given] in Hs.
    - eapply (Hgen I _ _ (fun i => OInsertNode i p)); simpl; auto. now apply wp_create.
    - eapply (Hgen (triple I) _ _ (fun i => OInsertEdge i p)); simpl; auto. now apply wp_create3.
    - eapply (Hgen I _ _ (fun i => OMergeNode i p)); simpl; auto. now apply wp_create.
    - eapply (Hgen (triple I) _ _ (fun i => OMergeEdge i p)); simpl; auto. now apply wp_create3. }
  intros fs Ha. destruct (P1 fs Ha) as (U' & own' & A1 & A2 & A3). destruct (P2 fs Ha) as [B1 B2].
  split; auto. exists U', own'. auto.
Qed.

Lemma post_for_each {A} (mk : A -> rop) (step : A -> rhandle -> PH unit) n m (l : list (result E A)) :
  (forall a, single_add (mk a)) -> (forall a h, step a h = single_prog (mk a) h) ->
  forall h d, cond (sum (map r_draws (map mk (before_error l))) + n) (length (flat_map given (map mk (before_error l))) + m) h d ->
  post F (rs_for_each step l h) d (fun rh x => cblame (fst rh) /\ cond n m (snd rh) x).
Proof.
  intros Hmk Hstep. induction l as [|[a|e] l IH]; intros h d Hc.
  - simpl in *. apply post_ret. simpl. auto.
  - cbn [rs_for_each]. apply post_bind. rewrite Hstep. simpl before_error in *. simpl in Hc.
    rewrite app_length, <- !Nat.add_assoc in Hc.
    eapply post_mono; [|apply (post_single (mk a) h d _ _ (Hmk a) Hc)].
    intros [[[]|y] h'] x [B1 C1]; cbn [fst snd] in *; [now apply IH|]. apply post_ret. split; auto. cbn [snd].
    eapply cond_less; eauto.
  - simpl in *. apply post_ret. simpl. auto.
Qed.

Lemma post_bulk (mkn : ent * NP -> rop) (mke : triple ent * EP -> rop)
    (fn : ent -> NP -> rhandle -> PH unit) (fe : triple ent -> EP -> rhandle -> PH unit) n m (q : rdf_source S NP EP E) h d :
  (forall a, single_add (mkn a)) -> (forall a, single_add (mke a)) ->
  (forall a h, fn (fst a) (snd a) h = single_prog (mkn a) h) -> (forall a h, fe (fst a) (snd a) h = single_prog (mke a) h) ->
  let l := map mkn (used_nodes q) ++ map mke (used_edges q) in
  cond (sum (map r_draws l) + n) (length (flat_map given l) + m) h d ->
  post F (rs_bulk fn fe q h) d (fun rh x => cblame (fst rh) /\ cond n m (snd rh) x).
Proof.
  intros Hn He Hfn Hfe. cbv zeta. unfold used_nodes, used_edges. intros Hc.
  rewrite map_app, sum_app, flat_map_app, app_length, <- !Nat.add_assoc in Hc.
  unfold rs_bulk. apply post_bind.
  assert (post F (rs_for_each (fun ip => fn (fst ip) (snd ip)) (rs_nodes q) h) d
    (fun rh x => fst rh = Ok tt -> first_error (rs_nodes q) = None)) as Hok.
  { intros fs _. clear - Hfn. revert h d fs. induction (rs_nodes q) as [|[a|e] l IH]; intros h d fs; simpl.
    - auto.
    - rewrite ret_of_bind. destruct (fst (ret_of (fn (fst a) (snd a) h) fs d)); [apply IH|discriminate].
    - discriminate. }
  eapply post_mono; [|apply (post_and _ _ _ _ _ Hok (post_for_each mkn _ _ _ (rs_nodes q) Hn Hfn h d Hc))].
  intros [[[]|e] h'] x [O1 [B1 C1]]; cbn [fst snd] in *.
  - rewrite (O1 eq_refl) in C1. now apply post_for_each with mke.
  - apply post_ret. split; auto. cbn [snd]. eapply cond_less; eauto.
Qed.

Lemma post_left (p : PH unit) d n m : post F p d (fun rh x => rblame (fst rh) /\ cond n m (snd rh) x) ->
  post F (left_out (E := E) p) d (fun rh x => cblame (fst rh) /\ cond n m (snd rh) x).
Proof.
  intros H. apply post_bind. eapply post_mono; [|exact H]. intros [[[]|e] h'] x [B C]; apply post_ret; simpl; auto.
Qed.

Lemma post_removal {A} o (x : A -> op) (f : A -> handle KUlid -> prog db SE (result (sled_error SE BE) unit * handle KUlid))
    (look : P (result rerr A)) h d n m :
  (forall a gh, gapply (x a) gh = SledHistory.lift (f a gh)) -> (forall a, one_call (x a)) -> (forall a, draws (x a) = 0) ->
  removal o -> apply o h = left_out (bind_h (bind look (fun r => Ret (r, h))) (fun a => graph_call (f a))) ->
  (forall U, world U d -> wp F (fun x => x = d) (fun r _ => rblame r) look d) ->
  cond n m h d ->
  post F (apply o h) d (fun rh x => cblame (fst rh) /\ cond n m (snd rh) x).
Proof.
  intros Hx1 Hx2 Hx3 Hrem Hap Hl (U & own & Hw & Hf & Hown & Hs).
  rewrite Hap. apply post_left. unfold bind_h. do 2 apply post_bind.
  specialize (Hl U Hw). apply post_wp in Hl. eapply post_mono; [|exact Hl].
  intros r y [-> B1]. apply post_ret. cbn [fst snd]. destruct r as [a|e].
  - apply (post_mono _ _ _ (fun rh y => (rblame (fst rh) /\ r_names y = r_names d /\ rh_ulids (snd rh) = rh_ulids h) /\
      (world U y /\ rh_graph (snd rh) = rh_graph h))).
    + intros rh y ((R1 & R2 & R3) & R4 & R5). split; auto. exists U, own. split; auto. split; auto.
      split; [now apply owns_graph with h|]. eapply spare_same; eauto.
    + apply post_and.
      * apply (post_graph (x a) (f a) U h d); auto. rewrite Hx3. split; [constructor|intros z []].
      * intros fs _. destruct (graph_call_runs cs cu cn ce Hcn Hce mn me (x a) (f a) (Hx1 a) (Hx2 a) (Hx3 a) U h fs d Hw) as (_ & R2 & R3 & _). auto.
  - apply post_ret. split; auto. exists U, own. auto.
Qed.

Lemma post_apply o h d n m : cond (r_draws o + n) (length (given o) + m) h d ->
  post F (apply o h) d (fun rh x => cblame (fst rh) /\ cond n m (snd rh) x).
Proof.
  intros Hc. destruct o as [e p|t p|e|t|e p|t p|q|q].
  - apply post_left. now apply (post_single (RInsertNode e p)).
  - apply post_left. now apply (post_single (RInsertEdge t p)).
  - apply (post_removal (RRemoveNode e) (fun i => ORemoveNode i) (fun id g => and_handle g (s_remove_node id)) (rs_lookup_entity cs cu e)); simpl; auto.
    intros U Hw. eapply wp_find; eauto.
  - apply (post_removal (RRemoveEdge t) (fun i => ORemoveEdge i) (fun id g => and_handle g (s_remove_edge id)) (try_map_prog (rs_lookup_entity cs cu) t)); simpl; auto.
    intros U Hw. eapply wp_find3; eauto.
  - apply post_left. now apply (post_single (RMergeNode e p)).
  - apply post_left. now apply (post_single (RMergeEdge t p)).
  - apply (post_bulk (fun ip => RInsertNode (fst ip) (snd ip)) (fun te => RInsertEdge (fst te) (snd te)) (rs_insert_node cs cu cn) (rs_insert_edge cs cu ce) n m q h d);
      [simpl; auto|simpl; auto|reflexivity|reflexivity|]. cbv zeta.
    change (map (fun ip => RInsertNode (fst ip) (snd ip)) (used_nodes q) ++ map (fun te => RInsertEdge (fst te) (snd te)) (used_edges q)) with (parts (RExtend (E := E) q)).
    now rewrite draws_parts, given_parts.
  - apply (post_bulk (fun ip => RMergeNode (fst ip) (snd ip)) (fun te => RMergeEdge (fst te) (snd te)) (rs_merge_node cs cu cn mn) (rs_merge_edge cs cu ce me) n m q h d);
      [simpl; auto|simpl; auto|reflexivity|reflexivity|]. cbv zeta.
    change (map (fun ip => RMergeNode (fst ip) (snd ip)) (used_nodes q) ++ map (fun te => RMergeEdge (fst te) (snd te)) (used_edges q)) with (parts (RMerge (E := E) q)).
    now rewrite draws_parts, given_parts.
Qed.

Lemma post_history n m (l : list rop) : forall h d,
  cond (sum (map r_draws l) + n) (length (flat_map given l) + m) h d ->
  post F (hist l h) d (fun rsh x => Forall cblame (fst rsh) /\ cond n m (snd rsh) x).
Proof.
  induction l as [|o l IH]; intros h d Hc; cbn [rs_history].
  - apply post_ret. split; [constructor|exact Hc].
  - simpl in Hc. rewrite app_length, <- !Nat.add_assoc in Hc. apply post_bind.
    eapply post_mono; [|apply (post_apply o h d _ _ Hc)]. intros [r h'] x [B1 C1]; cbn [fst snd] in *.
    apply post_bind. eapply post_mono; [|apply (IH h' x C1)]. intros [rs h2] y [B2 C2]. apply post_ret. cbn [fst snd] in *. auto.
Qed.

End Blame.
