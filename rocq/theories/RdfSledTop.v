(** An RdfTripleStore over sled, used by one process after the other and by several at a time. *)
From Coq Require Import Arith NArith List Bool Sorted Lia.
From Verif Require Import Bytes BytesFacts OMap OMapFacts Core IdType IdTypeFacts Store Mem Spec GenSpec
  CodecFacts ListFacts MemSim History Prog ProgFacts Sled SledHistory SledSched SledDb SledOps SledBulk
  SledRun SledRead SledTop SledMain SledCrash SledConc SledIndex SledIndexFacts Rdf RdfSpec RdfTop RdfSled RdfSledSpec
  RdfSledSafe RdfSledConc.
Import ListNotations.

(** ** Programs of a part of the database *)
Section Lifting.
Context {SE : Type}.

Lemma Forall2_nth {X Y} (R : X -> Y -> Prop) l l' : Forall2 R l l' ->
  forall i x y, nth_error l i = Some x -> nth_error l' i = Some y -> R x y.
Proof. induction 1; intros [|i]; simpl; intros; try discriminate; [congruence|eauto]. Qed.

Lemma exec_on_graph {A} (p : prog db SE A) : forall fs d,
  exec (on_graph p) fs d = let '(a, x, fs') := exec p fs (r_trees d) in (a, RDb (r_names d) x, fs').
Proof.
  induction p as [a|k IH|u k IHk e IHe]; intros fs d; simpl.
  - now destruct d.
  - apply IH.
  - destruct fs as [|[x|] fs]; rewrite ?IHk, ?IHe; reflexivity.
Qed.
Lemma ret_on_graph {A} (p : prog db SE A) fs d : ret_of (on_graph p) fs d = ret_of p fs (r_trees d).
Proof. unfold ret_of. rewrite exec_on_graph. now destruct (exec p fs (r_trees d)) as [[a x] fs']. Qed.
Lemma db_on_graph {A} (p : prog db SE A) fs d : db_of (on_graph p) fs d = RDb (r_names d) (db_of p fs (r_trees d)).
Proof. unfold db_of. rewrite exec_on_graph. now destruct (exec p fs (r_trees d)) as [[a x] fs']. Qed.
Lemma crash_on_graph {A} (p : prog db SE A) : forall n fs d, crash n (on_graph p) fs d = RDb (r_names d) (crash n p fs (r_trees d)).
Proof.
  induction p as [a|k IH|u k IHk e IHe]; intros n fs d; simpl.
  - now destruct d.
  - apply IH.
  - destruct n; [now destruct d|]. destruct fs as [|[x|] fs]; rewrite ?IHk, ?IHe; reflexivity.
Qed.

Lemma crash_bind_ret {D A B} (p : prog D SE A) (f : A -> B) : forall n fs d,
  crash n (bind p (fun a => Ret (f a))) fs d = crash n p fs d.
Proof.
  induction p as [a|k IH|u k IHk e IHe]; intros n fs d; simpl; auto.
  destruct n; auto. destruct fs as [|[x|] fs]; auto.
Qed.
Lemma ret_bind_ret {D A B} (p : prog D SE A) (f : A -> B) fs d :
  ret_of (bind p (fun a => Ret (f a))) fs d = f (ret_of p fs d).
Proof. rewrite ret_of_bind. reflexivity. Qed.
Lemma db_bind_ret {D A B} (p : prog D SE A) (f : A -> B) fs d :
  db_of (bind p (fun a => Ret (f a))) fs d = db_of p fs d.
Proof. rewrite db_of_bind. reflexivity. Qed.
End Lifting.

Section Top.
Context {S NP EP SE BE E : Type} (seqb : S -> S -> bool) (seqb_eq : forall a b, seqb a b = true <-> a = b).
Context (cs : codec BE S) (cu : codec BE (Id KUlid)) (cn : codec BE NP) (ce : codec BE EP).
Context (Hcs : codec_ok cs) (Hcu : codec_ok cu) (Hcn : codec_ok cn) (Hce : codec_ok ce).
Context (mn : NP -> NP -> NP) (me : EP -> EP -> EP).
Notation I := (Id KUlid).
Notation ent := (entity S).
Notation P A := (prog rdb SE A).
Notation rop := (rop S NP EP E).
Notation op := (op KUlid NP EP E).
Notation G := (graph KUlid NP EP).
Notation EG := (egraph S NP EP).
Notation answer := (routcome (S := S) (SE := SE) (BE := BE) (E := E)).
Notation apply := (rs_apply (SE := SE) (E := E) cs cu cn ce mn me).
Notation hist := (rs_history (SE := SE) (E := E) cs cu cn ce mn me).
Notation gapply := (sled_apply (SE := SE) (E := E) cn ce mn me).
Notation nu := (name_now (SE := SE) cs cu).
Notation rho := (id_now (SE := SE) cs cu).
Notation sabs d := (sabs (k := KUlid) cn ce (r_trees d)).
Notation ids := (S -> option I).
Notation view := (RdfTop.view (S := S) (NP := NP) (EP := EP)).
Notation world := (world cs cu cn ce).
Notation run F := (e_run seqb mn me (by_name F)).
Notation ierr := (rdf_error S (sled_index_error S I SE BE) (sled_error SE BE)).
Notation reach := (reach (SE := SE) seqb cs cu cn ce mn me).
Notation effect F := (r_effect (SE := SE) (BE := BE) seqb mn me (by_name F)).
Notation tracks F := (r_tracks (SE := SE) (BE := BE) seqb mn me (by_name F)).
Notation rmoment F := (r_moment (SE := SE) (BE := BE) seqb mn me (by_name F)).
Implicit Types d : rdb.
Implicit Types own : list bytes.
Implicit Types h : rhandle.
Implicit Types o : rop.

Definition knows (K : list S) d : Prop := forall n, nu d n <> None <-> In n K.

Lemma knows_names K d d' : r_names d' = r_names d -> knows K d -> knows K d'.
Proof. intros H Hk n. rewrite (nu_names cs cu d d' H). apply Hk. Qed.

Lemma unknown_names K d names : knows K d -> forall n, first_unknown seqb K names = Some n -> nu d n = None.
Proof.
  intros Hk n H. apply find_some in H. destruct H as [_ H]. apply negb_true_iff in H.
  destruct (nu d n) eqn:Q; auto. exfalso. assert (In n K) as Hn by (apply Hk; congruence).
  assert (existsb (seqb n) K = true) as X by (apply existsb_exists; exists n; split; auto; now apply seqb_eq). congruence.
Qed.
Lemma known_first K d n : knows K d -> first_unknown seqb K [n] = match nu d n with Some _ => None | None => Some n end.
Proof.
  intros Hk. unfold first_unknown. simpl. destruct (nu d n) eqn:Q.
  - assert (In n K) as Hn by (apply Hk; congruence).
    assert (existsb (seqb n) K = true) as -> by (apply existsb_exists; exists n; split; auto; now apply seqb_eq). reflexivity.
  - destruct (existsb (seqb n) K) eqn:X; auto. apply existsb_exists in X. destruct X as (m & Hm & X). apply seqb_eq in X. subst m.
    apply Hk in Hm. congruence.
Qed.
Lemma first_unknown_app K (a b : list S) :
  first_unknown seqb K (a ++ b) = match first_unknown seqb K a with Some n => Some n | None => first_unknown seqb K b end.
Proof. unfold first_unknown. induction a as [|x a IH]; simpl; auto. now destruct (negb (existsb (seqb x) K)). Qed.

(** ** Looking up entities *)
Definition located (K : list S) (names : list S) {A} (good : A -> Prop) (r : result ierr A) : Prop :=
  match r with
  | Ok a => good a /\ first_unknown seqb K names = None
  | Err (NameNotFound n) => first_unknown seqb K names = Some n
  | Err _ => True
  end.

Lemma wp_lookup U K d e : world U d -> knows K d ->
  wp (fun _ => True) (fun x => x = d) (fun r x => located K (name_of e) (den (nu d) e) r) (rs_lookup_entity (SE := SE) cs cu e) d.
Proof.
  intros Hw Hk. destruct e as [n|i]; [|simpl; auto].
  set (Q := fun (r : result ierr I) (_ : rdb) => located K (name_of (EString n)) (den (nu d) (EString n)) r).
  assert (forall y, Q (Err (NameIndexStorageError y)) d) as Qe by (intros; exact Logic.I).
  assert (RDb (r_names d) (r_trees d) = d) as Hd by (destruct d; reflexivity).
  cbn [rs_lookup_entity]. apply wp_bind.
  unfold si_left_to_right. destruct (ser cs n) as [lb|b] eqn:Hl; cbn [on_names wp]; [|auto].
  rewrite (de_left cs cu d n lb) by (apply Hw || auto). rewrite Hd. split; auto. split; [|intros y _; auto].
  split; auto. split; auto. pose proof (known_first K d n Hk) as Hf. unfold Q, located. cbn [name_of den].
  destruct (left_now cs cu (r_names d) n) as [[i|]|x] eqn:Hn; auto.
  - apply nu_some in Hn. rewrite Hn in Hf. auto.
  - rewrite Hf. destruct (nu d n) eqn:Q'; auto. apply nu_some in Q'. congruence.
Qed.

Lemma wp_lookup3 U K d t : world U d -> knows K d ->
  wp (fun _ => True) (fun x => x = d) (fun r x => located K (names_of t) (den3 (nu d) t) r)
    (try_map_prog (SE := SE) (BE := BE) (rs_lookup_entity (SE := SE) cs cu) t) d.
Proof.
  intros Hw Hk. unfold try_map_prog, names_of.
  apply wp_bind_ok. eapply wp_mono; [| |eapply wp_lookup; eauto]; auto.
  intros [i|[y|y|y]] x -> H1; simpl in *; auto; [|split; auto; now rewrite first_unknown_app, H1]. destruct H1 as [D1 F1].
  apply wp_bind_ok. eapply wp_mono; [| |eapply wp_lookup; eauto]; auto.
  intros [j|[y|y|y]] x -> H2; simpl in *; auto; [|split; auto; now rewrite first_unknown_app, F1, first_unknown_app, H2]. destruct H2 as [D2 F2].
  apply wp_bind_ok. eapply wp_mono; [| |eapply wp_lookup; eauto]; auto.
  intros [k|[y|y|y]] x -> H3; simpl in *; auto; [|split; auto; now rewrite first_unknown_app, F1, first_unknown_app, F2]. destruct H3 as [D3 F3].
  split; auto. split; [split; auto|]. now rewrite first_unknown_app, F1, first_unknown_app, F2.
Qed.

(** ** Calls on the graph *)
Section GraphCall.
Context (x : op) (f : handle KUlid -> prog db SE (result (sled_error SE BE) unit * handle KUlid)).
Context (Hf : forall gh, gapply x gh = SledHistory.lift (f gh)) (Ho : one_call x) (Hdr : draws x = 0).

Lemma graph_call_runs U h fs d : world U d ->
  let rh := ret_of (graph_call (S := S) f h) fs d in
  let d' := db_of (graph_call (S := S) f h) fs d in
  r_names d' = r_names d /\ world U d' /\ rh_graph (snd rh) = rh_graph h /\
  exists r : SledHistory.outcome (SE := SE) (BE := BE) (E := E), moved mn me x r (sabs d) (sabs d') /\
    match fst rh with Ok _ => succeeded r = true | Err y => succeeded r = false /\ storage y end.
Proof.
  intros (W1 & W2 & W3). cbv zeta. unfold graph_call. rewrite ret_bind_ret, db_bind_ret, ret_on_graph, db_on_graph. cbn [r_names r_trees snd fst rh_graph].
  pose proof (history_keys_one h x Ho) as Hk. rewrite Hdr in Hk.
  destruct (call_moves cn ce mn me Hcn Hce U x (rh_graph h) fs (r_trees d) Ho W2 W3) as (H1 & H2 & H3);
    [rewrite Hk; constructor|rewrite Hk; intros z []|]. rewrite Hk in H1.
  pose proof (apply_handle cn ce mn me x (rh_graph h) fs (r_trees d) Ho) as H4.
  rewrite Hdr, advance_0 in H4. rewrite Hf in *. unfold SledHistory.lift in *. rewrite ret_bind_ret, db_bind_ret in *. cbn [fst snd] in *.
  split; auto. split.
  - split; auto. split; auto. eapply fair_mono; [|exact H1]. intros z [Hz|[]]. exact Hz.
  - split; auto. exists (left_error (fst (ret_of (f (rh_graph h)) fs (r_trees d)))). split; auto.
    destruct (fst (ret_of (f (rh_graph h)) fs (r_trees d))); simpl; auto.
Qed.

Lemma graph_call_crash U h fs n d : world U d ->
  let d' := crash n (graph_call (S := S) f h) fs d in
  r_names d' = r_names d /\ world U d' /\
  (g_equiv (sabs d') (sabs d) \/ g_equiv (sabs d') (spec_apply mn me x (sabs d))).
Proof.
  intros Hw. cbv zeta. destruct (graph_call_runs U h fs d Hw) as (R1 & R2 & _ & r & R3 & _).
  unfold graph_call in *. rewrite crash_bind_ret, crash_on_graph. rewrite db_bind_ret, db_on_graph in *. cbn [r_names r_trees] in *.
  assert (crash n (f (rh_graph h)) fs (r_trees d) = r_trees d \/
          crash n (f (rh_graph h)) fs (r_trees d) = db_of (f (rh_graph h)) fs (r_trees d)) as [->| ->].
  { pose proof (one_call_atomic cn ce mn me x (rh_graph h) Ho n fs (r_trees d)) as Ha. rewrite Hf in Ha.
    unfold SledHistory.lift in Ha. rewrite crash_bind_ret, db_bind_ret in Ha. exact Ha. }
  - split; auto. split; [now destruct d|]. left. apply g_equiv_refl.
  - split; auto. split; auto. unfold moved in R3. destruct (succeeded r); [right; apply R3|]. destruct R3 as [R3|[_ R3]]; auto.
Qed.
End GraphCall.

(** ** Removals, alone *)
Definition removal o : Prop := match o with RRemoveNode _ | RRemoveEdge _ => True | _ => False end.

Lemma removal_gen U K d {A} (o : rop) (x : A -> op) (f : A -> handle KUlid -> prog db SE (result (sled_error SE BE) unit * handle KUlid))
    (good : A -> Prop) (names : list S) (look : P (result ierr A)) h :
  (forall a gh, gapply (x a) gh = SledHistory.lift (f a gh)) -> (forall a, one_call (x a)) -> (forall a, draws (x a) = 0) ->
  world U d -> knows K d ->
  wp (fun _ => True) (fun x => x = d) (fun r x => located K names good r) look d ->
  parts o = [o] -> given o = [] ->
  (forall a, match x a with ORemoveEdge _ => removes_edge o | _ => True end) ->
  r_answer (SE := SE) (BE := BE) seqb K o = match first_unknown seqb K names with Some s => Err (LeftE (NameNotFound s)) | None => Ok tt end ->
  (forall c g, first_unknown seqb K names <> None -> e_apply seqb mn me c K o g = g) ->
  (forall (nuF : ids) rhoF a g eg, one_to_one nuF rhoF -> below (nu d) nuF -> good a -> first_unknown seqb K names = None -> view rhoF g eg ->
     view rhoF (spec_apply mn me (x a) g) (e_apply seqb mn me (by_name rhoF) K o eg)) ->
  let p := left_out (E := E) (bind_h (bind look (fun r => Ret (r, h))) (fun a => graph_call (f a))) in
  (forall fs, let rh := ret_of p fs d in let d' := db_of p fs d in
    r_names d' = r_names d /\ world U d' /\ rh_graph (snd rh) = rh_graph h /\
    forall (nuF : ids) rhoF eg, one_to_one nuF rhoF -> below (nu d) nuF -> view rhoF (sabs d) eg ->
    exists eg', view rhoF (sabs d') eg' /\ effect rhoF o (fst rh) K eg K eg') /\
  (forall fs n, let d' := crash n p fs d in
    r_names d' = r_names d /\ world U d' /\
    exists j, forall (nuF : ids) rhoF eg, one_to_one nuF rhoF -> below (nu d) nuF -> view rhoF (sabs d) eg ->
    view rhoF (sabs d') (run rhoF K (firstn j (parts o)) eg)).
Proof.
  intros Hf Hoc Hdr Hw Hk Hlook Hparts Hgiven Hre Hans Hnone Hview. cbv zeta.
  assert (forall fs, located K names good (ret_of look fs d) /\ db_of look fs d = d) as Hl.
  { intros fs. destruct (wp_exec _ _ _ look fs d (allowed_all fs) Hlook) as (H1 & H2 & _). auto. }
  assert (forall fs n, crash n look fs d = d) as Hlc.
  { intros fs n. apply (wp_crash _ _ _ look n fs d (allowed_all fs) Hlook). }
  assert (forall k1 (rhoF : I -> option S) (eg : EG), run rhoF K (firstn k1 (parts o)) eg = match k1 with 0 => eg | Datatypes.S _ => e_apply seqb mn me (by_name rhoF) K o eg end) as Hrun.
  { intros k1 rhoF eg. rewrite Hparts. destruct k1 as [|k1]; simpl; auto. now rewrite firstn_nil. }
  assert (forall (eg : EG), e_equiv eg eg) as Hrefl by (intros; split; auto).
  unfold left_out, bind_h. split.
  - intros fs. rewrite ret_bind_ret, db_bind_ret. rewrite ret_of_bind, db_of_bind, ret_bind_ret, db_bind_ret. cbn [fst snd].
    set (fs' := snd (exec (bind look (fun r => Ret (r, h))) fs d)). clearbody fs'.
    destruct (Hl fs) as [H1 ->]. revert H1. generalize (ret_of look fs d). intros [a|y] H1.
    + destruct H1 as [Hg Hu].
      destruct (graph_call_runs (x a) (f a) (Hf a) (Hoc a) (Hdr a) U h fs' d Hw) as (R1 & R2 & R3 & r & R4 & R5).
      split; auto. split; auto. split; auto. intros nuF rhoF eg O B V.
      pose proof (Hview nuF rhoF a (sabs d) eg O B Hg Hu V) as V'.
      unfold r_effect. cbn [fst]. destruct (fst (ret_of (graph_call (f a) h) fs' d)) as [[]|y].
      * cbn [r_failed]. unfold moved in R4. rewrite R5 in R4. destruct R4 as [_ R4]. exists (e_apply seqb mn me (by_name rhoF) K o eg).
        split; [eapply view_equiv; [apply g_equiv_sym; exact R4|exact V']|]. rewrite Hans, Hu, Hgiven, app_nil_r. split; auto. split; [tauto|auto].
      * destruct R5 as [R5 R6]. unfold moved in R4. rewrite R5 in R4.
        assert (r_failed (Err (LeftE y) : answer) = true) as -> by (destruct y; simpl in *; auto; contradiction).
        destruct R4 as [R4|[R7 R4]].
        -- exists eg. split; [eapply view_equiv; [apply g_equiv_sym; exact R4|exact V]|]. split; [split; [apply incl_refl|apply incl_appl, incl_refl]|].
           exists 0. rewrite Hrun, Hparts. split; [simpl; lia|auto].
        -- exists (e_apply seqb mn me (by_name rhoF) K o eg). split; [eapply view_equiv; [apply g_equiv_sym; exact R4|exact V']|].
           split; [split; [apply incl_refl|apply incl_appl, incl_refl]|]. exists 1. rewrite Hrun. split; auto. right.
           specialize (Hre a). destruct (x a); try contradiction. exact Hre.
    + cbn. split; auto. split; auto. split; auto. intros nuF rhoF eg O B V. exists eg. split; auto.
      unfold r_effect. destruct y as [y|y|y]; cbn [r_failed].
      * split; [split; [apply incl_refl|apply incl_appl, incl_refl]|]. exists 0. rewrite Hrun, Hparts. split; [simpl; lia|auto].
      * split; [split; [apply incl_refl|apply incl_appl, incl_refl]|]. exists 0. rewrite Hrun, Hparts. split; [simpl; lia|auto].
      * simpl in H1. rewrite Hans, H1, Hgiven, app_nil_r. split; auto. split; [tauto|]. rewrite Hnone; auto. congruence.
  - intros fs n. rewrite crash_bind_ret.
    assert (exists j, forall (nuF : ids) rhoF eg, one_to_one nuF rhoF -> below (nu d) nuF -> view rhoF (sabs d) eg ->
      view rhoF (sabs d) (run rhoF K (firstn j (parts o)) eg)) as Hsame by (exists 0; intros; rewrite Hrun; auto).
    match goal with |- context [crash n (bind ?p ?q) fs d] => destruct (crash_bind p q n fs d) as [[m ->]|[m ->]] end.
    + rewrite crash_bind_ret, Hlc. auto.
    + rewrite ret_bind_ret, db_bind_ret. cbn [fst snd].
      match goal with |- context [crash m _ ?q _] => generalize q end. intros fs'.
      destruct (Hl fs) as [H1 ->]. revert H1. generalize (ret_of look fs d). intros [a|y] H1; [|simpl; auto].
      destruct H1 as [Hg Hu].
      destruct (graph_call_crash (x a) (f a) (Hf a) (Hoc a) (Hdr a) U h fs' m d Hw) as (R1 & R2 & R3).
      split; auto. split; auto. destruct R3 as [R3|R3].
      * exists 0. intros nuF rhoF eg O B V. rewrite Hrun. eapply view_equiv; [apply g_equiv_sym; exact R3|exact V].
      * exists 1. intros nuF rhoF eg O B V. rewrite Hrun. eapply view_equiv; [apply g_equiv_sym; exact R3|]. eapply Hview; eauto.
Qed.

Lemma removal_runs U K d o h : removal o -> world U d -> knows K d ->
  (forall fs, let rh := ret_of (apply o h) fs d in let d' := db_of (apply o h) fs d in
    r_names d' = r_names d /\ world U d' /\ rh_graph (snd rh) = rh_graph h /\
    forall (nuF : ids) rhoF eg, one_to_one nuF rhoF -> below (nu d) nuF -> view rhoF (sabs d) eg ->
    exists eg', view rhoF (sabs d') eg' /\ effect rhoF o (fst rh) K eg K eg') /\
  (forall fs n, let d' := crash n (apply o h) fs d in
    r_names d' = r_names d /\ world U d' /\
    exists j, forall (nuF : ids) rhoF eg, one_to_one nuF rhoF -> below (nu d) nuF -> view rhoF (sabs d) eg ->
    view rhoF (sabs d') (run rhoF K (firstn j (parts o)) eg)).
Proof.
  intros Ho Hw Hk. destruct o as [e p|t p|e|t|e p|t p|q|q]; try contradiction.
  - apply (removal_gen U K d (RRemoveNode e) (fun i => ORemoveNode i) (fun i g => and_handle g (s_remove_node i)) (den (nu d) e) (name_of e) _ h);
      simpl; auto.
    + eapply wp_lookup; eauto.
    + intros c g Hn. now destruct (first_unknown seqb K (name_of e)).
    + intros nuF rhoF a g eg O B D -> V. rewrite (den_shown nuF rhoF (nu d) e a O B D). now apply (view_del_node seqb seqb_eq _ _ O).
  - apply (removal_gen U K d (RRemoveEdge t) (fun i => ORemoveEdge i) (fun i g => and_handle g (s_remove_edge i)) (den3 (nu d) t) (names_of t) _ h);
      simpl; auto.
    + eapply wp_lookup3; eauto.
    + intros c g Hn. now destruct (first_unknown seqb K (names_of t)).
    + intros nuF rhoF a g eg O B D -> V. rewrite (den3_shown nuF rhoF (nu d) t a O B D). now apply (view_del_edge seqb seqb_eq _ _ O).
Qed.

(** ** Any call, alone *)
Lemma e_equiv_refl (g : EG) : e_equiv g g.
Proof. split; auto. Qed.
Lemma fold_map {X Y Z} (f : Z -> Y -> Z) (g : X -> Y) l : forall z, fold_left f (map g l) z = fold_left (fun z x => f z (g x)) l z.
Proof. induction l; simpl; auto. Qed.
Lemma run_parts c K o (g : EG) : e_run seqb mn me c K (parts o) g = e_apply seqb mn me c K o g.
Proof.
  destruct o; try reflexivity; unfold e_run; simpl; rewrite fold_left_app, !fold_map; reflexivity.
Qed.

Definition more_names (K : list S) d' (l : list S) : list S :=
  K ++ filter (fun n => match nu d' n with Some _ => true | None => false end) l.
Lemma more_knows K d d' l : knows K d -> below (nu d) (nu d') -> only_new (SE := SE) cs cu l d d' -> knows (more_names K d' l) d'.
Proof.
  intros Hk Hb Hn n. unfold more_names. rewrite in_app_iff, filter_In. split.
  - intros H. destruct (Hn n H) as [H1|H1]; [left; now apply Hk|]. right. split; auto. destruct (nu d' n); congruence.
  - intros [H|[_ H]]; [|destruct (nu d' n); congruence]. apply Hk in H. destruct (nu d n) as [i|] eqn:Q; [|congruence].
    apply Hb in Q. congruence.
Qed.
Lemma more_named K d' l : named l K (more_names K d' l).
Proof.
  unfold named, more_names. split; [apply incl_appl, incl_refl|]. apply incl_app; [apply incl_appl, incl_refl|].
  apply incl_appr. intros x Hx. apply filter_In in Hx. apply Hx.
Qed.
Lemma more_all K d' l M : below M (nu d') -> named_in l M -> forall n, In n (more_names K d' l) <-> In n (K ++ l).
Proof.
  intros Hb Hn n. unfold more_names. rewrite !in_app_iff, filter_In. split; [tauto|]. intros [H|H]; auto. right. split; auto.
  specialize (Hn n H). destruct (M n) as [i|] eqn:Q; [|congruence]. apply Hb in Q. now rewrite Q.
Qed.

Definition fate U own n d d' h' K' : Prop :=
  exists U' own', world U' d' /\ fresh_keys U' own' /\ owns n h' own' /\ incl own' own /\
    (forall x, U' x -> U x \/ In x own) /\ below (nu d) (nu d') /\ knows K' d'.

Lemma seq_apply o h n own U d K : world U d -> fresh_keys U own -> owns (r_draws o + n) h own -> knows K d ->
  (forall fs, let rh := ret_of (apply o h) fs d in let d' := db_of (apply o h) fs d in
    exists K', fate U own n d d' (snd rh) K' /\
    forall (nuF : ids) rhoF eg, one_to_one nuF rhoF -> below (nu d') nuF -> view rhoF (sabs d) eg ->
    exists eg', view rhoF (sabs d') eg' /\ effect rhoF o (fst rh) K eg K' eg') /\
  (forall fs j, let d' := crash j (apply o h) fs d in
    world (plus_keys U own) d' /\ below (nu d) (nu d') /\ exists K', knows K' d' /\ named (given o) K K' /\
    exists m, forall (nuF : ids) rhoF eg, one_to_one nuF rhoF -> below (nu d') nuF -> view rhoF (sabs d) eg ->
    view rhoF (sabs d') (run rhoF K (firstn m (parts o)) eg)).
Proof.
  intros Hw Hf Hown Hk. cbv zeta.
  assert (removal o \/ adding o) as [Ho|Ho] by (destruct o; simpl; auto).
  - destruct (removal_runs U K d o h Ho Hw Hk) as [H1 H2]. cbv zeta in H1, H2. split.
    + intros fs. destruct (H1 fs) as (R1 & R2 & R3 & R4). exists K. split.
      * exists U, own. split; auto. split; auto. split; [eapply owns_graph; [exact R3|]; eapply owns_less; eauto|].
        split; [apply incl_refl|]. split; auto. split; [rewrite (nu_names cs cu _ _ R1); apply below_refl|]. now apply knows_names with d.
      * intros nuF rhoF eg O B V. eapply R4; eauto. now rewrite (nu_names cs cu _ _ R1) in B.
    + intros fs j. destruct (H2 fs j) as (R1 & R2 & m & R4).
      split; [eapply world_mono; [|exact R2]; intros x Hx; left; auto|].
      split; [rewrite (nu_names cs cu _ _ R1); apply below_refl|]. exists K. split; [now apply knows_names with d|].
      split; [split; [apply incl_refl|apply incl_appl, incl_refl]|]. exists m. intros nuF rhoF eg O B V. eapply R4; eauto.
      now rewrite (nu_names cs cu _ _ R1) in B.
  - assert (forall R : list rop -> Prop, (forall j, R (firstn j (parts o))) ->
      safe (S := S) (SE := SE) (E := E) cs cu cn ce mn me (given o) (done seqb K o n []) R (apply o h) [] (nu d) own) as Hs.
    { intros R HR. apply (safe_apply seqb seqb_eq cs cu cn ce Hcs Hcu Hcn Hce); auto. apply incl_refl. }
    split.
    + intros fs. specialize (Hs (fun _ => True) (fun _ => Logic.I)).
      destruct (safe_exec seqb seqb_eq cs cu cn ce mn me _ _ _ _ _ _ _ U d fs Hs Hw Hf (below_refl _))
        as (s1 & M' & own' & U' & Z1 & Z2 & Z3 & Z4 & Z5 & Z6 & Z7). cbn [app] in Z1.
      destruct Z1 as [Z1 Z8]. destruct Z2 as (Y1 & Y2 & Y3).
      set (d' := db_of (apply o h) fs d) in *. set (rh := ret_of (apply o h) fs d) in *.
      exists (more_names K d' (given o)). split.
      * exists U', own'. repeat (split; [solve [auto]|]). eapply more_knows; eauto.
      * intros nuF rhoF eg O B V. exists (run rhoF K s1 eg). split; [eapply Y3; eauto|].
        unfold r_effect. destruct (r_failed (fst rh)).
        -- destruct Z8 as (j & Hj & ->). split; [apply more_named|]. exists j. split; [auto|]. apply e_equiv_refl.
        -- destruct Z8 as (Z8 & Z9 & Z10). simpl in Z9. subst s1. split; [exact Z8|]. split; [eapply more_all; eauto|]. rewrite run_parts. apply e_equiv_refl.
    + intros fs j. specialize (Hs (fun s => exists j, s = firstn j (parts o)) (fun j => ex_intro _ j eq_refl)).
      destruct (safe_crash seqb seqb_eq cs cu cn ce mn me _ _ _ _ j _ _ _ U d fs Hs Hw Hf (below_refl _))
        as (s1 & [m Z1] & (Y1 & Y2 & Y3) & Z3). cbn [app] in Z1. subst s1.
      split; auto. split; auto. exists (more_names K (crash j (apply o h) fs d) (given o)).
      split; [eapply more_knows; eauto|]. split; [apply more_named|]. exists m. intros nuF rhoF eg O B V. eapply Y3; eauto.
Qed.

(** ** Histories, alone *)
Lemma seq_history n l : forall h own U d K,
  world U d -> fresh_keys U own -> owns (sum (map r_draws l) + n) h own -> knows K d ->
  (forall fs, let rsh := ret_of (hist l h) fs d in let d' := db_of (hist l h) fs d in
    exists K', fate U own n d d' (snd rsh) K' /\
    forall (nuF : ids) rhoF eg, one_to_one nuF rhoF -> below (nu d') nuF -> view rhoF (sabs d) eg ->
    exists eg', view rhoF (sabs d') eg' /\ tracks rhoF l (fst rsh) K eg K' eg') /\
  (forall fs j, let d' := crash j (hist l h) fs d in
    world (plus_keys U own) d' /\ below (nu d) (nu d') /\ exists K', knows K' d' /\
    forall (nuF : ids) rhoF eg, one_to_one nuF rhoF -> below (nu d') nuF -> view rhoF (sabs d) eg ->
    exists eg', view rhoF (sabs d') eg' /\ rmoment rhoF l K eg K' eg').
Proof.
  induction l as [|o l IH]; intros h own U d K Hw Hf Hown Hk; cbv zeta.
  - assert (fate U own n d d h K) as Hfate.
    { exists U, own. split; auto. split; auto. split; auto. split; [apply incl_refl|]. split; auto. split; [apply below_refl|auto]. }
    split.
    + intros fs. exists K. split; auto. intros nuF rhoF eg O B V. exists eg. split; auto. simpl. split; [tauto|apply e_equiv_refl].
    + intros fs j. simpl. split; [eapply world_mono; [|exact Hw]; intros x Hx; left; auto|]. split; [apply below_refl|].
      exists K. split; auto. intros nuF rhoF eg O B V. exists eg. split; auto. exists [], [], [], K, eg.
      split; auto. split; [simpl; split; [tauto|apply e_equiv_refl]|]. split; [tauto|apply e_equiv_refl].
  - cbn [sum map fold_right] in Hown. change (fold_right Nat.add 0) with sum in Hown. rewrite <- Nat.add_assoc in Hown.
    destruct (seq_apply o h _ own U d K Hw Hf Hown Hk) as [A1 A2]. cbv zeta in A1, A2. cbn [rs_history].
    assert (forall fs, let rh := ret_of (apply o h) fs d in let d1 := db_of (apply o h) fs d in
      exists K1 U1 own1, world U1 d1 /\ fresh_keys U1 own1 /\ owns (sum (map r_draws l) + n) (snd rh) own1 /\
      incl own1 own /\ (forall x, U1 x -> U x \/ In x own) /\ below (nu d) (nu d1) /\ knows K1 d1 /\
      forall (nuF : ids) rhoF eg, one_to_one nuF rhoF -> below (nu d1) nuF -> view rhoF (sabs d) eg ->
      exists eg', view rhoF (sabs d1) eg' /\ effect rhoF o (fst rh) K eg K1 eg') as Hfirst.
    { intros fs. cbv zeta. destruct (A1 fs) as (K1 & (U1 & own1 & H1 & H2 & H3 & H4 & H5 & H6 & H7) & H8).
      exists K1, U1, own1. auto 10. }
    split.
    + intros fs. rewrite ret_of_bind, db_of_bind. rewrite ret_bind_ret, db_bind_ret. cbn [fst snd].
      destruct (Hfirst fs) as (K1 & U1 & own1 & H1 & H2 & H3 & H4 & H5 & H6 & H7 & H8).
      set (rh := ret_of (apply o h) fs d) in *. set (d1 := db_of (apply o h) fs d) in *. set (fs1 := snd (exec (apply o h) fs d)).
      destruct (proj1 (IH (snd rh) own1 U1 d1 K1 H1 H2 H3 H7) fs1) as (K2 & (U2 & own2 & J1 & J2 & J3 & J4 & J5 & J6 & J7) & J8).
      exists K2. split.
      * exists U2, own2. repeat (split; [solve [auto]|]). split; [intros x Hx; auto|].
        split; [intros x Hx; destruct (J5 x Hx) as [Hy|Hy]; auto|]. split; auto. eapply below_trans; eauto.
      * intros nuF rhoF eg O B V. destruct (H8 nuF rhoF eg O (below_trans _ _ _ J6 B) V) as (eg1 & V1 & T1).
        destruct (J8 nuF rhoF eg1 O B V1) as (eg2 & V2 & T2). exists eg2. split; auto. simpl. exists K1, eg1. auto.
    + intros fs j. destruct (crash_bind (apply o h) (fun rh => bind (hist l (snd rh)) (fun rsh => Ret (fst rh :: fst rsh, snd rsh))) j fs d) as [[m ->]|[m ->]].
      * destruct (A2 fs m) as (B1 & B2 & K' & B3 & B4 & m' & B5). split; auto. split; auto. exists K'. split; auto.
        intros nuF rhoF eg O B V. eexists. split; [eapply B5; eauto|]. exists [], (o :: l), [], K, eg.
        split; auto. split; [simpl; split; [tauto|apply e_equiv_refl]|]. split; auto. exists m'. apply e_equiv_refl.
      * rewrite crash_bind_ret.
        destruct (Hfirst fs) as (K1 & U1 & own1 & H1 & H2 & H3 & H4 & H5 & H6 & H7 & H8).
        set (rh := ret_of (apply o h) fs d) in *. set (d1 := db_of (apply o h) fs d) in *. set (fs1 := snd (exec (apply o h) fs d)).
        destruct (proj2 (IH (snd rh) own1 U1 d1 K1 H1 H2 H3 H7) fs1 m) as (B1 & B2 & K2 & B3 & B4).
        split. { eapply world_mono; [|exact B1]. intros x [Hx|Hx]; [destruct (H5 x Hx); [left|right]; auto|right; auto]. }
        split; [eapply below_trans; eauto|]. exists K2. split; auto. intros nuF rhoF eg O B V.
        destruct (H8 nuF rhoF eg O (below_trans _ _ _ B2 B) V) as (eg1 & V1 & T1).
        destruct (B4 nuF rhoF eg1 O B V1) as (eg2 & V2 & l1 & l2 & rs & k1 & g1 & -> & T2 & T3). exists eg2. split; auto.
        exists (o :: l1), l2, (fst rh :: rs), k1, g1. split; auto. split; auto. simpl. exists K1, eg1. auto.
Qed.

(** ** Several callers *)
Lemma crowd_runs U d K callers schedule :
  let ls := map snd callers in let own := flat_map (fun hl => rs_keys (fst hl) (snd hl)) callers in
  let pd := interleave schedule (map (fun hl => hist (snd hl) (fst hl)) callers) d in
  world U d -> fresh_keys U own -> knows K d -> Forall (Forall adding) ls ->
  world (plus_keys U own) (snd pd) /\ below (nu d) (nu (snd pd)) /\
  exists K', knows K' (snd pd) /\ named (flat_map given (concat ls)) K K' /\
  exists ss s, Forall2 (r_log_so_far (SE := SE) (BE := BE) seqb) ls ss /\ shuffle ss s /\
    (forall i l rs h', nth_error ls i = Some l -> nth_error (fst pd) i = Some (Ret (rs, h')) ->
       exists si, nth_error ss i = Some si /\ r_log seqb l rs si) /\
    forall (nuF : ids) rhoF eg, one_to_one nuF rhoF -> below (nu (snd pd)) nuF -> view rhoF (sabs d) eg ->
      view rhoF (sabs (snd pd)) (run rhoF [] s eg).
Proof.
  intros ls own pd Hw Hf Hk Ha.
  set (N := flat_map given (concat ls)).
  set (xs := map (fun hl => Ghost (snd hl) [] (fun _ : S => None) (rs_keys (fst hl) (snd hl))) callers).
  assert (flat_map gh_own xs = own) as Hown.
  { unfold xs, own. rewrite !flat_map_concat_map, map_map. reflexivity. }
  assert (crowd_inv (SE := SE) seqb cs cu cn ce mn me N (plus_keys U own) d (map (fun hl => hist (snd hl) (fst hl)) callers) d xs []) as Hinv.
  { split; [|split; [apply reach_refl|split]].
    - unfold xs. assert (Forall (fun hl => Forall adding (snd hl) /\ incl (flat_map given (snd hl)) N) callers) as Hall.
      { apply Forall_forall. intros hl Hhl. assert (In (snd hl) ls) as Hl by (apply in_map; auto). split.
        - rewrite Forall_forall in Ha. auto.
        - intros x Hx. unfold N. apply in_flat_map in Hx. destruct Hx as (o & Ho & Hx). apply in_flat_map. exists o. split; auto.
          apply in_concat. eauto. }
      clearbody N. clear -Hall seqb_eq Hcs Hcu Hcn Hce. induction Hall as [|[h l] cl [H1 H2] Hall IH]; simpl; constructor; auto.
      split; [|intros n i Hni; discriminate]. simpl in *.
      eapply safe_mono; [apply incl_refl| | |apply (safe_history seqb seqb_eq cs cu cn ce Hcs Hcu Hcn Hce mn me N 0 l h [] _ (rs_keys h l) H1 H2)].
      + auto.
      + auto.
      + rewrite Nat.add_0_r. exists [], []. now rewrite app_nil_r.
    - unfold xs. rewrite map_map. simpl. constructor. apply Forall_forall. intros x Hx. apply in_map_iff in Hx. destruct Hx as (? & <- & _). auto.
    - exists U. rewrite Hown. split; auto. split; auto. intros x Hx. left. auto. }
  destruct (crowd_step seqb seqb_eq cs cu cn ce mn me N (plus_keys U own) d schedule _ _ _ _ Hinv) as (xs' & s & (F1 & (R1 & R2 & R3) & Hsh & U' & W1 & W2 & W3) & Hcalls).
  { intros x Hx. rewrite Hown in Hx. right. auto. }
  fold pd in F1, R1, R2, R3, W1. assert (map gh_calls xs' = ls) as Hls.
  { rewrite Hcalls. unfold xs, ls. rewrite map_map. reflexivity. }
  split; [eapply world_mono; eauto|]. split; auto. exists (more_names K (snd pd) N).
  split; [eapply more_knows; eauto|]. split; [apply more_named|]. exists (map gh_log xs'), s.
  split; [|split; [auto|split]].
  - rewrite <- Hls. clear -F1. induction F1 as [|p x ps xs [H1 _] _ IH]; simpl; constructor; auto.
    apply safe_R in H1. destruct H1 as (s1 & -> & H1). exact H1.
  - intros i l rs h' Hi Hp. rewrite <- Hls in Hi. destruct (nth_error xs' i) as [x|] eqn:Hx;
      [|apply nth_error_None in Hx; rewrite <- (map_length gh_calls) in Hx; apply nth_error_None in Hx; congruence].
    pose proof (map_nth_error gh_calls i xs' Hx) as Hx1. rewrite Hi in Hx1. injection Hx1 as ->.
    exists (gh_log x). split; [now apply map_nth_error|].
    destruct (Forall2_nth _ _ _ F1 i _ _ Hp Hx) as [Hs _]. destruct Hs as (_ & _ & s1 & Hs1 & Hs).
    cbn [app fst] in Hs1, Hs. rewrite Hs1. exact Hs.
  - intros nuF rhoF eg O B V. eapply R3; eauto.
Qed.

(** ** One epoch after the other *)
Notation repochs := (r_epochs (SE := SE) (BE := BE)).
Notation repoch := (repoch (S := S) (NP := NP) (EP := EP) (SE := SE) (E := E)).
Notation epoch := (rs_epoch (SE := SE) (E := E) cs cu cn ce mn me).
Notation epochs := (rs_epochs (SE := SE) (E := E) cs cu cn ce mn me).

Lemma epoch_runs (e : repoch) U d K : world U d -> fresh_keys U (epoch_keys e) -> knows K d -> calm e ->
  world (plus_keys U (epoch_keys e)) (epoch e d) /\ below (nu d) (nu (epoch e d)) /\
  exists K', knows K' (epoch e d) /\
  forall (nuF : ids) rhoF eg, one_to_one nuF rhoF -> below (nu (epoch e d)) nuF -> view rhoF (sabs d) eg ->
  exists eg', view rhoF (sabs (epoch e d)) eg' /\ r_epoch (SE := SE) (BE := BE) seqb mn me (by_name rhoF) e K eg K' eg'.
Proof.
  intros Hw Hf Hk Hc. destruct e as [f|c]; simpl in *.
  - destruct (seq_history 0 (rl_ops f) (rl_handle f) (rs_keys (rl_handle f) (rl_ops f)) U d K Hw Hf) as [_ H]; auto.
    { rewrite Nat.add_0_r. exists [], []. now rewrite app_nil_r. }
    destruct (H (rl_faults f) (rl_steps f)) as (H1 & H2 & K' & H3 & H4). split; auto. split; auto. exists K'. split; auto.
  - destruct (crowd_runs U d K (rc_callers c) (rc_schedule c)) as (H1 & H2 & K' & H3 & H4 & ss & s & H5 & H6 & _ & H7); auto.
    { apply Forall_map. exact Hc. }
    unfold rs_crowd. split; auto. split; auto. exists K'. split; auto. intros nuF rhoF eg O B V.
    exists (run rhoF [] s eg). split; [eapply H7; eauto|]. split; auto. exists ss, s. split; auto. split; auto. apply e_equiv_refl.
Qed.

Lemma epochs_run (es : list repoch) : forall U d K, world U d -> fresh_keys U (flat_map epoch_keys es) -> knows K d -> Forall calm es ->
  world (plus_keys U (flat_map epoch_keys es)) (epochs es d) /\ below (nu d) (nu (epochs es d)) /\
  exists K', knows K' (epochs es d) /\
  forall (nuF : ids) rhoF eg, one_to_one nuF rhoF -> below (nu (epochs es d)) nuF -> view rhoF (sabs d) eg ->
  exists eg', view rhoF (sabs (epochs es d)) eg' /\ repochs seqb mn me (by_name rhoF) es K eg K' eg'.
Proof.
  induction es as [|e es IH]; intros U d K Hw Hf Hk Hc.
  - simpl. split; [eapply world_mono; [|exact Hw]; intros x Hx; left; auto|]. split; [apply below_refl|]. exists K. split; auto.
    intros nuF rhoF eg O B V. exists eg. split; auto. simpl. split; [tauto|apply e_equiv_refl].
  - inversion_clear Hc as [|? ? Hc1 Hc2]. simpl in Hf.
    assert (fresh_keys U (epoch_keys e)) as Hf1.
    { destruct Hf as [F1 F2]. apply NoDup_app_iff in F1. split; [apply F1|]. intros x Hx. apply F2, in_app_iff. auto. }
    destruct (epoch_runs e U d K Hw Hf1 Hk Hc1) as (A1 & A2 & K1 & A3 & A4).
    destruct (IH _ _ K1 A1 (fresh_tail U _ _ Hf) A3 Hc2) as (B1 & B2 & K2 & B3 & B4).
    change (epochs (e :: es) d) with (epochs es (epoch e d)).
    split. { eapply world_mono; [|exact B1]. intros x [[Hx|Hx]|Hx]; [left; auto|right; simpl; apply in_app_iff; auto|right; simpl; apply in_app_iff; auto]. }
    split; [eapply below_trans; eauto|]. exists K2. split; auto. intros nuF rhoF eg O B V.
    destruct (A4 nuF rhoF eg O (below_trans _ _ _ B2 B) V) as (eg1 & V1 & T1).
    destruct (B4 nuF rhoF eg1 O B V1) as (eg2 & V2 & T2). exists eg2. split; auto. simpl. exists K1, eg1. auto.
Qed.

End Top.
