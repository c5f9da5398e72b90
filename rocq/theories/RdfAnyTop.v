(** Histories of calls on an RdfTripleStore over any lawful name index and graph, and its readers. *)
From Coq Require Import Arith NArith List Bool Sorted Lia.
From Verif Require Import Bytes OMap Core IdType Store Mem MemIndex Spec History GenSpec Prog Sled SledHistory Rdf RdfSpec RdfTop RdfSled RdfSledSpec
  RdfSledSafe RdfSledConc RdfSledTop RdfAny RdfAnySpec RdfAnyFacts.
Import ListNotations.

Section Top.
Context {S NP EP X Y F IE GE E : Type} (seqb : S -> S -> bool) (seqb_eq : forall a b, seqb a b = true <-> a = b).
Context (ix : any_index S X F IE) (gr : any_graph NP EP Y F GE) (mn : NP -> NP -> NP) (me : EP -> EP -> EP).
Context (calm : F -> Prop) (goodx : X -> Prop) (l2r : X -> S -> option (Id KUlid)) (r2l : X -> Id KUlid -> option S).
Context (goody : nat -> Y -> Prop) (abs : Y -> graph KUlid NP EP).
Context (HI : names_ok ix calm goodx l2r r2l) (HG : graph_ok E gr mn me calm goody abs).
Notation I := (Id KUlid).
Notation ent := (entity S).
Notation R := (any_rdf X Y F).
Notation err := (rdf_error S IE GE).
Notation M A := (R -> result err A * R).
Notation rop := (rop S NP EP E).
Notation op := (op KUlid NP EP E).
Notation EG := (egraph S NP EP).
Notation answer := (result (lr_error err E) unit).
Notation nu w := (l2r (a_names w)).
Notation rho w := (r2l (a_names w)).
Notation G w := (abs (a_graph w)).
Notation view := (RdfTop.view (S := S) (NP := NP) (EP := EP)).
Notation run F := (e_run seqb mn me (by_name F)).
Notation apply := (a_apply (E := E) ix gr).
Notation history := (a_history (E := E) ix gr).
Notation room := (room (Y := Y) (F := F) r2l).
Notation keeps := (keeps (Y := Y) (F := F) goodx l2r).
Notation knows := (knows (Y := Y) (F := F) l2r).
Notation stays := (stays (F := F) goodx l2r r2l goody).
Notation effect F := (n_effect (IE := IE) (GE := GE) seqb mn me (by_name F)).
Implicit Types w : R.
Implicit Types o : rop.
Implicit Types K : list S.

(** ** Lookups *)
Lemma known_one K w s : knows K w -> first_unknown seqb K [s] = match nu w s with Some _ => None | None => Some s end.
Proof.
  intros Hk. unfold first_unknown. simpl. destruct (nu w s) eqn:Q.
  - assert (In s K) as Hn by (apply Hk; congruence).
    assert (existsb (seqb s) K = true) as -> by (apply existsb_exists; exists s; split; auto; now apply seqb_eq). reflexivity.
  - destruct (existsb (seqb s) K) eqn:Z; auto. apply existsb_exists in Z. destruct Z as (m & Hm & Z). apply seqb_eq in Z. subst m.
    apply Hk in Hm. congruence.
Qed.

(** The state apart from the environment, as far as names go. *)
Definition same_names w w' : Prop :=
  a_graph w' = a_graph w /\ a_ulids w' = a_ulids w /\ goodx (a_names w') /\ forall t, nu w' t = nu w t.
Lemma same_refl w : goodx (a_names w) -> same_names w w.
Proof. intros H. repeat split; auto. Qed.
Lemma same_trans w1 w2 w3 : same_names w1 w2 -> same_names w2 w3 -> same_names w1 w3.
Proof. intros (A & B & C & D) (A' & B' & C' & D'). split; [congruence|]. split; [congruence|]. split; auto. intros t. now rewrite D', D. Qed.
Lemma same_knows K w w' : same_names w w' -> knows K w -> knows K w'.
Proof. intros (_ & _ & _ & H) Hk s. rewrite H. apply Hk. Qed.

Definition placed {A} K (names : list S) (good : A -> Prop) (r : result err A) : Prop :=
  match r with
  | Ok a => good a /\ first_unknown seqb K names = None
  | Err (NameNotFound s) => first_unknown seqb K names = Some s
  | Err _ => True
  end.

Lemma lookup_ok K e w r w' : goodx (a_names w) -> knows K w -> a_lookup_entity (GE := GE) ix e w = (r, w') ->
  same_names w w' /\ placed K (name_of e) (den (nu w) e) r.
Proof.
  intros Gx Hk H. destruct e as [s|i]; simpl in H.
  2:{ injection H as <- <-. split; [now apply same_refl|]. split; reflexivity. }
  unfold and_then in H. destruct (of_names (ai_left ix s) w) as [a w1] eqn:Q.
  destruct (left_ok ix calm goodx l2r r2l HI s w a w1 Gx Q) as (A1 & A2 & A3 & A4 & A5).
  assert (same_names w w1) as Hs by (repeat split; auto). pose proof (known_one K w s Hk) as Hf.
  destruct a as [a|y].
  - subst a. destruct (nu w s) as [i|] eqn:Qn; injection H as <- <-; (split; [exact Hs|]); simpl; auto.
  - injection H as <- <-. split; auto. simpl. destruct y; auto. contradiction.
Qed.
Lemma den_same w w' e (i : I) : same_names w w' -> den (nu w') e i -> den (nu w) e i.
Proof. intros (_ & _ & _ & H). destruct e; simpl; auto. now rewrite H. Qed.

Lemma lookup3_ok K t w r w' : goodx (a_names w) -> knows K w -> a_try_map (a_lookup_entity (GE := GE) ix) t w = (r, w') ->
  same_names w w' /\ placed K (names_of t) (den3 (nu w) t) r.
Proof.
  unfold a_try_map, names_of. intros Gx Hk H.
  unfold and_then at 1 in H. destruct (a_lookup_entity ix (sub t) w) as [a w1] eqn:Q1.
  apply (lookup_ok K) in Q1; auto. destruct Q1 as [S1 P1].
  destruct a as [i|y].
  2:{ injection H as <- <-. split; auto. destruct y; simpl in *; auto. now rewrite first_unknown_app, P1. }
  destruct P1 as [D1 F1]. pose proof (same_knows K _ _ S1 Hk) as Hk1.
  unfold and_then at 1 in H. destruct (a_lookup_entity ix (pred t) w1) as [b w2] eqn:Q2.
  apply (lookup_ok K) in Q2; auto; [|apply S1]. destruct Q2 as [S2 P2]. pose proof (same_trans _ _ _ S1 S2) as S12.
  destruct b as [j|y].
  2:{ injection H as <- <-. split; auto. destruct y; simpl in *; auto. now rewrite first_unknown_app, F1, first_unknown_app, P2. }
  destruct P2 as [D2 F2]. pose proof (same_knows K _ _ S12 Hk) as Hk2.
  unfold and_then at 1 in H. destruct (a_lookup_entity ix (obj t) w2) as [c w3] eqn:Q3.
  apply (lookup_ok K) in Q3; auto; [|apply S2]. destruct Q3 as [S3 P3]. pose proof (same_trans _ _ _ S12 S3) as S123.
  destruct c as [k|y]; injection H as <- <-; (split; [exact S123|]).
  - destruct P3 as [D3 F3]. simpl. split.
    + split; [exact D1|]. split; [exact (den_same _ _ _ _ S1 D2)|exact (den_same _ _ _ _ S12 D3)].
    + now rewrite first_unknown_app, F1, first_unknown_app, F2.
  - destruct y; simpl in *; auto. now rewrite first_unknown_app, F1, first_unknown_app, F2.
Qed.

(** ** Calls *)
Definition outcome n m K o w (r : answer) w' : Prop :=
  stays (given o) n m w w' /\ exists K', knows K' w' /\
  forall nuF rhoF eg, one_to_one nuF rhoF -> below (nu w') nuF -> view rhoF (G w) eg ->
  exists eg', view rhoF (G w') eg' /\ effect rhoF o r K eg K' eg'.

Lemma same_room m w w' : goodx (a_names w) -> same_names w w' -> room m w -> room m w'.
Proof. intros Gx (A & B & C & D). eapply (room_keep ix calm goodx l2r r2l HI); eauto. intros s i. now rewrite D. Qed.
Lemma same_below w w' : same_names w w' -> below (nu w) (nu w').
Proof. intros (_ & _ & _ & H) s i Hs. now rewrite H. Qed.

Lemma refl_equiv (g : EG) : e_equiv g g.
Proof. split; auto. Qed.
Lemma named_none K l : named l K K.
Proof. split; [apply incl_refl|apply incl_appl, incl_refl]. Qed.

Lemma remove_gen {A} (look : M A) names (good : A -> Prop) (x : A -> op) o n m K w r w' :
  (forall a w2, look w = (a, w2) -> same_names w w2 /\ placed K names good a) ->
  (forall a, single_call (x a)) -> (forall a, uses_id (x a) = 0) -> (forall a, takes_edge (x a) -> removes_edge o) ->
  parts o = [o] -> given o = [] -> r_draws o = 0 ->
  n_answer (IE := IE) (GE := GE) seqb K o = match first_unknown seqb K names with Some s => Err (LeftE (NameNotFound s)) | None => Ok tt end ->
  (forall c g, first_unknown seqb K names <> None -> e_apply seqb mn me c K o g = g) ->
  (forall (nuF : S -> option I) rhoF a g eg, one_to_one nuF rhoF -> below (nu w) nuF -> good a -> first_unknown seqb K names = None -> view rhoF g eg ->
     view rhoF (spec_apply mn me (x a) g) (e_apply seqb mn me (by_name rhoF) K o eg)) ->
  goodx (a_names w) -> goody n (a_graph w) -> room m w -> knows K w ->
  and_then look (fun a => of_graph (ag_apply gr (x a))) w = (r, w') ->
  outcome n m K o w (match r with Ok u => Ok u | Err e => Err (LeftE e) end) w'.
Proof.
  intros Hlook Hx Hu Hre Hparts Hgiven Hdr Hans Hnone Hview Gx Gy Hr Hk H.
  assert (forall rhoF (eg : EG), run rhoF K (firstn 1 (parts o)) eg = e_apply seqb mn me (by_name rhoF) K o eg) as Hrun
    by (intros; rewrite Hparts; reflexivity).
  unfold and_then in H. destruct (look w) as [a w1]. destruct (Hlook a w1 eq_refl) as [Sn P].
  destruct a as [a|y].
  - destruct P as [Pg Pf].
    apply (graph_ok_call gr mn me calm goody abs HG) with (n := n) in H; [|apply Hx|rewrite Hu; simpl; now rewrite (proj1 Sn)].
    destruct H as (B1 & B2 & B3 & B4). rewrite (proj1 Sn) in B4.
    split.
    { split; [|split; [exact B3|]].
      - apply same_keeps; rewrite B1; apply Sn.
      - unfold RdfAnyFacts.room. rewrite B1, B2. apply (same_room m w w1); auto. }
    exists K. split; [intros s; rewrite B1; exact (same_knows K _ _ Sn Hk s)|].
    rewrite B1. intros nuF rhoF eg O B V.
    pose proof (Hview nuF rhoF a (G w) eg O (below_trans _ _ _ (same_below _ _ Sn) B) Pg Pf V) as V'.
    assert (forall g, g_equiv (G w') g -> g_equiv g (G w')) as Sy by (intros g [Ha Hb]; split; intros; symmetry; auto).
    unfold n_effect. destruct r as [[]|y].
    + exists (e_apply seqb mn me (by_name rhoF) K o eg). split; [eapply view_equiv; [apply Sy; exact B4|exact V']|].
      cbn [n_failed]. rewrite Hans, Pf, Hgiven, app_nil_r. split; auto. split; [tauto|apply refl_equiv].
    + destruct B4 as [B4 B5].
      assert (n_failed (Err (LeftE y) : answer) = true) as -> by (destruct y; simpl in *; auto; contradiction).
      destruct B5 as [B5|[B6 B5]].
      * exists eg. split; [eapply view_equiv; [apply Sy; exact B5|exact V]|]. split; [apply named_none|].
        exists 0. split; [left; rewrite Hparts; simpl; lia|apply refl_equiv].
      * exists (e_apply seqb mn me (by_name rhoF) K o eg). split; [eapply view_equiv; [apply Sy; exact B5|exact V']|].
        split; [apply named_none|]. exists 1. rewrite Hrun. split; [right; eapply Hre; exact B6|apply refl_equiv].
  - injection H as <- <-. split.
    { split; [apply same_keeps; apply Sn|]. rewrite (proj1 Sn). split; auto. now apply (same_room m w w1). }
    exists K. split; [exact (same_knows K _ _ Sn Hk)|]. rewrite (proj1 Sn). intros nuF rhoF eg O B V. exists eg. split; auto.
    unfold n_effect. destruct y as [y|y|y]; cbn [n_failed].
    + split; [apply named_none|]. exists 0. split; [left; rewrite Hparts; simpl; lia|apply refl_equiv].
    + split; [apply named_none|]. exists 0. split; [left; rewrite Hparts; simpl; lia|apply refl_equiv].
    + simpl in P. rewrite Hans, P, Hgiven, app_nil_r. split; auto. split; [tauto|]. rewrite Hnone; [apply refl_equiv|congruence].
Qed.

Definition more_names K w (l : list S) : list S := K ++ filter (fun s => match nu w s with Some _ => true | None => false end) l.
Lemma more_knows K w w' l : knows K w -> keeps l w w' -> knows (more_names K w' l) w'.
Proof.
  intros Hk (_ & Hb & Hn) n. unfold more_names. rewrite in_app_iff, filter_In. split.
  - intros H. destruct (Hn n H) as [H1|H1]; [left; now apply Hk|]. right. split; auto. destruct (nu w' n); congruence.
  - intros [H|[_ H]]; [|destruct (nu w' n); congruence]. apply Hk in H. destruct (nu w n) as [i|] eqn:Q; [|congruence].
    apply Hb in Q. congruence.
Qed.
Lemma more_named K w l : named l K (more_names K w l).
Proof.
  unfold named, more_names. split; [apply incl_appl, incl_refl|]. apply incl_app; [apply incl_appl, incl_refl|].
  apply incl_appr. intros x Hx. apply filter_In in Hx. apply Hx.
Qed.
Lemma more_all K w l : named_in l (nu w) -> forall s, In s (more_names K w l) <-> In s (K ++ l).
Proof.
  intros Hn s. unfold more_names. rewrite !in_app_iff, filter_In. split; [tauto|]. intros [H|H]; auto. right. split; auto.
  specialize (Hn s H). destruct (nu w s); congruence.
Qed.

(** A call that added. *)
Lemma adding_ok n m K o w (r : answer) w' j : stays (given o) n m w w' -> knows K w -> leads seqb mn me l2r abs (firstn j (parts o)) w w' ->
  match r with
  | Err (LeftE y) => j < length (parts o) /\ storage y
  | _ => j = length (parts o) /\ r = n_answer seqb K o /\ named_in (given o) (nu w')
  end -> outcome n m K o w r w'.
Proof.
  intros Hst Hk L H. split; auto. exists (more_names K w' (given o)). split; [eapply more_knows; [exact Hk|apply Hst]|].
  intros nuF rhoF eg O B V. exists (run rhoF K (firstn j (parts o)) eg). split; [now apply (L nuF)|].
  assert (j = length (parts o) /\ r = n_answer seqb K o /\ named_in (given o) (nu w') -> n_failed r = false ->
    effect rhoF o r K eg (more_names K w' (given o)) (run rhoF K (firstn j (parts o)) eg)) as Hok.
  { intros (-> & Hr & Hn) Hf. unfold n_effect. rewrite Hf. split; auto. split; [now apply more_all|].
    rewrite firstn_all, run_parts. apply refl_equiv. }
  destruct r as [u|[y|e]]; [apply Hok; auto| |apply Hok; auto]. destruct H as [H1 H2]. unfold n_effect.
  assert (n_failed (Err (LeftE y) : answer) = true) as -> by (destruct y; simpl in *; auto; contradiction).
  split; [apply more_named|]. exists j. split; [auto|apply refl_equiv].
Qed.

Lemma apply_ok n m K o w r w' : goodx (a_names w) -> goody (r_draws o + n) (a_graph w) -> room (length (given o) + m) w -> knows K w ->
  apply o w = (r, w') -> outcome n m K o w r w'.
Proof.
  intros Gx Gy Hr Hk H.
  assert (forall p, single_add o -> p w = add_prog (E := E) ix gr o w -> parts o = [o] -> n_answer (IE := IE) (GE := GE) seqb K o = Ok tt ->
    (r, w') = a_left (E := E) (p w) -> outcome n m K o w r w') as Hadd.
  { intros p Ho Hp Hparts Hans Hl. rewrite Hp in Hl. destruct (add_prog ix gr o w) as [a w1] eqn:Q. unfold a_left in Hl. simpl in Hl.
    injection Hl as -> ->.
    apply (add_ok seqb seqb_eq ix gr mn me calm goodx l2r r2l goody abs HI HG) with (n := n) (m := m) in Q; auto; [|split; auto].
    destruct Q as [Q1 Q2]. destruct a as [[]|y].
    - destruct Q2 as (Q2 & x & Q3 & Q4). apply (adding_ok n m K o w _ _ 1); auto; rewrite Hparts; simpl; auto. eapply leads_one; eauto.
    - destruct Q2 as [Q2 Q3]. apply (adding_ok n m K o w _ _ 0); auto; [apply leads_nil; auto|]. rewrite Hparts. simpl. split; auto. }
  destruct o as [e p|t p|e|t|e p|t p|q|q]; simpl in H.
  - apply (Hadd (a_insert_node ix gr e p)); simpl; auto.
  - apply (Hadd (a_insert_edge ix gr t p)); simpl; auto.
  - destruct (a_remove_node ix gr e w) as [a w1] eqn:Q. unfold a_left in H. simpl in H. injection H as <- <-.
    unfold a_remove_node in Q. eapply (remove_gen (a_lookup_entity ix e) (name_of e) (den (nu w) e) (fun i => ORemoveNode i)); eauto; simpl; auto.
    + intros a' w2' Q1. now apply lookup_ok.
    + intros c g Hu. destruct (first_unknown seqb K (name_of e)); congruence.
    + intros nuF rhoF a' g eg O B Hd Hu V. simpl. rewrite Hu. rewrite (den_shown nuF rhoF (nu w) e a' O B Hd).
      eapply view_del_node; eauto.
  - destruct (a_remove_edge ix gr t w) as [a w1] eqn:Q. unfold a_left in H. simpl in H. injection H as <- <-.
    unfold a_remove_edge in Q. eapply (remove_gen (a_try_map (a_lookup_entity ix) t) (names_of t) (den3 (nu w) t) (fun i => ORemoveEdge i)); eauto; simpl; auto.
    + intros a' w2' Q1. now apply lookup3_ok.
    + intros c g Hu. destruct (first_unknown seqb K (names_of t)); congruence.
    + intros nuF rhoF a' g eg O B Hd Hu V. simpl. rewrite Hu. rewrite (den3_shown nuF rhoF (nu w) t a' O B Hd).
      eapply view_del_edge; eauto.
  - apply (Hadd (a_merge_node ix gr e p)); simpl; auto.
  - apply (Hadd (a_merge_edge ix gr t p)); simpl; auto.
  - rewrite <- draws_parts in Gy. rewrite <- given_parts in Hr.
    apply (bulk_ok seqb seqb_eq ix gr mn me calm goodx l2r r2l goody abs HI HG (fun ip => RInsertNode (fst ip) (snd ip)) (fun te => RInsertEdge (fst te) (snd te)))
      with (n := n) (m := m) in H; try solve [simpl; auto].
    change (map (fun ip => RInsertNode (fst ip) (snd ip)) (used_nodes q) ++ map (fun te => RInsertEdge (fst te) (snd te)) (used_edges q))
      with (parts (RExtend (S := S) (NP := NP) (EP := EP) (E := E) q)) in H. rewrite given_parts in H.
    destruct H as (j & H1 & H2 & H3). apply (adding_ok n m K _ w _ _ j); auto.
    destruct r as [[]|[y|e]]; auto; destruct H3 as (-> & H3 & H4); split; auto; split; auto; simpl; now rewrite H3.
  - rewrite <- draws_parts in Gy. rewrite <- given_parts in Hr.
    apply (bulk_ok seqb seqb_eq ix gr mn me calm goodx l2r r2l goody abs HI HG (fun ip => RMergeNode (fst ip) (snd ip)) (fun te => RMergeEdge (fst te) (snd te)))
      with (n := n) (m := m) in H; try solve [simpl; auto].
    change (map (fun ip => RMergeNode (fst ip) (snd ip)) (used_nodes q) ++ map (fun te => RMergeEdge (fst te) (snd te)) (used_edges q))
      with (parts (RMerge (S := S) (NP := NP) (EP := EP) (E := E) q)) in H. rewrite given_parts in H.
    destruct H as (j & H1 & H2 & H3). apply (adding_ok n m K _ w _ _ j); auto.
    destruct r as [[]|[y|e]]; auto; destruct H3 as (-> & H3 & H4); split; auto; split; auto; simpl; now rewrite H3.
Qed.

(** ** Histories *)
Lemma history_ok (l : list rop) : forall n m K w rs w',
  goodx (a_names w) -> goody (sum (map r_draws l) + n) (a_graph w) -> room (length (flat_map given l) + m) w -> knows K w ->
  history l w = (rs, w') ->
  stays (flat_map given l) n m w w' /\ exists K', knows K' w' /\
  forall nuF rhoF eg, one_to_one nuF rhoF -> below (nu w') nuF -> view rhoF (G w) eg ->
  exists eg', view rhoF (G w') eg' /\ n_tracks seqb mn me (by_name rhoF) l rs K eg K' eg'.
Proof.
  induction l as [|o l IH]; intros n m K w rs w' Gx Gy Hr Hk H; cbn [a_history map sum flat_map] in *.
  - injection H as <- <-. split; [split; [now apply keeps_refl|split; auto]|]. exists K. split; auto.
    intros nuF rhoF eg O B V. exists eg. split; auto. simpl. split; [tauto|apply refl_equiv].
  - destruct (apply o w) as [r w1] eqn:Q1. destruct (history l w1) as [rs1 w2] eqn:Q2. injection H as <- <-.
    change (sum (r_draws o :: map r_draws l)) with (r_draws o + sum (map r_draws l)) in Gy.
    rewrite app_length, <- Nat.add_assoc in Hr. rewrite <- Nat.add_assoc in Gy.
    apply (apply_ok (sum (map r_draws l) + n) (length (flat_map given l) + m) K) in Q1; auto.
    destruct Q1 as ((A1 & A2 & A3) & K1 & A4 & A5).
    apply (IH n m K1) in Q2; auto; [|apply A1]. destruct Q2 as ((B1 & B2 & B3) & K2 & B4 & B5).
    split; [split; [eapply keeps_trans; eauto|split; auto]|]. exists K2. split; auto.
    intros nuF rhoF eg O B V. destruct (A5 nuF rhoF eg O) as (eg1 & V1 & T1); auto.
    { eapply below_trans; [apply B1|exact B]. }
    destruct (B5 nuF rhoF eg1 O B V1) as (eg2 & V2 & T2). exists eg2. split; auto. simpl. eauto.
Qed.

(** ** Readers *)
Lemma show_id_calm f i w : goodx (a_names w) -> calm f -> a_env w = f -> a_lookup_id (GE := GE) ix i w = (Ok (shown (rho w) i), w).
Proof.
  intros Gx Hf He. unfold a_lookup_id, and_then, of_names. rewrite He, (no_calm _ _ _ _ _ HI i _ f Gx Hf). unfold ok, shown.
  destruct w; simpl in *; subst. reflexivity.
Qed.
Lemma show3_calm f t w : goodx (a_names w) -> calm f -> a_env w = f ->
  a_try_map (a_lookup_id (GE := GE) ix) t w = (Ok (triple_map (shown (rho w)) t), w).
Proof.
  intros Gx Hf He. unfold a_try_map, and_then. rewrite !(show_id_calm f) by auto. reflexivity.
Qed.

Lemma items_calm {A B} (show : A -> M B) (h : A -> B) f w items (l : list (result GE A)) :
  a_env w = f -> calm f -> (forall a, show a w = (Ok (h a), w)) -> yields calm (a_graph w) items l ->
  forall x, l = map Ok x -> a_items show items w = (map Ok (map h x), w).
Proof.
  intros He Hf Hs Hy. induction Hy as [|it r items l [H1 H2] Hy IH]; intros x Hx.
  - destruct x; [|discriminate]. reflexivity.
  - destruct x as [|a x]; [discriminate|]. injection Hx as -> Hx. simpl. unfold and_then at 1, of_graph. rewrite He, (H1 f Hf).
    assert (AnyRdf (a_names w) (a_graph w) (a_ulids w) f = w) as -> by (destruct w; simpl in *; subst; reflexivity).
    rewrite Hs, (IH x Hx). reflexivity.
Qed.

Lemma shows_ok n w (eg : EG) : goodx (a_names w) -> goody n (a_graph w) -> view (rho w) (G w) eg -> a_shows ix gr calm r2l w eg.
Proof.
  intros Gx Gy [V1 V2] f Hf. cbv zeta. set (w0 := AnyRdf (a_names w) (a_graph w) (a_ulids w) f). split.
  - destruct (go_vertices _ _ _ _ _ _ _ HG n (a_graph w) Gy) as (l & Hl & Hs).
    eapply lists_rename with (h := shown (rho w)); [|exact Hs| |exact V1].
    + intros x Hx. unfold a_iter_vertices.
      rewrite (items_calm (a_show_pair ix) (fun ip => (shown (rho w) (fst ip), snd ip)) f w0 _ l eq_refl Hf) with (x := x); auto.
      intros a. unfold a_show_pair, and_then. rewrite (show_id_calm f) by auto. reflexivity.
    + intros a b _ _ L. exists a, b. auto.
  - intros o. destruct (go_edges _ _ _ _ _ _ _ HG o n (a_graph w) Gy) as (l & Hl & Hs).
    eapply lists_rename with (h := triple_map (shown (rho w))); [|exact Hs| |exact V2].
    + intros x Hx. unfold a_iter_edges.
      rewrite (items_calm (a_show_edge ix) (fun te => (triple_map (shown (rho w)) (fst te), snd te)) f w0 _ l eq_refl Hf) with (x := x); auto.
      intros a. unfold a_show_edge, and_then. rewrite (show3_calm f) by auto. reflexivity.
    + intros a b _ _ L. exists a, b. auto.
Qed.
End Top.
