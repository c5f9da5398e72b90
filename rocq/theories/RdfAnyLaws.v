(** The indexes and graphs of the crate do what is required of them. *)
From Coq Require Import Arith NArith List Bool Sorted Lia.
From Verif Require Import Bytes OMap Core IdType IdTypeFacts IdGenFacts Store Mem MemIndex MemFacts MemSim MemSetFacts MemTop Spec History GenSpec Prog ProgFacts
  Sled SledIndex SledIndexFacts SledHistory SledTop SledDb SledOps SledRead SledCrash SledSched SledConc
  Rdf RdfSpec RdfFacts RdfSled RdfSledSpec RdfSledSafe RdfSledRead RdfAny RdfAnySpec.
Import ListNotations.

(** ** MemHashIndex *)
Lemma mem_names_ok {S F} (seqb : S -> S -> bool) (calm : F -> Prop) : (forall a b, seqb a b = true <-> a = b) ->
  names_ok (mem_names F seqb) calm (mem_names_good seqb) (left_to_right seqb) (right_to_left id_eqb).
Proof.
  intros Hs. split; simpl.
  - auto.
  - intros s x f r x' f' H [= <- <- <-]. split; auto. split; auto. intros a [= <-]. reflexivity.
  - intros i x f r x' f' H [= <- <- <-]. split; auto. intros a [= <-]. reflexivity.
  - intros s i x f r x' f' H Hi Q. destruct (index_set seqb id_eqb s i x) as [a y] eqn:Q1. injection Q as <- <- <-.
    pose proof (IdGenFacts.set_spec seqb id_eqb s i x) as Sp. rewrite Q1 in Sp. cbn [fst snd] in Sp.
    destruct a as [[]|[l r1 r2|r1 l1 l2]].
    + destruct Sp as (S1 & S2 & S3 & S4).
      assert (forall a b, seqb a b = false -> a <> b) as Hne by (intros a b Q ->; assert (seqb b b = true) by (now apply Hs); congruence).
      split; [|split].
      * intros t j. rewrite S3, S4. destruct (seqb t s) eqn:E1, (id_eqb j i) eqn:E2.
        -- apply Hs in E1. apply id_eqb_eq in E2. subst. tauto.
        -- apply Hs in E1. subst t. split; [intros [= ->]; assert (id_eqb j j = true) by (now apply id_eqb_eq); congruence|].
           intros Hj. apply H in Hj. congruence.
        -- apply id_eqb_eq in E2. subst j. split; [intros Ht; apply H in Ht; congruence|]. intros [= ->]. now apply Hne in E1.
        -- apply H.
      * intros t Ht. rewrite S3. destruct (seqb t s) eqn:E1; auto. apply Hs in E1. contradiction.
      * split; auto. rewrite S3. assert (seqb s s = true) as -> by now apply Hs. reflexivity.
    + destruct Sp as (_ & _ & _ & ->). split; auto.
    + destruct Sp as (_ & _ & _ & Hr & _). congruence.
  - auto.
  - intros s i x f _ _ H. now rewrite H.
Qed.

(** ** MemTripleStore *)
Section MemGraph.
Context {NP EP F : Type} (E : Type) (mn : NP -> NP -> NP) (me : EP -> EP -> EP) (calm : F -> Prop).
Notation M := (mem KUlid NP EP).
Implicit Types m : M.

(** The store came out of calls, and the identifiers drawn by it and the next [n] are distinct. *)
Definition mem_graph_good (n : nat) m : Prop :=
  reachable E mn me m /\ drawn_distinct (Gen (g_seq (id_generator m)) (g_pos (id_generator m) + n)).

Lemma good_drawn n m : mem_graph_good n m -> drawn_distinct (id_generator m).
Proof. intros [_ D]. eapply gen_le_distinct; [|exact D]. split; simpl; auto. lia. Qed.
Lemma good_shown n m : mem_graph_good n m -> shows m (abs m).
Proof. intros [R _]. apply shows_abs. eapply reachable_agree; eauto. Qed.

Lemma yields_pure {A} m (l : list (result unit A)) : yields calm m (map (fun r yf => (r, yf)) l) l.
Proof.
  induction l as [|r l IH]; simpl; constructor; auto. split; auto. intros f r' y' f' [= <- <- <-]. auto.
Qed.

Lemma mem_graph_ok : graph_ok E (mem_graph F mn me) mn me calm mem_graph_good abs.
Proof.
  split.
  - intros n m [R D]. split; auto. eapply gen_le_distinct; [|exact D]. split; simpl; auto. lia.
  - intros o n m f r m' f' Ho [R D] Q.
    assert (r = Ok tt /\ m' = mem_apply mn me o m) as [-> ->] by (destruct o; try contradiction; simpl in Q; injection Q as <- <- <-; auto).
    assert (exists j, j <= uses_id o /\ id_generator (mem_apply mn me o m) = Gen (g_seq (id_generator m)) (g_pos (id_generator m) + j)) as (j & Hj & Hg).
    { assert (id_generator m = Gen (g_seq (id_generator m)) (g_pos (id_generator m) + 0)) as E0
        by (destruct (id_generator m); simpl; now rewrite Nat.add_0_r).
      destruct o; try contradiction; cbn [mem_apply uses_id].
      - exists 0. split; auto.
      - exists 1. split; auto. rewrite gen_insert_edge. f_equal. lia.
      - exists 0. split; auto. rewrite gen_remove_node. exact E0.
      - exists 0. split; auto. rewrite gen_remove_edge. exact E0.
      - exists 0. split; auto. unfold merge_node. destruct (om_get id_cmp _ _); exact E0.
      - rewrite merge_edge_unfold. destruct (eid m _); [exists 0; split; auto|exists 1; split; auto]. rewrite gen_insert_edge. f_equal. lia. }
    assert (mem_graph_good n (mem_apply mn me o m)) as Hn.
    { split; [now constructor|]. rewrite Hg. simpl. eapply gen_le_distinct; [|exact D]. split; simpl; auto. lia. }
    split; auto. pose proof (sim_apply mn me o m (abs m) (reachable_self _ _ _ R)) as [_ Sm]. apply Sm. eapply good_drawn; exact Hn.
  - intros n m H. exists (iter_vertices m). split; [apply yields_pure|]. apply (good_shown n m H).
  - intros o n m H. exists (iter_edges o m). split; [apply yields_pure|]. apply (good_shown n m H).
  - intros g q n m f H Hf. destruct (sim_run g q m) as (g' & S1 & S2). exists (run g q m), g'. split; [reflexivity|]. split; [apply S2; eapply reachable_agree; apply H|].
    intros D. now apply sim_shows.
Qed.
End MemGraph.

(** ** SledHashIndex *)
Section SledNames.
Context {S SE BE : Type} (cs : codec BE S) (cu : codec BE (Id KUlid)).
Context (Hcs : codec_ok cs) (Hcu : codec_ok cu) (Htu : codec_total cu).
Notation at_ x := (RDb x db_new).

Lemma l2r_at x s : sled_l2r SE cs cu x s = name_now (SE := SE) cs cu (at_ x) s.
Proof. unfold sled_l2r, name_now. cbn [r_names]. now destruct (left_now cs cu x s) as [[i|]|e]. Qed.
Lemma r2l_at x i : sled_r2l SE cs cu x i = id_now (SE := SE) cs cu (at_ x) i.
Proof. unfold sled_r2l, id_now. cbn [r_names]. now destruct (right_now cs cu x i) as [[s|]|e]. Qed.

Lemma sled_names_ok : names_ok (sled_names SE cs cu) works (index_ok cs cu) (sled_l2r SE cs cu) (sled_r2l SE cs cu).
Proof.
  split.
  - intros x Hx s i. rewrite l2r_at, r2l_at. exact (one_now cs cu Hcs Hcu (at_ x) Hx s i).
  - intros s x f r x' f' Hx Q. cbn [ai_left sled_names] in Q. unfold run_on in Q. cbn [fst snd] in Q. unfold sled_l2r, left_now, ret_of, si_left_to_right in *.
    destruct (ser cs s) as [lb|e]; cbn in Q |- *.
    + destruct f as [|[y|] f]; cbn in Q; injection Q as <- <- <-; (split; [exact Hx|]); (split; [reflexivity|]); intros a Ha; try discriminate;
        now rewrite Ha.
    + injection Q as <- <- <-. split; auto. split; auto. intros a Ha; discriminate.
  - intros i x f r x' f' Hx Q. cbn [ai_right sled_names] in Q. unfold run_on in Q. cbn [fst snd] in Q. unfold sled_r2l, right_now, ret_of, si_right_to_left in *.
    destruct (ser cu i) as [lb|e]; cbn in Q |- *.
    + destruct f as [|[y|] f]; cbn in Q; injection Q as <- <- <-; (split; [reflexivity|]); intros a Ha; try discriminate; now rewrite Ha.
    + injection Q as <- <- <-. split; auto. intros a Ha; discriminate.
  - intros s i x f r x' f' Hx Hi Q. cbn [ai_set sled_names] in Q. unfold run_on, si_set in Q. cbn [fst snd] in Q.
    destruct (ser cs s) as [lb|e] eqn:El; cbn in Q; [|injection Q as <- <- <-; auto].
    destruct (ser cu i) as [rb|e] eqn:Er; cbn in Q; [|injection Q as <- <- <-; auto].
    pose proof (set_grows (SE := SE) cs cu Hcs Hcu s i lb rb x El Er) as Hg.
    assert (forall z, set_body (SE := SE) cs cu s i lb rb x = Ok z -> bget lb (i_l2r x) = None) as Hnone.
    { unfold set_body. intros z. destruct (bget lb (i_l2r x)); auto. destruct (de cu _); discriminate. }
    destruct f as [|[y|] f]; cbn in Q.
    + destruct (set_body cs cu s i lb rb x) as [z|e] eqn:Qb; injection Q as <- <- <-; auto.
      destruct Hg as (G1 & G2 & G3). split; [eapply ok_grows; eauto|]. split; [intros t Ht; unfold sled_l2r; now rewrite G3|].
      split; [|unfold sled_l2r; now rewrite G2]. unfold sled_l2r, left_now, ret_of, si_left_to_right. rewrite El. cbn. now rewrite (Hnone z eq_refl).
    + injection Q as <- <- <-. auto.
    + destruct (set_body cs cu s i lb rb x) as [z|e] eqn:Qb; injection Q as <- <- <-; auto.
      destruct Hg as (G1 & G2 & G3). split; [eapply ok_grows; eauto|]. split; [intros t Ht; unfold sled_l2r; now rewrite G3|].
      split; [|unfold sled_l2r; now rewrite G2]. unfold sled_l2r, left_now, ret_of, si_left_to_right. rewrite El. cbn. now rewrite (Hnone z eq_refl).
  - intros i x f Hx ->. pose proof (right_is (SE := SE) cs cu Hcs Htu (at_ x) i Hx) as Hr. rewrite r2l_at.
    unfold sled_names, run_on. cbn [ai_right fst snd]. cbn [r_names] in Hr. unfold right_now, ret_of in Hr.
    unfold si_right_to_left in *. destruct (ser cu i) as [rb|e]; cbn in *; now rewrite Hr.
  - intros s i x f Hx -> H. unfold sled_l2r, left_now, ret_of in H. unfold sled_names, run_on. cbn [ai_left fst snd].
    unfold si_left_to_right in *. destruct (ser cs s) as [lb|e]; cbn in *; [|discriminate].
    now destruct (de_opt cu (bget lb (i_l2r x))) as [[j|]|e]; [injection H as ->| |].
Qed.
End SledNames.

(** ** SledTripleStore *)
Section SledGraph.
Context {NP EP SE BE : Type} (E : Type) (cn : codec BE NP) (ce : codec BE EP) (Hcn : codec_ok cn) (Hce : codec_ok ce).
Context (mn : NP -> NP -> NP) (me : EP -> EP -> EP).
Notation Y := (db * handle KUlid)%type.
Notation sabs := (SledDb.sabs (k := KUlid) cn ce).

(** The trees fit together, and the next [n] edge identifiers of the handle are distinct and not
    in use. *)
Definition sled_graph_good (n : nat) (y : Y) : Prop := exists U : bytes -> Prop,
  fair (k := KUlid) cn ce U (fst y) /\ indexes_agree (k := KUlid) (fst y) /\
  NoDup (map to_be_bytes (next_ids (h_gen (snd y)) n)) /\ forall b, In b (map to_be_bytes (next_ids (h_gen (snd y)) n)) -> ~ U b.

Lemma item_yields {A} d h (p : prog db SE (result (sled_error SE BE) A)) v :
  (forall F, rd F d p v) ->
  let it := fun yf : Y * list (option SE) => match run_on p (fst (fst yf), snd yf) with (r, (d, fs)) => (r, ((d, snd (fst yf)), fs)) end in
  (forall f, works f -> it ((d, h), f) = (v, ((d, h), f))) /\
  (forall f r' y' f', it ((d, h), f) = (r', (y', f')) -> y' = (d, h) /\ (r' = v \/ exists e, r' = Err e)).
Proof.
  intros H it. subst it. cbn [fst snd]. unfold run_on. cbn [fst snd]. split.
  - intros f ->. pose proof (rd_now d p v (H _)) as H1. destruct (wp_exec _ _ _ p [] d (allowed_nil _) (H (fun _ => False))) as (D & _ & _).
    pose proof (exec_nil p d) as H2. unfold now, ret_of, db_of in *. destruct (exec p [] d) as [[r d'] fs]. cbn [fst snd] in *. now subst.
  - intros f r' y' f' Q. destruct (wp_exec _ _ _ p f d (allowed_all f) (H (fun _ => True))) as (D & Hr & _). unfold ret_of, db_of in *.
    destruct (exec p f d) as [[r d'] fs]. cbn [fst snd] in *. injection Q as <- <- <-. subst d'. split; auto.
    destruct Hr as [Hr|(y & _ & Hr)]; eauto.
Qed.
Lemma items_yield {A} d h (item : bytes * bytes -> prog db SE (result (sled_error SE BE) A)) v l :
  (forall F kv, rd F d (item kv) (v kv)) ->
  yields works (d, h) (map (fun kv (yf : Y * list (option SE)) =>
    match run_on (next (item kv)) (fst (fst yf), snd yf) with (r, (d, fs)) => (r, ((d, snd (fst yf)), fs)) end) l) (map v l).
Proof.
  intros H. induction l as [|kv l IH]; simpl; constructor; auto. apply item_yields. intros F. apply rd_next, H.
Qed.

Lemma run_lift {A} (f : prog db SE (result (sled_error SE BE) unit * handle KUlid)) fs d :
  exec (SledHistory.lift (E := A) f) fs d =
  (let '(r, h, d', fs') := exec f fs d in (left_error (E := A) r, h, d', fs')).
Proof. unfold SledHistory.lift. rewrite exec_bind. destruct (exec f fs d) as [[[r h] d'] fs']. reflexivity. Qed.

Lemma sled_call_run (o : op KUlid NP EP E) d h f r y' f' : single_call o ->
  ag_apply (sled_graph SE cn ce mn me) o ((d, h), f) = (r, (y', f')) ->
  exec (sled_apply cn ce mn me o h) f d = (left_error (E := E) r, snd y', fst y', f').
Proof.
  intros Ho Q. destruct o; try contradiction; cbn [ag_apply sled_graph ag_insert_node ag_insert_edge ag_remove_node ag_remove_edge ag_merge_node ag_merge_edge] in Q;
    unfold run_on in Q; cbn [fst snd] in Q; cbn [sled_apply]; rewrite run_lift;
    match type of Q with context [exec ?p ?a ?b] => destruct (exec p a b) as [[[x h'] d'] fs'] end; injection Q as <- <- <-; reflexivity.
Qed.

Lemma sled_graph_ok : graph_ok E (sled_graph SE cn ce mn me) mn me works sled_graph_good (fun y => sabs (fst y)).
Proof.
  split.
  - intros n y (U & H1 & H2 & H3 & H4). exists U. split; auto. split; auto.
    assert (exists l, next_ids (h_gen (snd y)) (Datatypes.S n) = next_ids (h_gen (snd y)) n ++ l) as [l Hl].
    { unfold next_ids. rewrite List.seq_S, map_app. eauto. }
    rewrite Hl, map_app in H3, H4. split; [|intros b Hb; apply H4, in_app_iff; auto].
    clear - H3. induction (map to_be_bytes (next_ids (h_gen (snd y)) n)); [constructor|]. inversion H3; subst. constructor; auto.
    intros Hx. apply H1, in_app_iff. auto.
  - intros o n [d h] f r y' f' Ho (U & H1 & H2 & H3 & H4) Q. cbn [fst snd] in *. apply sled_call_run in Q; auto.
    assert (one_call o) as Ho' by (destruct o; simpl in *; auto).
    assert (draws o = uses_id o) as Hd by (destruct o; simpl in *; try contradiction; auto).
    assert (history_keys h [o] = map to_be_bytes (next_ids (h_gen h) (uses_id o))) as Hk.
    { unfold history_keys. cbn [map sum]. rewrite Hd. assert (draws_ulid o = 0) as -> by (destruct o; simpl in *; try contradiction; auto).
      unfold sum. simpl. rewrite Nat.add_0_r. unfold next_ids at 2. simpl. now rewrite app_nil_r. }
    assert (next_ids (h_gen h) (uses_id o + n) = next_ids (h_gen h) (uses_id o) ++ next_ids (h_gen (advance h (uses_id o))) n) as Hn.
    { unfold next_ids, advance. cbn [h_gen g_seq g_pos]. now rewrite List.seq_app, map_app. }
    rewrite Hn, map_app in H3, H4.
    assert (NoDup (history_keys h [o])) as N1.
    { rewrite Hk. clear - H3. induction (map to_be_bytes (next_ids (h_gen h) (uses_id o))); [constructor|]. inversion H3; subst. constructor; auto.
      intros Hx. apply H1, in_app_iff. auto. }
    assert (forall x, In x (history_keys h [o]) -> ~ U x) as N2 by (intros x Hx; apply H4, in_app_iff; left; now rewrite <- Hk).
    pose proof (call_moves (SE := SE) (E := E) cn ce mn me Hcn Hce U o h f d Ho' H1 H2 N1 N2) as (C1 & C2 & C3).
    pose proof (apply_handle (SE := SE) (E := E) cn ce mn me o h f d Ho') as C4.
    unfold ret_of, db_of in *. rewrite Q in *. cbn [fst snd] in *. split.
    + exists (plus_keys U (history_keys h [o])). split; auto. split; auto. rewrite C4, Hd. split.
      * clear - H3. induction (map to_be_bytes (next_ids (h_gen h) (uses_id o))); auto. inversion H3; auto.
      * intros b Hb [Hx|Hx]; [apply (H4 b); auto; apply in_app_iff; auto|]. rewrite Hk in Hx. clear - H3 Hb Hx.
        induction (map to_be_bytes (next_ids (h_gen h) (uses_id o))) as [|a l IH]; [destruct Hx|]. inversion H3; subst.
        destruct Hx as [->|Hx]; auto. apply H1, in_app_iff. auto.
    + unfold moved in C3. destruct r as [[]|e]; cbn in C3.
      * apply C3.
      * destruct C3 as [C3|[C3 C5]]; auto.
  - intros n [d h] (U & H1 & H2 & _). exists (map (vertex_val (SE := SE) cn) (t_node d)). split.
    + apply (items_yield d h (node_item cn) (vertex_val cn) (t_node d)). intros F kv. apply rd_bind; [apply rd_ret|]. intros i _.
      apply rd_bind; [apply rd_bincode|]. intros v _. apply rd_ret.
    + pose proof (proj1 (good_shows (SE := SE) cn ce U d (conj H1 H2))) as S1. rewrite (rds_now (BE := BE) _ _ _ (rds_iter_vertices cn never d)) in S1. exact S1.
  - intros o n [d h] (U & H1 & H2 & _). exists (map (edge_val (SE := SE) ce d o) (idx o d)). split.
    + assert (idx o d = edge_entries o d) as -> by (destruct o; reflexivity).
      apply (items_yield d h (edge_of_entry ce o) (edge_val ce d o) (edge_entries o d)). intros F kv. unfold edge_of_entry.
      destruct o; (apply rd_bind; [apply rd_ret|]); intros t _; apply rd_edge_item.
    + pose proof (proj2 (good_shows (SE := SE) cn ce U d (conj H1 H2)) o) as S1. rewrite (rds_now (BE := BE) _ _ _ (rds_iter_edges ce never d o)) in S1. exact S1.
  - intros g q n [d h] f (U & H1 & H2 & _) Hf.
    destruct (answer_fair (SE := SE) cn ce U d g q H1) as (m & g' & A1 & A2 & A3).
    exists m, g'. split.
    + rewrite <- A1. exact (proj1 (item_yields d h (s_run cn ce g q) (s_answer cn ce g q d) (fun F => rd_run cn ce F d g q)) f Hf).
    + split; [|intros D; now apply sim_shows]. eapply answers_equiv; [|exact A3]. split; intros; simpl; auto.
      unfold SledDb.view. now rewrite H2.
Qed.
End SledGraph.
