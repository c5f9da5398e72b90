(** Reading an RdfTripleStore over sled. *)
From Coq Require Import Arith NArith List Bool Sorted Lia.
From Verif Require Import Bytes BytesFacts OMap OMapFacts Core IdType IdTypeFacts Store Mem MemIndex Spec GenSpec
  CodecFacts ListFacts MemSim History Prog ProgFacts Sled SledHistory SledSched SledDb SledOps SledBulk
  SledRun SledRead SledTop SledMain SledTables SledIndex SledIndexFacts Rdf RdfSpec RdfTop RdfQuery RdfSled RdfSledSpec
  RdfSledSafe RdfSledConc RdfSledTop.
Import ListNotations.

Section Read.
Context {S NP EP SE BE : Type} (seqb : S -> S -> bool) (seqb_eq : forall a b, seqb a b = true <-> a = b).
Context (cs : codec BE S) (cu : codec BE (Id KUlid)) (cn : codec BE NP) (ce : codec BE EP).
Context (Hcs : codec_ok cs) (Hcu : codec_ok cu) (Htu : codec_total cu).
Notation I := (Id KUlid).
Notation ent := (entity S).
Notation ierr := (sled_index_error S (Id KUlid) SE BE).
Notation gerr := (sled_error SE BE).
Notation err := (rdf_error S ierr gerr).
Notation merr := (rdf_error S (index_error S (Id KUlid)) unit).
Notation qerr := (lr_error err merr).
Notation P A := (prog rdb SE A).
Notation PR A := (prog rdb SE (result err A)).
Notation PQ A := (prog rdb SE (result qerr A)).
Notation G := (graph KUlid NP EP).
Notation EG := (egraph S NP EP).
Notation nu := (name_now (SE := SE) cs cu).
Notation rho := (id_now (SE := SE) cs cu).
Notation sabs d := (SledDb.sabs (k := KUlid) cn ce (r_trees d)).
Notation world := (world cs cu cn ce).
Notation view := (RdfTop.view (S := S) (NP := NP) (EP := EP)).
Notation lift := RdfTop.lift.
Implicit Types d : rdb.
Implicit Types F : SE -> Prop.

(** ** The value, or a failure of the storage *)
Definition orf {A} F (v r : result err A) : Prop := r = v \/ exists e, is_fault F e /\ r = Err e.
Definition rq {A} F d (p : PR A) (v : result err A) : Prop := wp F (fun x => x = d) (fun r _ => orf F v r) p d.
Definition rqs {A} F d (p : P (list (result err A))) (vs : list (result err A)) : Prop :=
  wp F (fun x => x = d) (fun rs _ => Forall2 (orf F) vs rs) p d.
Definition thn {A B E} (r : result E A) (f : A -> result E B) : result E B :=
  match r with Ok a => f a | Err e => Err e end.

Lemma rq_ret {A} F d (v : result err A) : rq F d (Ret v) v.
Proof. split; auto. left. reflexivity. Qed.
Lemma rq_bind {A B} F d (p : PR A) (f : A -> PR B) r v :
  rq F d p r -> (forall a, r = Ok a -> rq F d (f a) (v a)) -> rq F d (bind_ok p f) (thn r v).
Proof.
  intros H Hf. unfold rq. apply wp_bind_ok. eapply wp_mono; [| |exact H]; auto.
  intros r' x -> [->|(e & He & ->)].
  - destruct r as [a|e]; simpl; [now apply Hf|]. split; auto. now left.
  - split; auto. right. eauto.
Qed.
Lemma rq_eq {A} F d (p : PR A) v v' : rq F d p v -> v = v' -> rq F d p v'.
Proof. now intros H <-. Qed.
Lemma rqs_map {X A} F d (f : X -> PR A) v l : (forall x, rq F d (f x) (v x)) -> rqs F d (map_prog f l) (map v l).
Proof.
  intros H. induction l as [|x l IH]; simpl; [split; auto|].
  apply wp_bind. eapply wp_mono; [| |apply H]; auto. intros r y -> Hr.
  apply wp_bind. eapply wp_mono; [| |exact IH]; auto. intros rs y -> Hrs. simpl. split; auto.
Qed.

Lemma wp_on_graph {A} F (R : rdb -> Prop) (Q : A -> rdb -> Prop) (p : prog db SE A) : forall d,
  wp F (fun x => R (RDb (r_names d) x)) (fun a x => Q a (RDb (r_names d) x)) p (r_trees d) ->
  wp F R Q (on_graph p) d.
Proof.
  induction p as [a|k IH|u k IHk e IHe]; intros d H; simpl in *.
  - now destruct d.
  - apply IH; auto.
  - destruct H as (H1 & H2 & H3). split; [now destruct d|]. split.
    + apply (IHk _ (RDb (r_names d) (u (r_trees d)))). exact H2.
    + intros x Hx. apply IHe. now apply H3.
Qed.

Lemma db_same d : RDb (r_names d) (r_trees d) = d.
Proof. now destruct d. Qed.

Lemma rq_graph {A} F d (p : prog db SE (result gerr A)) v : rd F (r_trees d) p v ->
  rq F d (bind (on_graph p) (fun r => Ret (from_graph r))) (from_graph v).
Proof.
  intros H. apply wp_bind. apply wp_on_graph. eapply wp_mono; [| |exact H].
  - intros x ->. apply db_same.
  - intros r x -> Hr. simpl. rewrite db_same. split; auto. destruct Hr as [->|(y & Hy & ->)]; [now left|].
    right. simpl. eexists. split; eauto. exists y. auto.
Qed.

Lemma rq_shown {A B} F d (item : bytes * bytes -> prog db SE (result gerr A)) (show : A -> PR B) kv v sh :
  rd F (r_trees d) (item kv) v -> (forall a, v = Ok a -> rq F d (show a) (sh a)) ->
  rq F d (shown_item item show kv) (thn (from_graph v) sh).
Proof.
  intros Hv Hs. unfold shown_item. apply wp_bind. apply wp_on_graph.
  eapply wp_mono; [| |apply (rd_next F (r_trees d)); exact Hv].
  - intros x ->. apply db_same.
  - intros r x -> Hr. rewrite db_same. destruct Hr as [->|(y & Hy & ->)].
    + destruct v as [a|e]; simpl; [now apply Hs|]. split; auto. now left.
    + simpl. split; auto. right. eexists. split; eauto. exists y. auto.
Qed.

(** ** Names *)
Lemma right_is d i : index_ok cs cu (r_names d) -> right_now (SE := SE) cs cu (r_names d) i = Ok (rho d i).
Proof.
  intros Hok. destruct (Htu i) as [b Hb]. pose proof (right_answers (SE := SE) cs cu Hcs (r_names d) i Hok) as H.
  rewrite Hb in H. unfold id_now. destruct H as [o ->]. now destruct o.
Qed.

Lemma rq_lookup_id F d i : index_ok cs cu (r_names d) -> rq F d (rs_lookup_id (SE := SE) cs cu i) (Ok (shown (rho d) i)).
Proof.
  intros Hok. pose proof (right_is d i Hok) as H. unfold right_now, si_right_to_left in H.
  unfold rq, rs_lookup_id. apply wp_bind. unfold si_right_to_left. destruct (Htu i) as [b Hb].
  rewrite Hb in *. unfold ret_of in H. simpl in H. simpl. rewrite H, db_same. split; auto. split.
  - split; auto. split; auto. left. unfold shown. now destruct (rho d i).
  - intros e He. split; auto. split; auto. right. eexists. split; eauto. exists e. auto.
Qed.

Definition lookup_val d (e : ent) : result err I :=
  match e with
  | EUlid i => Ok i
  | EString s => match left_now (SE := SE) cs cu (r_names d) s with
                 | Ok (Some i) => Ok i
                 | Ok None => Err (NameNotFound s)
                 | Err x => Err (NameIndexStorageError x)
                 end
  end.
Lemma rq_lookup_entity F d e : rq F d (rs_lookup_entity (SE := SE) cs cu e) (lookup_val d e).
Proof.
  destruct e as [s|i]; [|apply rq_ret]. unfold rq, rs_lookup_entity. apply wp_bind.
  unfold lookup_val, left_now, si_left_to_right. destruct (ser cs s) as [b|x]; simpl.
  - rewrite db_same. split; auto. split.
    + split; auto. split; auto. left. unfold ret_of. simpl. now destruct (de_opt cu (bget b (i_l2r (r_names d)))) as [[?|]|].
    + intros e He. split; auto. split; auto. right. eexists. split; eauto. exists e. auto.
  - split; auto. split; auto. now left.
Qed.

Lemma rq_try_map3 {A B} F d (f : A -> PR B) (v : A -> B) t :
  (forall a, rq F d (f a) (Ok (v a))) -> rq F d (try_map_prog f t) (Ok (triple_map v t)).
Proof.
  intros H. unfold try_map_prog. eapply rq_eq; [apply rq_bind; [apply H|intros a _]|].
  - apply rq_bind; [apply H|intros b _]. apply rq_bind; [apply H|intros c _]. apply rq_ret.
  - reflexivity.
Qed.

(** ** Listings *)
Definition pair_val d {X} (ip : I * X) : ent * X := (shown (rho d) (fst ip), snd ip).
Definition edge_val3 d (te : triple I * EP) : triple ent * EP := (triple_map (shown (rho d)) (fst te), snd te).
Definition props_val3 d (t : props_triple I NP EP) : props_triple ent NP EP :=
  PropsTriple (pair_val d (p_sub t)) (pair_val d (p_pred t)) (pair_val d (p_obj t)).

Lemma rq_show_pair {X} F d (ip : I * X) : index_ok cs cu (r_names d) -> rq F d (rs_show_pair (SE := SE) cs cu ip) (Ok (pair_val d ip)).
Proof. intros H. unfold rs_show_pair. eapply rq_eq; [apply rq_bind; [now apply rq_lookup_id|intros; apply rq_ret]|reflexivity]. Qed.
Lemma rq_show_edge F d (te : triple I * EP) : index_ok cs cu (r_names d) -> rq F d (rs_show_edge (SE := SE) cs cu te) (Ok (edge_val3 d te)).
Proof.
  intros H. unfold rs_show_edge. eapply rq_eq; [apply rq_bind; [apply rq_try_map3; intros; now apply rq_lookup_id|intros; apply rq_ret]|reflexivity].
Qed.
Lemma rq_show_props F d t : index_ok cs cu (r_names d) -> rq F d (rs_show_props (SE := SE) cs cu t) (Ok (props_val3 d t)).
Proof.
  intros H. unfold rs_show_props. eapply rq_eq; [apply rq_bind; [now apply rq_show_pair|intros a _]|].
  - apply rq_bind; [now apply rq_show_pair|intros b _]. apply rq_bind; [now apply rq_show_pair|intros c _]. apply rq_ret.
  - reflexivity.
Qed.

Definition entry_val {A B} (show : A -> B) (v : bytes * bytes -> result gerr A) (kv : bytes * bytes) : result err B :=
  thn (from_graph (v kv)) (fun a => Ok (show a)).

Lemma rqs_vertices F d : index_ok cs cu (r_names d) ->
  rqs F d (rs_iter_vertices (SE := SE) cs cu cn) (map (entry_val (pair_val d) (vertex_val cn)) (t_node (r_trees d))).
Proof.
  intros H. unfold rs_iter_vertices, rs_scan. apply (rqs_map F d). intros kv. apply rq_shown; [|intros; now apply rq_show_pair].
  unfold node_item. apply rd_bind; [apply rd_ret|]. intros i _. apply rd_bind; [apply rd_bincode|]. intros v _. apply rd_ret.
Qed.
Lemma rqs_edges F d o : index_ok cs cu (r_names d) ->
  rqs F d (rs_iter_edges (SE := SE) cs cu ce o) (map (entry_val (edge_val3 d) (edge_val ce (r_trees d) o)) (idx o (r_trees d))).
Proof.
  intros H. unfold rs_iter_edges, rs_scan. assert (edge_entries o (r_trees d) = idx o (r_trees d)) as <- by now destruct o.
  apply (rqs_map F d). intros kv. apply rq_shown; [|intros; now apply rq_show_edge].
  unfold edge_of_entry. assert (edge_decode o = dec o) as -> by now destruct o.
  apply rd_bind; [apply rd_ret|]. intros t _. apply rd_edge_item.
Qed.
Lemma rqs_props F d o : index_ok cs cu (r_names d) ->
  rqs F d (rs_iter_edges_with_props (SE := SE) cs cu cn ce o) (map (entry_val (props_val3 d) (props_val cn ce (r_trees d) o)) (idx o (r_trees d))).
Proof.
  intros H. unfold rs_iter_edges_with_props, rs_scan. assert (edge_entries o (r_trees d) = idx o (r_trees d)) as <- by now destruct o.
  apply (rqs_map F d). intros kv. apply rq_shown; [|intros; now apply rq_show_props].
  unfold props_of_entry. assert (edge_decode o = dec o) as -> by now destruct o.
  apply rd_bind; [apply rd_ret|]. intros t _. apply rd_iter_impl.
Qed.

Lemma orf_never {A} (v r : result err A) : orf never v r -> r = v.
Proof. intros [H|(e & (y & [] & _) & _)]; auto. Qed.
Lemma rqs_now {A} d (p : P (list (result err A))) vs : rqs never d p vs -> ret_of p [] d = vs.
Proof.
  intros H. destruct (wp_exec _ _ _ p [] d (allowed_nil _) H) as (_ & H' & _). clear H. revert H'. generalize (ret_of p [] d).
  induction vs as [|v vs IH]; intros rs H'; inversion H' as [|v' r' vs' rs' Hr Hrs]; subst; auto.
  f_equal; auto. now apply orf_never.
Qed.

Lemma lists_entries {A K X} (lt : K -> K -> Prop) (l : list (bytes * bytes)) (v : bytes * bytes -> result gerr (K * X)) (h : K -> A) f f'
    (lt' : A -> A -> Prop) :
  lists lt (map v l) f -> (forall a b, lt a b -> lt' (h a) (h b)) ->
  (forall b p, f' b = Some p <-> exists a, b = h a /\ f a = Some p) ->
  lists lt' (map (entry_val (fun ax => (h (fst ax), snd ax)) v) l) f'.
Proof.
  intros H Hlt Hf. eapply lists_rename with (h := h); [|exact H| |exact Hf]; [|auto].
  intros x Hx. clear -Hx. revert x Hx. induction l as [|kv l IH]; intros [|a x] Hx; simpl in *; try discriminate; auto.
  injection Hx as Hv Hx. f_equal; auto. unfold entry_val. rewrite Hv. reflexivity.
Qed.

Lemma world_shows U d eg : world U d -> view (rho d) (sabs d) eg -> rs_shows SE cs cu cn ce d eg.
Proof.
  intros (Hok & Hf & Ha) [V1 V2].
  pose proof (good_shows (SE := SE) cn ce U (r_trees d) (conj Hf Ha)) as [S1 S2]. split.
  - rewrite (rqs_now _ _ _ (rqs_vertices never d Hok)). rewrite (rds_now (BE := BE) _ _ _ (rds_iter_vertices cn never (r_trees d))) in S1.
    apply (lists_entries id_lt _ (vertex_val cn) (shown (rho d)) _ _ _ S1); [intros a b L; exists a, b; auto|exact V1].
  - intros o. rewrite (rqs_now _ _ _ (rqs_edges never d o Hok)). specialize (S2 o).
    rewrite (rds_now (BE := BE) _ _ _ (rds_iter_edges ce never (r_trees d) o)) in S2.
    apply (lists_entries (edge_lt o) _ (edge_val ce (r_trees d) o) (triple_map (shown (rho d))) _ _ _ S2); [intros a b L; exists a, b; auto|exact V2].
Qed.

Lemma world_props U d eg o : world U d -> view (rho d) (sabs d) eg ->
  exists es, ret_of (rs_iter_edges (SE := SE) cs cu ce o) [] d = map Ok es /\
    ret_of (rs_iter_edges_with_props (SE := SE) cs cu cn ce o) [] d = map (e_full_item (SE := SE) (BE := BE) eg) es.
Proof.
  intros (Hok & Hf & Ha) V.
  assert (stands_for (k := KUlid) cn ce (r_trees d) (sabs d)) as St.
  { exists U. split; [split; auto|]. apply g_equiv_refl. }
  destruct (stands_props (SE := SE) cn ce _ _ o St) as (es & H1 & _ & H3).
  rewrite (rds_now (BE := BE) _ _ _ (rds_iter_edges ce never (r_trees d) o)) in H1.
  rewrite (rds_now (BE := BE) _ _ _ (rds_iter_props cn ce never (r_trees d) o)) in H3.
  rewrite (rqs_now _ _ _ (rqs_edges never d o Hok)), (rqs_now _ _ _ (rqs_props never d o Hok)).
  exists (map (edge_val3 d) es).
  pose proof (one_now (SE := SE) cs cu Hcs Hcu d Hok) as One.
  assert (forall te, e_full_item (SE := SE) (BE := BE) eg (edge_val3 d te) = thn (from_graph (full_item (sabs d) te)) (fun a => Ok (props_val3 d a))) as Hitem.
  { intros [t e]. unfold e_full_item, full_item, edge_val3. cbn [fst snd triple_map sub pred obj].
    rewrite !(view_node _ _ One _ _ _ V). simpl.
    destruct (nod cn (r_trees d) (sub t)), (nod cn (r_trees d) (obj t)); reflexivity. }
  revert es H1 H3. generalize (idx o (r_trees d)). intros l. induction l as [|kv l IH]; intros [|te es] H1 H3; simpl in *; try discriminate; auto.
  injection H1 as A1 B1. injection H3 as A3 B3. destruct (IH es B1 B3) as [I1 I2].
  split; f_equal; auto; unfold entry_val; [now rewrite A1|]. rewrite A3. symmetry. apply Hitem.
Qed.

(** With failures: the database is not changed, and every item is right or reports a failure. *)
Lemma rqs_faults {A} d (p : P (list (result err A))) vs fs : (forall F, rqs F d p vs) ->
  db_of p fs d = d /\ but_for_faults fs (ret_of p [] d) (ret_of p fs d).
Proof.
  intros H. rewrite (rqs_now _ _ _ (H never)).
  destruct (wp_exec _ _ _ p fs d (fun y Hy => Hy) (H (fun y => In (Some y) fs))) as (H1 & H2 & _). auto.
Qed.
Lemma readers_faults d fs : index_ok cs cu (r_names d) ->
  (let p := rs_iter_vertices (SE := SE) cs cu cn in
   db_of p fs d = d /\ but_for_faults fs (ret_of p [] d) (ret_of p fs d)) /\
  (forall o, let p := rs_iter_edges (SE := SE) cs cu ce o in
   db_of p fs d = d /\ but_for_faults fs (ret_of p [] d) (ret_of p fs d)) /\
  (forall o, let p := rs_iter_edges_with_props (SE := SE) cs cu cn ce o in
   db_of p fs d = d /\ but_for_faults fs (ret_of p [] d) (ret_of p fs d)).
Proof.
  intros H. split; [|split]; intros; eapply rqs_faults; intros F; [apply rqs_vertices|apply rqs_edges|apply rqs_props]; auto.
Qed.

(** The vertices. *)
Lemma exec_nil {D A} (p : prog D SE A) : forall x, snd (exec p [] x) = [].
Proof. induction p as [a|k IH|u k IHk e IHe]; intros x; simpl; auto. Qed.
Lemma rq_collect {A B} F d (f : A -> PR B) v l : (forall a, rq F d (f a) (v a)) -> rq F d (collect_prog f l) (collect_result v l).
Proof.
  intros H. induction l as [|a l IH]; simpl; [apply rq_ret|].
  eapply rq_eq; [apply rq_bind; [apply H|intros b _]|].
  - apply rq_bind; [exact IH|intros bs _; apply rq_ret].
  - destruct (v a); simpl; auto.
Qed.
Lemma world_vertices U d eg : world U d -> view (rho d) (sabs d) eg ->
  exists ns, ret_of (rs_iter_vertices (SE := SE) cs cu cn) [] d = map Ok ns /\
    ret_of (rs_vertices (SE := SE) cs cu) [] d = Ok (map fst ns).
Proof.
  intros Hw V. destruct Hw as (Hok & Hf & Ha).
  pose proof (good_shows (SE := SE) cn ce U (r_trees d) (conj Hf Ha)) as [(ns & S1 & _) _].
  pose proof (vertices_sled (SE := SE) cn (r_trees d) ns S1) as Hv.
  rewrite (rds_now (BE := BE) _ _ _ (rds_iter_vertices cn never (r_trees d))) in S1.
  exists (map (pair_val d) ns). split.
  - rewrite (rqs_now _ _ _ (rqs_vertices never d Hok)). clear Hv. revert ns S1. generalize (t_node (r_trees d)).
    intros l. induction l as [|kv l IH]; intros [|x ns] S1; simpl in *; try discriminate; auto.
    injection S1 as A1 B1. f_equal; [|apply IH; auto]. unfold entry_val. now rewrite A1.
  - unfold rs_vertices. rewrite ret_of_bind, ret_on_graph, db_on_graph, exec_nil.
    unfold now in Hv. rewrite Hv.
    assert (db_of (s_vertices (k := KUlid) (BE := BE)) [] (r_trees d) = r_trees d) as ->.
    { apply readonly_exec. unfold s_vertices, scan, next. ro. }
    rewrite db_same.
    destruct (wp_exec _ _ _ _ [] d (allowed_nil _) (rq_collect never d _ (fun i => Ok (shown (rho d) i)) (map fst ns) (fun i => rq_lookup_id never d i Hok))) as (_ & Hr & _).
    apply orf_never in Hr. rewrite Hr. clear. induction ns as [|[i p] ns IH]; simpl; auto. rewrite IH. reflexivity.
Qed.

(** ** Queries *)
Definition orq {A} F (v r : result qerr A) : Prop := r = v \/ exists e, is_fault F e /\ r = Err (LeftE e).
Definition rqq {A} F d (p : PQ A) (v : result qerr A) : Prop := wp F (fun x => x = d) (fun r _ => orq F v r) p d.
Lemma rqq_ret {A} F d (v : result qerr A) : rqq F d (Ret v) v.
Proof. split; auto. left. reflexivity. Qed.
Lemma rqq_bind {A B} F d (p : PQ A) (f : A -> PQ B) r v :
  rqq F d p r -> (forall a, r = Ok a -> rqq F d (f a) (v a)) -> rqq F d (bind_ok p f) (thn r v).
Proof.
  intros H Hf. unfold rqq. apply wp_bind_ok. eapply wp_mono; [| |exact H]; auto.
  intros r' x -> [->|(e & He & ->)].
  - destruct r as [a|e]; simpl; [now apply Hf|]. split; auto. now left.
  - split; auto. right. eauto.
Qed.
Lemma rqq_eq {A} F d (p : PQ A) v v' : rqq F d p v -> v = v' -> rqq F d p v'.
Proof. now intros H <-. Qed.
Definition leftv {A} (r : result err A) : result qerr A := match r with Ok a => Ok a | Err e => Err (LeftE e) end.
Lemma rqq_left {A} F d (p : PR A) v : rq F d p v -> rqq F d (on_left p) (leftv v).
Proof.
  intros H. apply wp_bind. eapply wp_mono; [| |exact H]; auto. intros r x -> [->|(e & He & ->)]; simpl; split; auto.
  - left. now destruct v.
  - right. eauto.
Qed.

Lemma rq_query {A B} F d (f : A -> PR B) v q : (forall a, rq F d (f a) (v a)) -> rq F d (query_try_prog f q) (query_try_map v q).
Proof.
  intros H.
  assert (forall ab, rq F d (pair_prog f ab) (try_pair v ab)) as H2.
  { intros [a b]. unfold pair_prog, try_pair. simpl. eapply rq_eq; [apply rq_bind; [apply H|intros x _]|].
    - apply rq_bind; [apply H|intros y _; apply rq_ret].
    - destruct (v a); simpl; auto. }
  assert (forall t, rq F d (triple_prog f t) (try_triple v t)) as H3.
  { intros [[a b] c]. unfold triple_prog, try_triple. eapply rq_eq; [apply rq_bind; [apply H|intros x _]|].
    - apply rq_bind; [apply H|intros y _]. apply rq_bind; [apply H|intros z _]. apply rq_ret.
    - unfold thn. destruct (v a), (v b), (v c); reflexivity. }
  destruct q; cbn [query_try_prog query_try_map];
    (eapply rq_eq; [apply rq_bind; [apply rq_collect; auto|intros; apply rq_ret]|]);
    match goal with |- thn ?x _ = _ => destruct x; reflexivity end.
Qed.

Notation index := (mem_index S I).
Lemma rqq_set_names F d ids : index_ok cs cu (r_names d) -> forall (new : index),
  rqq F d (rs_set_names (SE := SE) cs cu seqb ids new) (in_result (names_into seqb (rho d) ids new)).
Proof.
  intros Hok. induction ids as [|i ids IH]; intros new; cbn [rs_set_names names_into]; [apply rqq_ret|].
  eapply rqq_eq; [eapply rqq_bind with (v := fun e => match e with
     | EUlid _ => in_result (names_into seqb (rho d) ids new)
     | EString s => match index_set seqb id_eqb s i new with
                    | (Err x, _) => Err (RightE (NameIndexStorageError x))
                    | (Ok _, new) => in_result (names_into seqb (rho d) ids new) end end);
     [apply rqq_left, rq_lookup_id; auto|]|].
  - intros [s|j] _; [|apply IH]. destruct (index_set seqb id_eqb s i new) as [[[]|x] new1]; [apply IH|apply rqq_ret].
  - simpl. unfold shown. destruct (rho d i) as [s|]; auto. destruct (index_set seqb id_eqb s i new) as [[[]|x] new1]; auto.
Qed.
Lemma rqq_set_edge_names F d (items : list (triple I * EP)) : index_ok cs cu (r_names d) -> forall (new : index),
  rqq F d (rs_set_edge_names (SE := SE) cs cu seqb (map Ok items) new)
    (in_result (names_into seqb (rho d) (flat_map (fun te => ids3 (fst te)) items) new)).
Proof.
  intros Hok. induction items as [|[t p] items IH]; intros new; cbn [map rs_set_edge_names flat_map fst]; [apply rqq_ret|].
  rewrite names_into_app. eapply rqq_eq; [apply rqq_bind; [apply (rqq_set_names F d [sub t; pred t; obj t] Hok)|intros a _; apply IH]|].
  unfold ids3. destruct (names_into seqb (rho d) [sub t; pred t; obj t] new); reflexivity.
Qed.

(** The identifiers a query is about. *)
Definition id_of d (e : ent) : option I := match e with EString s => nu d s | EUlid i => Some i end.
Lemma lookup_known d s i : nu d s = Some i -> lookup_val d (EString s) = Ok i.
Proof. unfold name_now, lookup_val. destruct (left_now cs cu (r_names d) s) as [[j|]|]; intros; congruence. Qed.

Lemma query_ids d q : (forall s, In (EString s) (mentioned q) -> nu d s <> None) ->
  exists qi, query_try_map (lookup_val d) q = Ok qi.
Proof.
  intros H. destruct (query_try_map (lookup_val d) q) as [qi|x] eqn:Q; eauto. exfalso.
  apply query_try_fail in Q. destruct Q as ([s|i] & Hin & Hx); [|discriminate].
  specialize (H s Hin). destruct (nu d s) as [i|] eqn:E1; [|congruence]. rewrite (lookup_known d s i E1) in Hx. discriminate.
Qed.
Lemma query_shown d q qi : index_ok cs cu (r_names d) -> query_try_map (lookup_val d) q = Ok qi ->
  query_map (by_name (rho d)) q = query_map (shown (rho d)) qi.
Proof.
  intros Hok Hq. pose proof (one_now (SE := SE) cs cu Hcs Hcu d Hok) as One.
  set (h := fun e => match lookup_val d e with Ok i => shown (rho d) i | Err _ => e end).
  assert (forall e i, lookup_val d e = Ok i -> shown (rho d) i = by_name (rho d) e) as Hshow.
  { intros [s|i] j Hj; simpl in *; [|congruence].
    assert (nu d s = Some j) as Hs. { unfold name_now. destruct (left_now cs cu (r_names d) s) as [[x|]|]; congruence. }
    apply One in Hs. unfold shown. now rewrite Hs. }
  assert (forall X Y (f : X -> result err Y) l l', collect_result f l = Ok l' -> Forall2 (fun x y => f x = Ok y) l l') as Hcol.
  { intros X Y f l. induction l as [|x l IH]; simpl; intros l' H; [inversion H; constructor|].
    destruct (f x) eqn:Q; [|discriminate]. destruct (collect_result f l); [|discriminate]. inversion H; subst. constructor; auto. }
  assert (forall l l', Forall2 (fun e i => lookup_val d e = Ok i) l l' -> map (by_name (rho d)) l = map (shown (rho d)) l') as H1.
  { induction 1; simpl; auto. f_equal; auto. symmetry. auto. }
  assert (forall l l', Forall2 (fun e i => try_pair (lookup_val d) e = Ok i) l l' ->
     map (fun ab : ent * ent => let (a, b) := ab in (by_name (rho d) a, by_name (rho d) b)) l =
     map (fun ab : I * I => let (a, b) := ab in (shown (rho d) a, shown (rho d) b)) l') as H2.
  { induction 1 as [|[a b] [i j] l l' Hab _ IH]; simpl; auto. f_equal; auto. unfold try_pair in Hab. simpl in Hab.
    destruct (lookup_val d a) eqn:A1; [|discriminate]. destruct (lookup_val d b) eqn:A2; [|discriminate]. inversion Hab; subst.
    f_equal; symmetry; auto. }
  assert (forall l l', Forall2 (fun e i => try_triple (lookup_val d) e = Ok i) l l' ->
     map (fun t => let '(s, p, o) := t in (by_name (rho d) s, by_name (rho d) p, by_name (rho d) o)) l =
     map (fun t => let '(s, p, o) := t in (shown (rho d) s, shown (rho d) p, shown (rho d) o)) l') as H3.
  { induction 1 as [|[[a b] c] [[i j] k] l l' Hab _ IH]; simpl; auto. f_equal; auto. unfold try_triple in Hab.
    destruct (lookup_val d a) eqn:A1; [|discriminate]. destruct (lookup_val d b) eqn:A2; [|discriminate].
    destruct (lookup_val d c) eqn:A3; [|discriminate]. inversion Hab; subst.
    f_equal; [f_equal|]; symmetry; auto. }
  destruct q; simpl in Hq; match type of Hq with res_map _ ?x = _ => destruct x eqn:Q; simpl in Hq; [|discriminate] end;
    inversion Hq; subst; apply Hcol in Q; simpl; f_equal; auto.
Qed.

Section Run.
Context (U : bytes -> Prop) (d : rdb) (Hw : world U d) (eg : EG) (V : view (rho d) (sabs d) eg).
Context (q : query ent) (g u : gen KUlid).
Notation q' := (query_map (by_name (rho d)) q).
Context (Kn : forall s, In (EString s) (mentioned q) -> nu d s <> None).
Context (Nr : forall qi m, query_map (shown (rho d)) qi = q' -> now SE (s_run (BE := BE) cn ce g qi) (r_trees d) = Ok m ->
  drawn_distinct (id_generator m)).

Lemma run_spec : exists v, (forall F, rqq F d (rs_run (SE := SE) cs cu cn ce seqb g u q) v) /\
  (forall es, matching q' eg es -> ((exists r', v = Ok r') <-> NoDup (flat_map names_of es))) /\
  match v with
  | Ok r' => exists eg', rdf_shows r' eg' /\ e_answers q' eg eg' /\
      forall s i, left_to_right seqb (name_index r') s = Some i -> nu d s = Some i
  | Err x => exists s i, x = RightE (NameIndexStorageError (DuplicateRight s i i)) /\ nu d s = Some i
  end.
Proof.
  destruct Hw as (Hok & Hf & Ha). pose proof (one_now (SE := SE) cs cu Hcs Hcu d Hok) as One.
  destruct (query_ids d q Kn) as [qi Hq]. pose proof (query_shown d q qi Hok Hq) as Hsh.
  assert (stands_for (k := KUlid) cn ce (r_trees d) (sabs d)) as St.
  { exists U. split; [split; auto|]. apply g_equiv_refl. }
  destruct (stands_run (SE := SE) cn ce _ _ g qi St) as (m & gq & Hm & [An Ae] & Hs).
  specialize (Hs (Nr qi m (eq_sym Hsh) Hm)).
  assert (s_answer (SE := SE) cn ce g qi (r_trees d) = Ok m) as Hans.
  { rewrite <- Hm. symmetry. apply (rd_now (SE := SE) (BE := BE)). apply rd_run. }
  destruct (view_lift _ _ One gq) as [Ln Le]. destruct V as [Vn Ve].
  assert (e_answers q' eg (lift (nu d) (rho d) gq)) as Hea.
  { rewrite Hsh. split.
    - intros n p. rewrite Ln, Vn. split.
      + intros (i & -> & H). apply An in H. destruct H as [H1 H2]. split; eauto.
        apply selects_node_rename; auto. apply (shown_inj _ _ One).
      + intros (H1 & i & -> & H2). exists i. split; auto. apply An. split; auto.
        apply selects_node_rename in H1; auto. apply (shown_inj _ _ One).
    - intros n p. rewrite Le, Ve. split.
      + intros (i & -> & H). apply Ae in H. destruct H as [H1 H2]. split; eauto.
        apply selects_rename; auto. apply (shown_inj _ _ One).
      + intros (H1 & i & -> & H2). exists i. split; auto. apply Ae. split; auto.
        apply selects_rename in H1; auto. apply (shown_inj _ _ One). }
  destruct (result_items m gq Hs) as (items & Hi & R1 & R2 & R3 & R4).
  set (x := names_into seqb (rho d) (ids_in m items) index_new).
  exists (thn (in_result x) (fun new => Ok (Rdf new m u))). split; [|split].
  - intros F. unfold rs_run. eapply rqq_eq.
    + apply rqq_bind; [apply rqq_left, (rq_query _ _ _ (lookup_val d)); intros; apply rq_lookup_entity|]. intros qi' Hqi'.
      rewrite Hq in Hqi'. injection Hqi' as <-.
      apply rqq_bind with (r := Ok m) (v := fun m => thn (in_result x) (fun new => Ok (Rdf new m u))).
      * eapply rqq_eq; [apply rqq_left, rq_graph, rd_run|]. now rewrite Hans.
      * intros m' [= <-]. unfold x, ids_in. rewrite names_into_app.
        eapply rqq_eq; [apply rqq_bind; [apply rqq_set_names; auto|intros ix _]|].
        -- rewrite Hi. apply rqq_bind; [apply rqq_set_edge_names; auto|intros ix' _; apply rqq_ret].
        -- destruct (names_into seqb (rho d) (vertices m) index_new); reflexivity.
    + rewrite Hq. reflexivity.
  - intros es Me. rewrite <- (result_iff seqb seqb_eq _ _ One eg q m gq Hea items R1 R2 R3 R4 es Me). fold x.
    destruct x; simpl; split; intros [? ?]; try discriminate; eauto.
  - destruct x as [new|y] eqn:Q; simpl.
    + destruct (result_ok seqb seqb_eq _ _ One m gq Hs items R2 R4 new u Q) as [S1 S2]. exists (lift (nu d) (rho d) gq). auto.
    + destruct (result_error seqb seqb_eq _ _ One m items _ Q) as (s & i & -> & H). eauto.
Qed.

End Run.

Lemma run_unknown d g u q s : index_ok cs cu (r_names d) -> In (EString s) (mentioned q) -> nu d s = None -> codec_total cs ->
  exists s', In (EString s') (mentioned q) /\ nu d s' = None /\
    forall F, rqq F d (rs_run (NP := NP) (EP := EP) (SE := SE) cs cu cn ce seqb g u q) (Err (LeftE (NameNotFound s'))).
Proof.
  intros Hok Hs Hn Hts.
  destruct (query_try_map (lookup_val d) q) as [qi|x] eqn:Q.
  - exfalso. destruct (query_try_each _ _ _ Q _ Hs) as [i Hi]. simpl in Hi. unfold name_now in Hn.
    destruct (left_now cs cu (r_names d) s) as [[j|]|]; congruence.
  - destruct (query_try_fail _ _ _ Q) as ([s'|i] & Hin & Hx); [|discriminate]. simpl in Hx.
    pose proof (left_answers (SE := SE) cs cu Hcu (r_names d) s' Hok) as Hl. destruct (Hts s') as [b Hb]. rewrite Hb in Hl.
    destruct Hl as [o Ho]. rewrite Ho in Hx. exists s'. split; auto. unfold name_now. rewrite Ho.
    destruct o as [j|]; [discriminate|]. split; auto. injection Hx as <-.
    intros F. unfold rs_run. eapply rqq_eq; [apply rqq_bind with (v := fun _ => Err (LeftE (NameNotFound s')));
      [apply rqq_left, (rq_query _ _ _ (lookup_val d)); intros; apply rq_lookup_entity|]|].
    + intros a Ha. rewrite Q in Ha. discriminate.
    + rewrite Q. reflexivity.
Qed.

End Read.
