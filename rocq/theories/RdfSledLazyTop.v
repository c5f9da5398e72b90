(** Copying an RdfTripleStore over sled onto another handle of the same database: what is seen
    at any moment and in the end. *)
From Coq Require Import Arith NArith List Bool Sorted Lia.
From Verif Require Import Bytes BytesFacts OMap OMapFacts Core IdType IdTypeFacts Store Mem Spec GenSpec
  CodecFacts ListFacts MemFacts MemSim History Prog ProgFacts Sled SledHistory SledDb
  SledOps SledBulk SledRun SledRead SledTop SledMain SledLeaf SledLeafFacts SledLazy SledLazyFacts SledLazyTop
  SledIndex SledIndexFacts Rdf RdfSpec RdfTop RdfSled RdfSledSpec RdfSledSafe RdfSledTop RdfSledRead RdfSledMain
  RdfSledLazy RdfSledLazyFacts.
Import ListNotations.

Section Top.
Context {S NP EP SE BE E : Type} (seqb : S -> S -> bool).
Context (cs : codec BE S) (cu : codec BE (Id KUlid)) (cn : codec BE NP) (ce : codec BE EP).
Context (mn : NP -> NP -> NP) (me : EP -> EP -> EP).
Context (seqb_eq : forall a b, seqb a b = true <-> a = b).
Context (Hcs : codec_ok cs) (Hcu : codec_ok cu) (Hcn : codec_ok cn) (Hce : codec_ok ce) (Htu : codec_total cu).
Notation I := (Id KUlid).
Notation T := (triple (Id KUlid)).
Notation ent := (entity S).
Notation err := (rdf_error S (sled_index_error S (Id KUlid) SE BE) (sled_error SE BE)).
Notation rho := (id_now (SE := SE) cs cu).
Notation nu := (name_now (SE := SE) cs cu).
Notation nod := (nod (k := KUlid) cn).
Notation gview := (SledDb.view (k := KUlid) ce).
Notation world := (RdfSledSafe.world cs cu cn ce).
Notation sabs d := (SledDb.sabs (k := KUlid) cn ce (r_trees d)).
Notation view := (RdfTop.view (S := S) (NP := NP) (EP := EP)).
Notation EG := (egraph S NP EP).
Notation rop := (rop S NP EP E).
Notation shows := (rs_shows SE cs cu cn ce).
Notation vertices_now d := (ret_of (rs_iter_vertices (SE := SE) cs cu cn) [] d).
Notation edges_now d := (ret_of (rs_iter_edges (SE := SE) cs cu ce SPO) [] d).
Notation repoch := (repoch (S := S) (NP := NP) (EP := EP) (SE := SE) (E := E)).
Notation epochs es d := (rs_epochs (SE := SE) (E := E) cs cu cn ce mn me es d).

(** The names are the same. *)
Definition same_names (d x : rdb) : Prop := (forall s, nu x s = nu d s) /\ (forall i, rho x i = rho d i).
Lemma names_same d x : r_names x = r_names d -> same_names d x.
Proof. intros H. split; intros; [unfold name_now|unfold id_now]; now rewrite H. Qed.

(** What is listed over the identifiers. *)
Lemma world_listed U d : world U d -> exists (ns : list (I * NP)) (es : list (T * EP)),
  map (vertex_val (SE := SE) cn) (t_node (r_trees d)) = map Ok ns /\
  map (edge_val (SE := SE) ce (r_trees d) SPO) (idx SPO (r_trees d)) = map Ok es /\
  vertices_now d = map Ok (map (pair_val (SE := SE) cs cu d) ns) /\
  edges_now d = map Ok (map (edge_val3 (SE := SE) cs cu d) es).
Proof.
  intros (Hok & Hf & _). destruct (fair_listed (SE := SE) cn ce U (r_trees d) Hf) as (ns & es & E1 & E2 & _).
  exists ns, es. split; auto. split; auto.
  rewrite (rqs_now _ _ _ (rqs_vertices (SE := SE) cs cu cn Hcs Htu never d Hok)).
  rewrite (rqs_now _ _ _ (rqs_edges (SE := SE) cs cu ce Hcs Htu never d SPO Hok)).
  assert (forall X Y (show : X -> Y) (v : bytes * bytes -> result (sled_error SE BE) X) l xs, map v l = map Ok xs ->
    map (entry_val (S := S) show v) l = map Ok (map show xs)) as H.
  { intros X Y show v l. induction l as [|kv l IH]; intros [|x xs] Q; simpl in *; try discriminate; auto.
    injection Q as Q1 Q2. f_equal; auto. unfold entry_val. now rewrite Q1. }
  split; now apply H.
Qed.

Definition ends_well (F : SE -> Prop) (Q : rdb -> Prop) (r : result (lr_error err err) unit) (x : rdb) : Prop :=
  match r with
  | Ok _ => Q x
  | Err (LeftE e) => is_fault F e \/ exists b, e = GraphStorageError (SerializationError b) /\
      ((exists p, ser cn p = Err b) \/ (exists p, ser ce p = Err b))
  | Err (RightE e) => is_fault F e
  end.
Lemma ends_ends F (Q Q' : rdb -> Prop) rh x : (Q x -> Q' x) -> rends cn ce F Q rh x -> ends_well F Q' (fst rh) x.
Proof.
  intros H. unfold rends, ends_well. destruct (fst rh) as [|[e|e]]; auto. intros [He|(y & Hy & ->)]; auto.
  unfold SledOps.blame in Hy. destruct y; try contradiction; [left|right]; eauto.
  exists e. auto.
Qed.

Definition near_self U d0 (eg : EG) (x : rdb) : Prop := r_names x = r_names d0 /\ world U x /\ g_equiv (sabs x) (sabs d0) /\ shows x eg.

(** One copy, from any database. *)
Lemma self_once F base d h (eg : EG) cuts cuts' :
  let m := length (edges_now d) in
  world base d -> NoDup (rself_keys m h) -> (forall x, In x (rself_keys m h) -> ~ base x) -> shows d eg ->
  wp F (near_self (plus_keys base (rself_keys m h)) d eg)
    (fun rh x => ends_well F (fun _ => True) (fst rh) x) (rs_extend_self cs cu cn ce cuts cuts' h) d.
Proof.
  intros m Hw Hnd Hb Hs. destruct (world_listed base d Hw) as (ns & es & E1 & E2 & E3 & E4).
  assert (m = length es) as Em by (unfold m; now rewrite E4, !map_length). clearbody m. subst m.
  pose proof (rwp_extend_self cs cu cn ce Hcs Hcu Hcn Hce Htu F base d Hw h ns es E1 E2 Hnd Hb cuts cuts') as W.
  pose proof (shows_view cs cu cn ce Hcs Hcu Htu base d eg Hw Hs) as V.
  pose proof (proj1 (proj2 Hw)) as Hf.
  pose proof (ns_in cn ce base (r_trees d) Hf ns E1) as Hn. pose proof (es_in cn ce base (r_trees d) Hf es E2) as He.
  eapply wp_mono; [| |exact W].
  - intros x (En & Wx & ns1 & ns2 & es1 & es2 & -> & -> & _ & Cn & Ce). split; auto. split; auto.
    assert (g_equiv (sabs x) (sabs d)) as Hg.
    { split; [intros i|intros t]; simpl.
      - apply (updated_id id_eq_dec _ _ _ Cn). intros j p Hin. apply Hn, in_app_iff. auto.
      - apply (updated_id triple_eq_dec _ _ _ (Ce SPO)). intros u e Hin. apply He, in_app_iff. auto. }
    split; auto. apply (world_shows (SE := SE) cs cu cn ce Hcs Htu _ x eg Wx).
    assert (rho x = rho d) as -> by (unfold id_now; now rewrite En).
    eapply view_equiv; [|exact V]. now apply g_equiv_sym.
  - intros rh x _. now apply ends_ends.
Qed.

(** How many edges there are does not change. *)
Lemma same_count U U' d x : world U d -> world U' x -> g_equiv (sabs x) (sabs d) -> length (edges_now x) = length (edges_now d).
Proof.
  intros W W' [_ Hg].
  assert (forall U d, world U d -> length (edges_now d) = length (now SE (s_iter_edges (k := KUlid) (BE := BE) ce SPO) (r_trees d))) as H.
  { intros V y Y. destruct (world_listed V y Y) as (ns & es & _ & E2 & _ & E4). rewrite E4.
    rewrite (rds_now (BE := BE) _ _ _ (rds_iter_edges ce never (r_trees y) SPO)). rewrite E2. now rewrite !map_length. }
  rewrite (H U d W), (H U' x W').
  eapply (lists_length (edge_lt SPO)); [apply edge_lt_irr|apply edge_lt_tr| |].
  - eapply lists_ext; [|apply (good_shows (SE := SE) cn ce U' (r_trees x) (proj2 W'))]. exact Hg.
  - apply (good_shows (SE := SE) cn ce U (r_trees d) (proj2 W)).
Qed.

Lemma self_many (tries : list (rself_try (SE := SE))) : forall base d (eg : EG),
  let m := length (edges_now d) in
  let keys := flat_map (fun f => rself_keys m (rf_handle f)) tries in
  world base d -> NoDup keys -> (forall x, In x keys -> ~ base x) -> shows d eg ->
  near_self (plus_keys base keys) d eg (rself_tries cs cu cn ce tries d).
Proof.
  induction tries as [|f tries IH]; intros base d eg m keys Hw Hnd Hb Hs; unfold keys, rself_tries in *; cbn [flat_map fold_left] in *.
  - split; auto. split; [eapply RdfSledSafe.world_mono; [|exact Hw]; intros x; left; auto|]. split; auto. apply g_equiv_refl.
  - apply NoDup_app_iff in Hnd. destruct Hnd as (N1 & N2 & N3).
    assert (forall x, In x (rself_keys m (rf_handle f)) -> ~ base x) as Hb1 by (intros x Hx; apply Hb, in_app_iff; auto).
    pose proof (self_once (fun _ => True) base d (rf_handle f) eg (rf_cuts f) (rf_cuts' f) Hw N1 Hb1 Hs) as W.
    pose proof (wp_crash _ _ _ _ (rf_dies f) (rf_faults f) d (allowed_all _) W) as (En & Hw' & Hg & Hs'). fold m in Hw'.
    set (x := crash (rf_dies f) _ _ d) in *.
    pose proof (same_count _ _ _ _ Hw Hw' Hg) as Em. fold m in Em.
    pose proof (IH (plus_keys base (rself_keys m (rf_handle f))) x eg) as H. cbv zeta in H. rewrite Em in H.
    destruct H as (H1 & H2 & H3 & H4); auto.
    { intros y Hy [Hy'|Hy']; [apply (Hb y); auto; apply in_app_iff; auto|now apply (N3 y)]. }
    split; [congruence|]. split.
    + eapply RdfSledSafe.world_mono; [|exact H2]. intros y [[Hy|Hy]|Hy]; [left; auto|right|right]; apply in_app_iff; auto.
    + split; auto. eapply g_equiv_trans; eauto.
Qed.

Theorem rextend_self_top : forall (es : list repoch) (tries : list (rself_try (SE := SE))) (h : rhandle) cuts cuts' faults n (eg : EG),
  let d := epochs es rdb_new in
  let m := length (edges_now d) in
  NoDup (flat_map epoch_keys es ++ flat_map (fun f => rself_keys m (rf_handle f)) tries ++ rself_keys m h) -> Forall calm es ->
  shows d eg ->
  let d1 := rself_tries cs cu cn ce tries d in
  let p := rs_extend_self (SE := SE) cs cu cn ce cuts cuts' h in
  (forall x, x = crash n p faults d1 \/ x = db_of p faults d1 ->
     shows x eg /\ (forall s, nu x s = nu d s) /\ (forall i, rho x i = rho d i)) /\
  match fst (ret_of p faults d1) with
  | Ok _ => True
  | Err (LeftE e) => faulty faults e \/ exists b, e = GraphStorageError (SerializationError b) /\
      ((exists p, ser cn p = Err b) \/ (exists p, ser ce p = Err b))
  | Err (RightE e) => faulty faults e
  end.
Proof.
  intros es tries h cuts cuts' faults n eg d m Hnd Hc Hs d1 p.
  apply NoDup_app_iff in Hnd. destruct Hnd as (N1 & N2 & N3).
  apply NoDup_app_iff in N2. destruct N2 as (N4 & N5 & N6).
  destruct (epochs_world (SE := SE) seqb cs cu cn ce mn me seqb_eq Hcs Hcu Hcn Hce es N1 Hc) as (Hw & _). fold d in Hw.
  set (base := plus_keys _ (flat_map epoch_keys es)) in Hw.
  assert (forall x, base x -> In x (flat_map epoch_keys es)) as Hbl by (intros x [[]|Hx]; auto).
  destruct (self_many tries base d eg Hw N4) as (En & Hw1 & Hg1 & Hs1); auto.
  { intros x Hx Hy. apply (N3 x); [now apply Hbl|]. apply in_app_iff. auto. }
  fold m in Hw1. fold d1 in En, Hw1, Hg1, Hs1.
  pose proof (same_count _ _ _ _ Hw Hw1 Hg1) as Em. fold m in Em.
  pose proof (fun F => self_once F _ d1 h eg cuts cuts' Hw1) as W. cbv zeta in W. rewrite Em in W.
  assert (forall F, wp F (near_self (plus_keys (plus_keys base (flat_map (fun f => rself_keys m (rf_handle f)) tries)) (rself_keys m h)) d1 eg)
    (fun rh x => ends_well F (fun _ => True) (fst rh) x) p d1) as W'.
  { intros F. apply W; auto. intros x Hx [Hy|Hy].
    - apply (N3 x); [now apply Hbl|]. apply in_app_iff. auto.
    - now apply (N6 x). }
  clear W. split.
  - assert (forall U x, near_self U d1 eg x -> shows x eg /\ (forall s, nu x s = nu d s) /\ (forall i, rho x i = rho d i)) as H.
    { intros U x (Ex & _ & _ & Hx). split; auto. apply names_same. congruence. }
    intros x [->| ->]; eapply H.
    + apply (wp_crash _ _ _ _ n faults d1 (allowed_all _) (W' (fun _ => True))).
    + apply (wp_exec _ _ _ _ faults d1 (allowed_all _) (W' (fun _ => True))).
  - apply (wp_exec (fun x => In (Some x) faults) _ _ _ faults d1 (fun _ H => H) (W' _)).
Qed.

(** ** merge *)
Definition rmerge_nodes (ns : list (ent * NP)) : list rop := map (fun ip => RMergeNode (fst ip) (snd ip)) ns.
Definition rmerge_edges (es : list (triple ent * EP)) : list rop := map (fun te => RMergeEdge (fst te) (snd te)) es.

Lemma shown_twice (r2l : I -> option S) i : by_name r2l (shown r2l i) = shown r2l i.
Proof. unfold shown. destruct (r2l i) eqn:Q; simpl; auto. unfold shown. now rewrite Q. Qed.

Lemma view_doubled d ns1 es1 : forall g eg, one_to_one (nu d) (rho d) -> view (rho d) g eg ->
  view (rho d) (spec_history (E := E) mn me (merge_nodes ns1 ++ merge_edges es1) g)
    (e_run seqb mn me (by_name (rho d)) [] (rmerge_nodes (map (pair_val (SE := SE) cs cu d) ns1) ++
                                           rmerge_edges (map (edge_val3 (SE := SE) cs cu d) es1)) eg).
Proof.
  intros g eg One V. unfold spec_history, e_run. rewrite !fold_left_app.
  assert (view (rho d) (fold_left (fun g o => spec_apply mn me o g) (merge_nodes (E := E) ns1) g)
    (fold_left (fun g o => e_apply seqb mn me (by_name (rho d)) [] o g) (rmerge_nodes (map (pair_val (SE := SE) cs cu d) ns1)) eg)) as V1.
  { revert g eg V. induction ns1 as [|[i p] ns1 IH]; intros g eg V; auto. simpl. apply IH.
    rewrite shown_twice. now apply (view_merge_node seqb seqb_eq mn (nu d) (rho d) One). }
  revert V1. generalize (fold_left (fun g o => spec_apply mn me o g) (merge_nodes (E := E) ns1) g).
  generalize (fold_left (fun g o => e_apply seqb mn me (by_name (rho d)) [] o g) (rmerge_nodes (map (pair_val (SE := SE) cs cu d) ns1)) eg).
  clear V g eg. induction es1 as [|[t p] es1 IH]; intros eg g V; auto. simpl. apply IH.
  replace (triple_map (by_name (rho d)) (triple_map (shown (rho d)) t)) with (triple_map (shown (rho d)) t)
    by (destruct t; unfold triple_map; simpl; now rewrite !shown_twice).
  now apply (view_merge_edge seqb seqb_eq me (nu d) (rho d) One).
Qed.

Lemma merge_once F base d h (eg : EG) cuts cuts' : world base d ->
  let m := length (edges_now d) in
  NoDup (rself_keys m h) -> (forall x, In x (rself_keys m h) -> ~ base x) -> shows d eg ->
  exists ns es, vertices_now d = map Ok ns /\ edges_now d = map Ok es /\
  wp F (fun x => same_names d x /\ exists ns1 ns2 es1 es2, ns = ns1 ++ ns2 /\ es = es1 ++ es2 /\ (es1 = [] \/ ns2 = []) /\
          shows x (e_run seqb mn me (by_name (rho d)) [] (rmerge_nodes ns1 ++ rmerge_edges es1) eg))
    (fun rh x => ends_well F (fun x => forall eg' : EG,
        (forall e, e_node eg' e = option_map (fun p => mn p p) (e_node eg e)) ->
        (forall t, e_edge eg' t = option_map (fun p => me p p) (e_edge eg t)) -> shows x eg') (fst rh) x)
    (rs_merge_self cs cu cn ce mn me cuts cuts' h) d.
Proof.
  intros Hw m Hnd Hb Hs. destruct (world_listed base d Hw) as (ns & es & E1 & E2 & E3 & E4).
  assert (m = length es) as Em by (unfold m; now rewrite E4, !map_length). clearbody m. subst m.
  exists (map (pair_val (SE := SE) cs cu d) ns), (map (edge_val3 (SE := SE) cs cu d) es). split; auto. split; auto.
  pose proof (rwp_merge_self cs cu cn ce Hcs Hcu Hcn Hce Htu F base d Hw h ns es E1 E2 Hnd Hb mn me cuts cuts') as W.
  pose proof (shows_view cs cu cn ce Hcs Hcu Htu base d eg Hw Hs) as V.
  pose proof (one_now (SE := SE) cs cu Hcs Hcu d (proj1 Hw)) as One.
  pose proof (proj1 (proj2 Hw)) as Hf.
  pose proof (ns_in cn ce base (r_trees d) Hf ns E1) as Hn. pose proof (es_in cn ce base (r_trees d) Hf es E2) as He.
  pose proof (ns_nodup cn ce base (r_trees d) Hf ns E1) as Dn. pose proof (es_nodup cn ce base (r_trees d) Hf es E2) as De.
  eapply wp_mono; [| |exact W].
  - intros x (En & Wx & ns1 & ns2 & es1 & es2 & -> & -> & Ho & Cn & Ce). split; [now apply names_same|].
    exists (map (pair_val (SE := SE) cs cu d) ns1), (map (pair_val (SE := SE) cs cu d) ns2),
      (map (edge_val3 (SE := SE) cs cu d) es1), (map (edge_val3 (SE := SE) cs cu d) es2).
    split; [apply map_app|]. split; [apply map_app|]. split; [destruct Ho as [->| ->]; auto|].
    apply (world_shows (SE := SE) cs cu cn ce Hcs Htu _ x _ Wx).
    assert (rho x = rho d) as -> by (unfold id_now; now rewrite En).
    eapply view_equiv; [|apply (view_doubled d ns1 es1 _ _ One V)].
    apply in_prefix in Dn. apply in_prefix in De.
    destruct (doubled_nodes mn me (E := E) (sabs d) ns1 Dn) as [G1 G2].
    { intros i p Hin. simpl. apply Hn, in_app_iff. auto. }
    unfold spec_history in *. rewrite fold_left_app.
    set (g1 := fold_left _ (merge_nodes ns1) (sabs d)) in *.
    assert (forall t e, In (t, e) es1 -> g_edge (sabs d) t = Some e) as He1 by (intros t e Hin; simpl; apply He, in_app_iff; auto).
    destruct (doubled_edges mn me (E := E) g1 es1 De) as [G3 G4]; [intros t e Hin; rewrite G2; auto|].
    unfold spec_history in *. set (g2 := fold_left _ (merge_edges es1) g1) in *.
    split; [intros i|intros t]; symmetry.
    + rewrite G4. apply (updated_same id_eq_dec _ _ _ _ _ Cn). exact G1.
    + apply (updated_same triple_eq_dec _ _ _ _ _ (Ce SPO)). destruct G3 as [A B]. split; auto. intros u Hu. rewrite B by auto. apply G2.
  - intros rh x (En & Wx & _). apply ends_ends. intros [[Cn1 Cn2] Ce] eg' Gn Ge.
    apply (world_shows (SE := SE) cs cu cn ce Hcs Htu _ x _ Wx).
    assert (rho x = rho d) as -> by (unfold id_now; now rewrite En).
    destruct V as [V1 V2]. destruct (Ce SPO) as [Ce1 Ce2].
    assert (forall i, nod (r_trees x) i = option_map (fun p => mn p p) (nod (r_trees d) i)) as Xn.
    { intros i. destruct (nod (r_trees d) i) as [p|] eqn:Q; simpl; [apply Cn1; now apply Hn|].
      rewrite Cn2; auto. intros Hin. apply in_map_iff in Hin. destruct Hin as ([j p] & Ej & Hin). cbn [fst] in Ej. subst j.
      apply Hn in Hin. congruence. }
    assert (forall t, gview SPO (r_trees x) t = option_map (fun p => me p p) (gview SPO (r_trees d) t)) as Xe.
    { intros i. destruct (gview SPO (r_trees d) i) as [p|] eqn:Q; simpl; [apply Ce1; now apply He|].
      rewrite Ce2; auto. intros Hin. apply in_map_iff in Hin. destruct Hin as ([j p] & Ej & Hin). cbn [fst] in Ej. subst j.
      apply He in Hin. congruence. }
    split.
    + intros e p. rewrite Gn. simpl. split.
      * destruct (e_node eg e) as [q|] eqn:Q; [|discriminate]. simpl. intros [= <-]. apply V1 in Q. destruct Q as (i & -> & Hi).
        exists i. split; auto. rewrite Xn. simpl in Hi. now rewrite Hi.
      * intros (i & -> & Hi). rewrite Xn in Hi. destruct (nod (r_trees d) i) as [q|] eqn:Q; [|discriminate].
        assert (e_node eg (shown (rho d) i) = Some q) as -> by (apply V1; exists i; auto). exact Hi.
    + intros e p. rewrite Ge. simpl. split.
      * destruct (e_edge eg e) as [q|] eqn:Q; [|discriminate]. simpl. intros [= <-]. apply V2 in Q. destruct Q as (i & -> & Hi).
        exists i. split; auto. rewrite Xe. simpl in Hi. now rewrite Hi.
      * intros (i & -> & Hi). rewrite Xe in Hi. destruct (gview SPO (r_trees d) i) as [q|] eqn:Q; [|discriminate].
        match goal with |- context [e_edge eg ?t] => assert (e_edge eg t = Some q) as -> by (apply V2; exists i; auto) end. exact Hi.
Qed.

Theorem rmerge_self_top : forall (es : list repoch) (h : rhandle) cuts cuts' faults n (eg : EG),
  let d := epochs es rdb_new in
  NoDup (flat_map epoch_keys es ++ rself_keys (length (edges_now d)) h) -> Forall calm es ->
  shows d eg ->
  let p := rs_merge_self (SE := SE) cs cu cn ce mn me cuts cuts' h in
  exists ns es', vertices_now d = map Ok ns /\ edges_now d = map Ok es' /\
  (forall x, x = crash n p faults d \/ x = db_of p faults d ->
     (forall s, nu x s = nu d s) /\ (forall i, rho x i = rho d i) /\
     exists ns1 ns2 es1 es2, ns = ns1 ++ ns2 /\ es' = es1 ++ es2 /\ (es1 = [] \/ ns2 = []) /\
       shows x (e_run (E := E) seqb mn me (by_name (rho d)) []
         (map (fun ip => RMergeNode (fst ip) (snd ip)) ns1 ++ map (fun te => RMergeEdge (fst te) (snd te)) es1) eg)) /\
  match fst (ret_of p faults d) with
  | Ok _ => forall eg' : EG,
      (forall e, e_node eg' e = option_map (fun p => mn p p) (e_node eg e)) ->
      (forall t, e_edge eg' t = option_map (fun p => me p p) (e_edge eg t)) -> shows (db_of p faults d) eg'
  | Err (LeftE e) => faulty faults e \/ exists b, e = GraphStorageError (SerializationError b) /\
      ((exists p, ser cn p = Err b) \/ (exists p, ser ce p = Err b))
  | Err (RightE e) => faulty faults e
  end.
Proof.
  intros es h cuts cuts' faults n eg d Hnd Hc Hs p.
  apply NoDup_app_iff in Hnd. destruct Hnd as (N1 & N2 & N3).
  destruct (epochs_world (SE := SE) seqb cs cu cn ce mn me seqb_eq Hcs Hcu Hcn Hce es N1 Hc) as (Hw & _). fold d in Hw.
  set (base := plus_keys _ (flat_map epoch_keys es)) in Hw.
  assert (forall x, In x (rself_keys (length (edges_now d)) h) -> ~ base x) as Hb by (intros x Hx [[]|Hy]; now apply (N3 x)).
  destruct (merge_once (fun x => In (Some x) faults) base d h eg cuts cuts' Hw N2 Hb Hs) as (ns & es' & E1 & E2 & W).
  exists ns, es'. split; auto. split; auto.
  assert (forall x, x = crash n p faults d \/ x = db_of p faults d -> same_names d x /\
    exists ns1 ns2 es1 es2, ns = ns1 ++ ns2 /\ es' = es1 ++ es2 /\ (es1 = [] \/ ns2 = []) /\
          shows x (e_run seqb mn me (by_name (rho d)) [] (rmerge_nodes ns1 ++ rmerge_edges es1) eg)) as H.
  { intros x [->| ->].
    - apply (wp_crash _ _ _ _ n faults d (fun _ H => H) W).
    - apply (wp_exec _ _ _ _ faults d (fun _ H => H) W). }
  split.
  - intros x Hx. destruct (H x Hx) as ([A B] & C). auto.
  - apply (wp_exec _ _ _ _ faults d (fun _ H => H) W).
Qed.
End Top.
