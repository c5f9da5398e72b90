(** Copying an RdfTripleStore over sled onto another handle of the same database. *)
From Coq Require Import Arith NArith List Bool Sorted Lia.
From Verif Require Import Bytes BytesFacts OMap OMapFacts Core IdType IdTypeFacts Store Mem Spec
  CodecFacts ListFacts MemFacts MemSim History Prog ProgFacts Sled SledHistory SledDb
  SledOps SledBulk SledRun SledRead SledTop SledMain SledLeaf SledLeafFacts SledLazy SledLazyFacts SledLazyTop
  SledIndex SledIndexFacts Rdf RdfSpec RdfTop RdfSled RdfSledSpec RdfSledSafe RdfSledTop RdfSledRead RdfSledLazy.
Import ListNotations.

Section Facts.
Context {S NP EP SE BE : Type}.
Context (cs : codec BE S) (cu : codec BE (Id KUlid)) (cn : codec BE NP) (ce : codec BE EP).
Context (Hcs : codec_ok cs) (Hcu : codec_ok cu) (Hcn : codec_ok cn) (Hce : codec_ok ce) (Htu : codec_total cu).
Notation I := (Id KUlid).
Notation T := (triple (Id KUlid)).
Notation ent := (entity S).
Notation gerr := (sled_error SE BE).
Notation err := (rdf_error S (sled_index_error S (Id KUlid) SE BE) (sled_error SE BE)).
Notation PH A := (prog rdb SE (result err A * rhandle)).
Notation rho := (id_now (SE := SE) cs cu).
Notation nu := (name_now (SE := SE) cs cu).
Notation gfair := (fair (k := KUlid) cn ce).
Notation gagree := (indexes_agree (k := KUlid)).
Notation nod := (nod (k := KUlid) cn).
Notation view := (SledDb.view (k := KUlid) ce).
Notation blame := (SledOps.blame (SE := SE) cn ce).
Notation world := (RdfSledSafe.world cs cu cn ce).
Let BC := bytes_cmp_ok.

(** ** Identifiers that are there *)
Definition known {A} (F : SE -> Prop) (h : rhandle) (a : A) (rh : result err A * rhandle) : Prop :=
  snd rh = h /\ (fst rh = Ok a \/ exists e, is_fault F e /\ fst rh = Err e).

Lemma wp_known F (d : rdb) i h : index_ok cs cu (r_names d) ->
  wp F (fun x => x = d) (fun rh _ => known F h i rh) (rs_lookup_or_create (SE := SE) cs cu (shown (rho d) i) h) d.
Proof.
  intros Hok. unfold shown. destruct (rho d i) as [s|] eqn:Hs; cbn [rs_lookup_or_create].
  2: { split; auto. split; auto. }
  apply (one_now (SE := SE) cs cu Hcs Hcu d Hok) in Hs. apply (nu_some (SE := SE) cs cu) in Hs.
  unfold left_now, si_left_to_right in Hs. unfold si_left_to_right.
  destruct (ser cs s) as [lb|b]; [|discriminate]. unfold ret_of in Hs. simpl in Hs.
  simpl. rewrite db_same. split; auto. split.
  - rewrite Hs. split; auto. split; auto.
  - intros y Hy. split; auto. split; auto. right. simpl. eexists. split; eauto. exists y. auto.
Qed.

Lemma wp_bind_known {A B} F d h a (p : PH A) (f : A -> rhandle -> PH B) (R : rdb -> Prop) (Q : result err B * rhandle -> rdb -> Prop) :
  wp F (fun x => x = d) (fun rh _ => known F h a rh) p d -> R d ->
  (forall e, is_fault F e -> Q (Err e, h) d) -> wp F R Q (f a h) d -> wp F R Q (bind_h p f) d.
Proof.
  intros H HR He Hf. unfold bind_h. apply wp_bind. eapply wp_mono; [| |exact H].
  - intros x ->. exact HR.
  - intros [r h'] x -> [E [Er|(e & Hfe & Er)]]; cbn [fst snd] in *; subst; auto. split; auto.
Qed.

Lemma wp_known3 F (d : rdb) t h : index_ok cs cu (r_names d) ->
  wp F (fun x => x = d) (fun rh _ => known F h t rh) (rs_create3 (SE := SE) cs cu (triple_map (shown (rho d)) t) h) d.
Proof.
  intros Hok. unfold rs_create3. cbn [triple_map sub pred obj].
  assert (forall e, is_fault F e -> known F h t (Err e, h)) as He by (intros e He; split; auto; right; eauto).
  eapply wp_bind_known; [now apply wp_known|reflexivity|exact He|].
  eapply wp_bind_known; [now apply wp_known|reflexivity|exact He|].
  eapply wp_bind_known; [now apply wp_known|reflexivity|exact He|].
  split; auto. split; auto. left. now destruct t.
Qed.

(** Why a call fails. *)
Definition rblame (F : SE -> Prop) (e : err) : Prop :=
  is_fault F e \/ exists x, blame F x /\ e = GraphStorageError x.

Lemma wp_graph_call F (d : rdb) h (R : rdb -> Prop) (Q : result err unit * rhandle -> rdb -> Prop)
    (f : handle KUlid -> prog db SE (result gerr unit * handle KUlid)) :
  wp F (fun y => R (RDb (r_names d) y))
    (fun rh y => Q (from_graph (fst rh), RHandle (snd rh) (rh_ulids h)) (RDb (r_names d) y)) (f (rh_graph h)) (r_trees d) ->
  wp F R Q (graph_call f h) d.
Proof.
  intros H. unfold graph_call. apply wp_bind. apply wp_on_graph. eapply wp_mono; [| |exact H]; auto.
  intros [r g] y HR HQ. cbn [fst snd] in *. split; auto.
Qed.

(** ** One element *)
Section One.
Context (F : SE -> Prop).

Lemma wp_insert_node_at U (i : I) p d : gfair U d ->
  wp F (fun x => x = d \/ exists b, de cn b = Ok p /\ x = d_put_node i b d)
    (fun r x => match r with
       | Ok _ => exists b, de cn b = Ok p /\ x = d_put_node i b d
       | Err e => blame F e
       end) (s_insert_node cn i p : prog db SE (result gerr unit)) d.
Proof. apply (wp_extend_node_at cn ce Hcn F U i p d). Qed.

Lemma wp_insert_edge_at (t : T) e h (d : db) :
  wp F (fun x => x = d \/ exists b, de ce b = Ok e /\ x = d_put_edge t (next_key h) b d)
    (fun rh x => match fst rh with
       | Ok _ => snd rh = step_gen h /\ exists b, de ce b = Ok e /\ x = d_put_edge t (next_key h) b d
       | Err e => blame F e
       end) (s_insert_edge ce t e h : prog db SE (result gerr unit * handle KUlid)) d.
Proof.
  unfold s_insert_edge, draw, fresh.
  eapply (wp_mono F (fun x => x = d \/ exists b, de ce b = Ok e /\ x = d_put_edge t (next_key h) b d) _
    (with_h (step_gen h) (fun v x => match v with
       | Ok _ => exists b, de ce b = Ok e /\ x = d_put_edge t (next_key h) b d
       | Err e => blame F e
       end))); [auto| |].
  { intros [v h'] x _ [Eh Hx]. cbn [fst snd] in *. destruct v as [[]|]; auto. }
  apply wp_and_handle. apply wp_bind_ok. apply wp_bincode; auto.
  destruct (ser ce e) as [b|be] eqn:Hs; [|split; simpl; eauto].
  pose proof (Hce _ _ Hs) as Hb. apply wp_bind_ok. apply wp_transaction; auto.
  fold (next_key h). rewrite insert_edge_txn_eq. split; [right; eauto|]. simpl. split; eauto.
Qed.
End One.

(** ** The loops *)
Section Loops.
Context (F : SE -> Prop) (base : bytes -> Prop) (D0 : rdb) (Hw : world base D0) (h0 : rhandle).
Context (ns : list (I * NP)) (es : list (T * EP)).
Context (Hns : map (vertex_val (SE := SE) cn) (t_node (r_trees D0)) = map Ok ns)
        (Hes : map (edge_val (SE := SE) ce (r_trees D0) SPO) (idx SPO (r_trees D0)) = map Ok es).

Let Hok : index_ok cs cu (r_names D0) := proj1 Hw.
Let Hd0 : gfair base (r_trees D0) := proj1 (proj2 Hw).

Lemma same_rho (d : rdb) : r_names d = r_names D0 -> rho d = rho D0.
Proof. intros H. unfold id_now. now rewrite H. Qed.

(** *** The nodes *)
Section Nodes.
Context (R : rdb -> Prop).
Context (fn : NP -> NP) (nbody : I -> NP -> prog db SE (result gerr unit)).
Context (Hbody : forall d i p, gfair base d -> nod d i = Some p ->
  wp F (fun x => x = d \/ exists b, de cn b = Ok (fn p) /\ x = d_put_node i b d)
    (fun r x => match r with
       | Ok _ => exists b, de cn b = Ok (fn p) /\ x = d_put_node i b d
       | Err e => blame F e
       end) (nbody i p) d).

Definition RJn (dn td : list (I * NP)) (h' : rhandle) (d : rdb) : Prop :=
  r_names d = r_names D0 /\ h' = h0 /\
  Jn cn ce base (r_trees D0) ns fn (rh_graph h0) dn td (rh_graph h0) (r_trees d).

Context (HR : forall dn td h' d, RJn dn td h' d -> R d).

Lemma rwp_nodes cuts : wp F R (loop_end (rblame F) (is_fault F) ns RJn)
  (loop_from (fun d => t_node (r_trees d)) (shown_item (node_item cn) (rs_show_pair cs cu))
     (fun ip h => bind_h (rs_lookup_or_create cs cu (fst ip) h) (fun id => graph_call (fun g => and_handle g (nbody id (snd ip)))))
     None cuts h0) D0.
Proof.
  pose proof (ns_nodup cn ce base (r_trees D0) Hd0 ns Hns) as ND.
  apply (wp_loop F R (rblame F) (is_fault F) (fun d => t_node (r_trees d)) (shown_item (node_item cn) (rs_show_pair cs cu)) _
    nkey (pair_val (SE := SE) cs cu D0) ns RJn).
  - exact HR.
  - intros dn td h' d (_ & _ & HJ). apply HJ.
  - intros dn td h' d (_ & _ & _ & _ & F1 & _). apply (fn_sorted cn _ (proj1 F1)).
  - intros dn [i p] td h' d r (En & -> & E & _ & F1 & Hu & _) Hin. unfold nkey in *. cbn [fst] in *.
    assert (nod (r_trees d) i = Some p) as Hn.
    { rewrite (updated_rest _ _ _ _ _ _ _ Hu (eq_ind_r (fun l => NoDup (map fst l)) ND E)).
      apply (ns_in cn ce base (r_trees D0) Hd0 ns Hns). rewrite <- E, in_app_iff. simpl. auto. }
    destruct (nod_some cn (r_trees d) i r (proj1 F1)) as (q & Hq & Hn').
    { apply (get_iff_in BC); auto. apply (fn_sorted cn _ (proj1 F1)). }
    assert (q = p) by congruence. subst q.
    assert (rq F d (shown_item (node_item cn) (rs_show_pair cs cu) (to_be_bytes i, r)) (Ok (pair_val (SE := SE) cs cu D0 (i, p)))) as H.
    { eapply rq_eq; [apply (rq_shown (S := S) F d (node_item cn) (rs_show_pair cs cu) (to_be_bytes i, r) (Ok (i, p))
        (fun a => Ok (pair_val (SE := SE) cs cu d a)))|].
      - unfold node_item. eapply rd_eq; [apply rd_bind; [apply rd_ret|]; intros j _;
          apply rd_bind; [apply rd_bincode|]; intros v _; apply rd_ret|].
        unfold decode_id. cbn [fst snd]. rewrite try_from_to_be_bytes, Hq. reflexivity.
      - intros a _. apply rq_show_pair; auto. now rewrite En.
      - simpl. unfold pair_val. now rewrite (same_rho d En). }
    eapply wp_mono; [| |exact H]; auto.
  - intros dn [i p] td h' d HJ HL. pose proof HJ as (En & -> & HJg). pose proof HJg as (E & _ & F1 & Hu & Ht & Hk).
    assert (nod (r_trees d) i = Some p) as Hn.
    { rewrite (updated_rest _ _ _ _ _ _ _ Hu (eq_ind_r (fun l => NoDup (map fst l)) ND E)).
      apply (ns_in cn ce base (r_trees D0) Hd0 ns Hns). rewrite <- E, in_app_iff. simpl. auto. }
    cbn [pair_val fst snd]. rewrite <- (same_rho d En).
    eapply wp_bind_known; [apply wp_known; now rewrite En|exact (HR _ _ _ _ HJ)| |].
    { intros e He. cbn [fst]. left. exact He. }
    assert (forall b, de cn b = Ok (fn p) -> RJn (dn ++ [(i, p)]) td h0 (RDb (r_names d) (d_put_node i b (r_trees d)))) as Hput.
    { intros b Hb. split; auto. split; auto.
      apply (put_node_J cn ce base (r_trees D0) Hd0 ns Hns fn (rh_graph h0) dn i p td (r_trees d) b HJg Hb). }
    apply wp_graph_call. eapply wp_mono; [| |apply wp_and_handle, (Hbody (r_trees d) i p F1 Hn)].
    + intros x [->|(b & Hb & ->)]; [rewrite db_same; exact (HR _ _ _ _ HJ)|]. exact (HR _ _ _ _ (Hput b Hb)).
    + intros [r h'] x _ [Eh Hr]. cbn [fst snd] in *. subst h'. destruct r as [[]|e]; cbn [from_graph].
      2: { right. eauto. }
      destruct Hr as (b & Hb & ->). replace (RHandle (rh_graph h0) (rh_ulids h0)) with h0 by (now destruct h0).
      split; [now apply Hput|].
      intros [j q] r Hj Hin. unfold nkey in *. cbn [fst r_trees] in *.
      unfold d_put_node. simpl. apply (in_insert_iff BC); [apply (fn_sorted cn _ (proj1 F1))|]. right. split; auto.
      intros Ej. apply (to_be_bytes_inj (k := KUlid)) in Ej. subst j.
      rewrite <- E, map_app in ND. simpl in ND. apply NoDup_remove_2 in ND.
      apply ND. rewrite in_app_iff. right. apply (in_map fst) in Hj. exact Hj.
  - split; auto. split; auto. split; auto. split; auto. split; auto. split; [apply updated_nil; auto|]. split; auto.
    eapply ns_keys; eauto.
Qed.
End Nodes.

(** *** The edges *)
Section Edges.
Context (R : rdb -> Prop).
Context (fe : EP -> EP) (hs : nat -> handle KUlid) (us : nat -> bytes -> Prop) (N : I -> option NP).
Context (ebody : T -> EP -> handle KUlid -> prog db SE (result gerr unit * handle KUlid)).
Context (wrote : nat -> T -> EP -> db -> db -> Prop).

Definition GJe (dn td : list (T * EP)) (g : handle KUlid) (d : db) : Prop :=
  gagree d /\ Je cn ce (r_trees D0) es fe hs us N dn td g d.
Definition RJe (dn td : list (T * EP)) (h' : rhandle) (d : rdb) : Prop :=
  r_names d = r_names D0 /\ rh_ulids h' = rh_ulids h0 /\ GJe dn td (rh_graph h') (r_trees d).

Context (Hbody : forall c d t e, c < length es -> gfair (us c) d -> view SPO d t = Some e ->
  wp F (fun x => x = d \/ wrote c t e d x)
    (fun rh x => match fst rh with
       | Ok _ => snd rh = hs (Datatypes.S c) /\ wrote c t e d x
       | Err e => blame F e
       end) (ebody t e (hs c)) d).
Context (Hwrote : forall dn t e td g d x, GJe dn ((t, e) :: td) g d -> wrote (length dn) t e d x ->
  GJe (dn ++ [(t, e)]) td (hs (Datatypes.S (length dn))) x /\ exists r, idx SPO x = binsert (enc SPO t) r (idx SPO d)).
Context (HR : forall dn td h' d, RJe dn td h' d -> R d).

Lemma rwp_edges cuts h d : RJe [] es h d -> wp F R (loop_end (rblame F) (is_fault F) es RJe)
  (loop_from (fun d => t_spo (r_trees d)) (shown_item (into_edge_of_entry ce SPO) (rs_show_edge cs cu))
     (fun te h => bind_h (rs_create3 cs cu (fst te) h) (fun t => graph_call (ebody t (snd te)))) None cuts h) d.
Proof.
  apply (wp_loop F R (rblame F) (is_fault F) (fun d => t_spo (r_trees d)) (shown_item (into_edge_of_entry ce SPO) (rs_show_edge cs cu)) _
    ekey (edge_val3 (SE := SE) cs cu D0) es RJe).
  - exact HR.
  - intros dn td h' x (_ & _ & _ & HJ). apply HJ.
  - intros dn td h' x (_ & _ & _ & _ & _ & F1 & _). apply (fe_isorted ce _ _ (proj2 F1) SPO).
  - intros dn [t e] td h' x r (En & Eh & Ag & HJ) Hin.
    pose proof (Je_view cn ce base (r_trees D0) Hd0 es Hes _ _ _ _ _ _ _ _ _ _ HJ) as Hv.
    unfold ekey in *. cbn [fst] in *. destruct HJ as (_ & _ & F1 & _).
    destruct (edge_entry (SE := SE) ce _ (r_trees x) SPO _ _ (proj2 F1) Hin) as (u & e' & Eu & Hr & He & Hval).
    apply (enc_inj SPO) in Eu. subst u. unfold SledDb.view in Hv. rewrite Hr, He in Hv. injection Hv as ->.
    assert (rq F x (shown_item (into_edge_of_entry ce SPO) (rs_show_edge cs cu) (enc SPO t, r)) (Ok (edge_val3 (SE := SE) cs cu D0 (t, e)))) as H.
    { eapply rq_eq; [apply (rq_shown (S := S) F x (into_edge_of_entry ce SPO) (rs_show_edge cs cu) (enc SPO t, r) (Ok (t, e))
        (fun a => Ok (edge_val3 (SE := SE) cs cu x a)))|].
      - eapply rd_eq; [apply (edge_read_val (k := KUlid) ce F (r_trees x) (enc SPO t, r))|]. exact Hval.
      - intros a _. apply rq_show_edge; auto. now rewrite En.
      - simpl. unfold edge_val3. now rewrite (same_rho x En). }
    eapply wp_mono; [| |exact H]; auto.
  - intros dn [t e] td h' x HJ HL. pose proof HJ as (En & Eh & Ag & HJg).
    pose proof (Je_view cn ce base (r_trees D0) Hd0 es Hes _ _ _ _ _ _ _ _ _ _ HJg) as Hv.
    pose proof HJg as (E & Ehs & F1 & Hu & Hn & Hk).
    cbn [edge_val3 fst snd]. rewrite <- (same_rho x En).
    eapply wp_bind_known; [apply wp_known3; now rewrite En|exact (HR _ _ _ _ HJ)| |].
    { intros y Hy. cbn [fst]. left. exact Hy. }
    assert (forall y, wrote (length dn) t e (r_trees x) y ->
      RJe (dn ++ [(t, e)]) td (RHandle (hs (Datatypes.S (length dn))) (rh_ulids h')) (RDb (r_names x) y)) as Hput.
    { intros y Hy. split; auto. split; auto. apply (Hwrote _ _ _ _ _ _ _ (conj Ag HJg) Hy). }
    apply wp_graph_call. rewrite Ehs. eapply wp_mono; [| |apply (Hbody (length dn) (r_trees x) t e)]; auto.
    + intros y [->|Hy]; [rewrite db_same; exact (HR _ _ _ _ HJ)|]. exact (HR _ _ _ _ (Hput y Hy)).
    + intros [v g] y _ Hr. cbn [fst snd] in *. destruct v as [[]|er]; cbn [from_graph].
      2: { right. eauto. }
      destruct Hr as (-> & Hy). split; [now apply Hput|].
      intros [u e'] r' Hin Hi. unfold ekey in *. cbn [fst r_trees] in *.
      destruct (es_apart cn ce (fun _ => True) base (r_trees D0) Hd0 es Hes fe _ _ _ _ E) as [_ N2].
      assert (u <> t) as Nu by (intros ->; apply N2; apply (in_map fst) in Hin; exact Hin).
      destruct (Hwrote _ _ _ _ _ _ _ (conj Ag HJg) Hy) as (_ & r & Ei). change (t_spo y) with (idx SPO y). rewrite Ei.
      apply (in_insert_iff BC); [apply (fe_isorted ce _ _ (proj2 F1) SPO)|]. right. split; auto.
      intros Eu. now apply (enc_inj SPO) in Eu.
    + rewrite <- E, app_length. simpl. lia.
Qed.
End Edges.

(** *** Both *)
Definition rends (Q : rdb -> Prop) (rh : result (lr_error err err) unit * rhandle) (x : rdb) : Prop :=
  match fst rh with
  | Ok _ => Q x
  | Err (LeftE e) => rblame F e
  | Err (RightE e) => is_fault F e
  end.

Lemma rwp_both (R Q : rdb -> Prop) (fn : NP -> NP) (fe : EP -> EP) (nbody : I -> NP -> prog db SE (result gerr unit))
    (ebody : T -> EP -> handle KUlid -> prog db SE (result gerr unit * handle KUlid)) (hs : nat -> handle KUlid) (us : nat -> bytes -> Prop)
    (wrote : nat -> T -> EP -> db -> db -> Prop) (cuts cuts' : list bytes) :
  (forall d i p, gfair base d -> nod d i = Some p ->
     wp F (fun x => x = d \/ exists b, de cn b = Ok (fn p) /\ x = d_put_node i b d)
       (fun r x => match r with
          | Ok _ => exists b, de cn b = Ok (fn p) /\ x = d_put_node i b d
          | Err e => blame F e
          end) (nbody i p) d) ->
  (forall c d t e, c < length es -> gfair (us c) d -> view SPO d t = Some e ->
     wp F (fun x => x = d \/ wrote c t e d x)
       (fun rh x => match fst rh with
          | Ok _ => snd rh = hs (Datatypes.S c) /\ wrote c t e d x
          | Err e => blame F e
          end) (ebody t e (hs c)) d) ->
  (forall N dn t e td g d x, GJe fe hs us N dn ((t, e) :: td) g d -> wrote (length dn) t e d x ->
     GJe fe hs us N (dn ++ [(t, e)]) td (hs (Datatypes.S (length dn))) x /\ exists r, idx SPO x = binsert (enc SPO t) r (idx SPO d)) ->
  hs 0 = rh_graph h0 -> (forall x, base x -> us 0 x) ->
  (forall dn td h' d, RJn fn dn td h' d -> R d) ->
  (forall N, updated fn ns N (nod (r_trees D0)) -> forall dn td h' d, RJe fe hs us N dn td h' d -> R d) ->
  (forall N, updated fn ns N (nod (r_trees D0)) -> forall h' d, RJe fe hs us N es [] h' d -> Q d) ->
  wp F R (rends Q)
    (rs_loop_both cs cu cn ce
       (fun e p h => bind_h (rs_lookup_or_create cs cu e h) (fun id => graph_call (fun g => and_handle g (nbody id p))))
       (fun t p h => bind_h (rs_create3 cs cu t h) (fun t => graph_call (ebody t p))) cuts cuts' h0) D0.
Proof.
  intros Hnb Heb Hwr Hh Hus HRn HRe HQ. unfold rs_loop_both. apply wp_bind.
  eapply wp_mono; [| |apply (rwp_nodes R fn nbody Hnb HRn cuts)]; auto.
  intros [r h1] d1 R1 H1. unfold loop_end in H1. cbn [fst snd] in H1 |- *.
  destruct r as [[]|e]; [|split; auto].
  destruct H1 as (En & -> & _ & _ & F1 & Hu & Ht & _). destruct (view_tables (k := KUlid) ce (r_trees D0) (r_trees d1) Ht) as [Hv Hi].
  eapply wp_mono; [| |apply (rwp_edges R fe hs us (nod (r_trees d1)) ebody wrote Heb (Hwr _) (HRe _ Hu) cuts')]; auto.
  - intros [r h2] x _ Hx. unfold loop_end in Hx. unfold rends. cbn [fst snd] in *.
    destruct r as [[]|[e|e]]; auto. eapply HQ; eauto.
  - split; auto. split; auto. split.
    + intros o t. unfold rid. rewrite !Hi. apply (proj2 (proj2 Hw)).
    + split; auto. split; [symmetry; exact Hh|]. split; [eapply fair_mono; [exact Hus|exact F1]|].
      split; [intros o; apply updated_nil; auto|]. split; auto.
      rewrite Hi. eapply es_keys; eauto.
Qed.

(** What is kept at any moment. *)
Lemma RJn_world fn dn td h' d : RJn fn dn td h' d ->
  r_names d = r_names D0 /\ world base d /\ dn ++ td = ns /\ updated fn dn (nod (r_trees d)) (nod (r_trees D0)) /\
  forall o t, view o (r_trees d) t = view o (r_trees D0) t.
Proof.
  intros (En & _ & E & _ & F1 & Hu & Ht & _). destruct (view_tables (k := KUlid) ce (r_trees D0) (r_trees d) Ht) as [Hv Hi].
  split; auto. split; [|auto]. split; [now rewrite En|]. split; auto.
  intros o t. unfold rid. rewrite !Hi. apply (proj2 (proj2 Hw)).
Qed.
Lemma RJe_world fe hs us N dn td h' d : RJe fe hs us N dn td h' d ->
  r_names d = r_names D0 /\ world (us (length dn)) d /\ dn ++ td = es /\ (forall i, nod (r_trees d) i = N i) /\
  forall o, updated fe dn (view o (r_trees d)) (view o (r_trees D0)).
Proof.
  intros (En & _ & Ag & E & _ & F1 & Hu & Hn & _). split; auto. split; [|auto]. split; [now rewrite En|]. split; auto.
Qed.

Lemma put_edge_J fe hs us N dn t e td g (d : db) r b : GJe fe hs us N dn ((t, e) :: td) g d -> ~ us (length dn) r ->
  (forall x, us (length dn) x \/ x = r -> us (Datatypes.S (length dn)) x) -> de ce b = Ok (fe e) ->
  GJe fe hs us N (dn ++ [(t, e)]) td (hs (Datatypes.S (length dn))) (d_put_edge t r b d).
Proof.
  intros [Ag HJ] Nr Hus Hb. pose proof (Je_view cn ce base (r_trees D0) Hd0 es Hes _ _ _ _ _ _ _ _ _ _ HJ) as Hv.
  destruct HJ as (E & _ & [F1 F2] & Hu & Hn & Hk).
  destruct (es_apart cn ce (fun _ => True) base (r_trees D0) Hd0 es Hes fe _ _ _ _ E) as [N1 N2].
  assert (length (dn ++ [(t, e)]) = Datatypes.S (length dn)) as El by (rewrite app_length; simpl; lia).
  split; [now apply put_edge_agree|].
  split; [now rewrite <- app_assoc|]. rewrite El. split; auto. split; [|split; [|split]].
  - split; [now apply fairn_put_edge|]. eapply faire_mono; [exact Hus|]. eapply put_edge_faire; eauto.
  - intros o. eapply updated_more; [exact (Hu o)|exact N1| |].
    + rewrite (put_edge_view ce _ d t r b (fe e) o t F2 Nr Hb). destruct (triple_eq_dec t t); congruence.
    + intros u Nu. rewrite (put_edge_view ce _ d t r b (fe e) o u F2 Nr Hb). destruct (triple_eq_dec u t); congruence.
  - intros i. rewrite <- Hn. reflexivity.
  - change (idx SPO (d_put_edge t r b d)) with (binsert (enc SPO t) r (idx SPO d)).
    rewrite insert_keys; auto; [apply (fe_isorted ce _ _ F2)|].
    unfold SledDb.view, rid in Hv. intros H. rewrite H in Hv. discriminate.
Qed.

Let m := length es.
Let g0 := rh_graph h0.
Context (Hnd : NoDup (gkeys g0 m)) (Hb : forall x, In x (gkeys g0 m) -> ~ base x).

Let Hnd' : NoDup (gkeys g0 m ++ ukeys g0 0).
Proof. unfold ukeys. simpl. rewrite app_nil_r. auto. Qed.
Let Hb' : forall x, In x (gkeys g0 m ++ ukeys g0 0) -> ~ base x.
Proof. unfold ukeys. simpl. rewrite app_nil_r. auto. Qed.
Let Hu c x : c <= m -> used base g0 c 0 x -> plus_keys base (gkeys g0 m) x.
Proof.
  intros Hc Hx. apply (used_mono base g0 m 0 Hb' c 0 m 0) in Hx; [|lia|lia].
  destruct Hx as [Hx|[Hx|[]]]; [left|right]; auto.
Qed.

(** A first part of the vertices and then of the edges are changed. *)
Definition changed (fn : NP -> NP) (fe : EP -> EP) (ns1 : list (I * NP)) (es1 : list (T * EP)) (x : rdb) : Prop :=
  updated fn ns1 (nod (r_trees x)) (nod (r_trees D0)) /\
  forall o, updated fe es1 (view o (r_trees x)) (view o (r_trees D0)).
Definition partly (fn : NP -> NP) (fe : EP -> EP) (x : rdb) : Prop :=
  r_names x = r_names D0 /\ world (plus_keys base (gkeys g0 m)) x /\
  exists ns1 ns2 es1 es2, ns = ns1 ++ ns2 /\ es = es1 ++ es2 /\ (es1 = [] \/ ns2 = []) /\ changed fn fe ns1 es1 x.

Lemma RJn_partly fn fe dn td h' d : RJn fn dn td h' d -> partly fn fe d.
Proof.
  intros H. apply RJn_world in H. destruct H as (En & W & E & Hn & Hv). split; auto.
  split; [eapply RdfSledSafe.world_mono; [|exact W]; intros x; left; auto|].
  exists dn, td, [], es. split; auto. split; auto. split; auto. split; auto. intros o. apply updated_nil. apply Hv.
Qed.
Lemma RJe_partly fn fe N dn td h' d : updated fn ns N (nod (r_trees D0)) ->
  RJe fe (fun c => at_ g0 c 0) (fun c => used base g0 c 0) N dn td h' d -> partly fn fe d /\ (td = [] -> changed fn fe ns es d).
Proof.
  intros HN H. apply RJe_world in H. destruct H as (En & W & E & Hn & Hv).
  assert (updated fn ns (nod (r_trees d)) (nod (r_trees D0))) as HN' by (eapply updated_ext; [exact Hn|exact HN]).
  split; [split; auto; split|].
  - eapply RdfSledSafe.world_mono; [|exact W]. intros x. apply Hu. unfold m. rewrite <- E, app_length. lia.
  - exists ns, [], dn, td. split; [now rewrite app_nil_r|]. split; auto. split; auto. split; auto.
  - intros ->. rewrite app_nil_r in E. subst dn. split; auto.
Qed.

Lemma rwp_extend_self cuts cuts' :
  wp F (partly (fun p => p) (fun e => e)) (rends (changed (fun p => p) (fun e => e) ns es)) (rs_extend_self cs cu cn ce cuts cuts' h0) D0.
Proof.
  apply (rwp_both _ _ (fun p => p) (fun e => e) (fun i p => s_insert_node cn i p) (fun t e h => s_insert_edge ce t e h)
    (fun c => at_ g0 c 0) (fun c => used base g0 c 0)
    (fun c t e d x => c < m /\ exists b, de ce b = Ok e /\ x = d_put_edge t (next_key (at_ g0 c 0)) b d)).
  - intros d i p Hf _. now apply (wp_insert_node_at F base).
  - intros c d t e Hc Hf _.
    eapply wp_mono; [| |apply (wp_insert_edge_at F t e (at_ g0 c 0) d)]; auto.
    + intros x [->|Hx]; auto.
    + intros [r h'] x _ Hr. cbn [fst snd] in *. destruct r as [[]|]; auto. destruct Hr as (-> & Hr).
      split; [apply at_gen|]. auto.
  - intros N dn t e td g d x HJ (Hc & b & Hbb & ->). split; [|eexists; reflexivity].
    eapply put_edge_J; eauto.
    + apply (fresh_gen base g0 m 0); auto.
    + intros x. apply used_gen.
  - apply at_00.
  - intros x Hx. now apply used_00.
  - intros dn td h' d. apply RJn_partly.
  - intros N HN dn td h' d H. apply (RJe_partly _ _ _ _ _ _ _ HN H).
  - intros N HN h' d H. now apply (RJe_partly _ _ _ _ _ _ _ HN H).
Qed.

Lemma rwp_merge_self mn me cuts cuts' :
  wp F (partly (fun p => mn p p) (fun e => me e e)) (rends (changed (fun p => mn p p) (fun e => me e e) ns es))
    (rs_merge_self cs cu cn ce mn me cuts cuts' h0) D0.
Proof.
  apply (rwp_both _ _ (fun p => mn p p) (fun e => me e e) (fun i p => s_merge_node cn mn i p) (fun t e h => s_merge_edge ce me t e h)
    (fun c => at_ g0 c 0) (fun c => used base g0 c 0)
    (fun c t e d x => c < m /\ exists b, de ce b = Ok (me e e) /\ x = d_set_edge t (next_key (at_ g0 c 0)) b d)).
  - intros d i p Hf Hn. now apply (wp_merge_node_at cn ce Hcn mn F base).
  - intros c d t e Hc Hf Hv.
    assert (~ used base g0 c 0 (next_key (at_ g0 c 0))) as Nr by (apply (fresh_gen base g0 m 0); auto).
    eapply wp_mono; [| |apply (wp_merge_edge_at cn ce Hce me F (used base g0 c 0) t e (at_ g0 c 0) d Hf Nr Hv)]; auto.
    + intros x [->|Hx]; auto.
    + intros [r h'] x _ Hr. cbn [fst snd] in *. destruct r as [[]|]; auto. destruct Hr as (-> & Hr).
      split; [apply at_gen|]. auto.
  - intros N dn t e td g d x [Ag HJ] (Hc & b & Hbb & ->). split.
    + split; [now apply set_edge_agree|].
      eapply (set_edge_J cn ce (fun _ => True) base (r_trees D0) Hd0 es Hes); [exact HJ| | |exact Hbb].
      * apply (fresh_gen base g0 m 0); auto.
      * intros x. apply used_gen.
    + exists (next_key (at_ g0 (length dn) 0)). unfold d_set_edge. destruct (rid SPO d t); reflexivity.
  - apply at_00.
  - intros x Hx. now apply used_00.
  - intros dn td h' d. apply RJn_partly.
  - intros N HN dn td h' d H. apply (RJe_partly _ _ _ _ _ _ _ HN H).
  - intros N HN h' d H. now apply (RJe_partly _ _ _ _ _ _ _ HN H).
Qed.
End Loops.
End Facts.
