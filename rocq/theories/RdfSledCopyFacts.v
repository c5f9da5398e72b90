(** What is handed over by an RDF store over sled that is in use. *)
From Coq Require Import Arith NArith List Bool Sorted Lia.
From Verif Require Import Bytes BytesFacts OMap OMapFacts Core IdType IdTypeFacts Store Mem MemIndex Spec GenSpec
  CodecFacts ListFacts MemFacts MemSim History MemTop Prog ProgFacts Sled SledHistory SledSched SledDb SledOps SledBulk SledRead SledTables
  SledAny SledRun SledTop SledMain SledLeaf SledLeafFacts SledLazy SledBeside SledRely SledOwn SledOwnOps SledBesideTop SledReaders
  SledIndex SledIndexFacts Rdf RdfSpec RdfTop RdfQuery RdfSled RdfSledSpec RdfSledSafe RdfSledConc RdfSledTop RdfSledRead RdfSledMain RdfSledLeaf RdfSledOwn
  RdfSledReaders SledReadTop RdfSledReadTop SledCopy SledCopyFacts RdfSledCopy.
Import ListNotations.

Section Both.
Context {S NP EP SE BE : Type}.
Context (cs : codec BE S) (cu : codec BE (Id KUlid)) (cn : codec BE NP) (ce : codec BE EP).
Context (Hcs : codec_ok cs) (Hcu : codec_ok cu) (Htu : codec_total cu) (keep : triple (Id KUlid) -> Prop) (F : SE -> Prop).
Notation I := (Id KUlid).
Notation ent := (entity S).
Notation gerr := (sled_error SE BE).
Notation err := (rdf_error S (sled_index_error S (Id KUlid) SE BE) gerr).
Notation st := (st (k := KUlid) cn ce keep).
Notation ext := (ext (k := KUlid) cn ce keep).
Notation rst := (rst (S := S) (SE := SE) cs cu cn ce keep).
Notation u_now := (u_now cs cu cn ce keep).
Notation u_past := (u_past cs cu cn ce keep).
Notation gst := (gst cs cu cn ce keep).
Notation rext := (rext cs cu cn ce keep).
Notation rext_refl := (rext_refl cs cu cn ce keep).
Notation rext_trans := (rext_trans cs cu cn ce keep).
Notation rg := (rg u_now rext F).
Notation cur := (fun w : rst => r_trees (u_now w)).
Notation rendered := (rendered cs cu cn ce keep F).
Notation shown_out := (shown_out cs cu cn ce keep F).
Notation node_made := (node_made cs cu cn ce keep).
Notation edge_made := (edge_made cs cu cn ce keep SPO).
Notation node_out := (node_out cn ce keep F).
Notation edge_out := (edge_out cn ce keep F SPO).
Implicit Types d : rdb.
Implicit Types w : rst.
Context {H EL : Type} (fn : ent * NP -> H -> result EL unit * H) (fe : triple ent * EP -> H -> result EL unit * H).

(** The items of the graph behind those that were handed over. *)
Definition nodes_part (all : Prop) (ys : list (result gerr (I * NP))) (w : st) : Prop :=
  StronglySorted id_lt (map fst (ok_items ys)) /\ (forall x, In (Err x) ys -> fault F x) /\ (all -> nodes_read cn ce keep F ys w).
Definition edges_part (all : Prop) (ys : list (result gerr (triple I * EP))) (w : st) : Prop :=
  StronglySorted (edge_lt SPO) (map fst (ok_items ys)) /\
  (forall x, In (Err x) ys -> (x = MissingPropertyData /\ exists t, ~ keep t) \/ fault F x) /\
  (all -> edges_read cn ce keep F SPO ys w).
Lemma nodes_part_later all ys (w1 w2 : st) : ext w1 w2 -> nodes_part all ys w1 -> nodes_part all ys w2.
Proof. intros Hx (A & B & C). split; auto. split; auto. intros Ha. eapply nodes_read_later; eauto. Qed.
Lemma edges_part_later all ys (w1 w2 : st) : ext w1 w2 -> edges_part all ys w1 -> edges_part all ys w2.
Proof. intros Hx (A & B & C). split; auto. split; auto. intros Ha. eapply edges_read_later; eauto. Qed.

Lemma rnodes_looped w h ah w' : looped cur rext fn (shown_out node_out node_made) t_node None w h ah w' ->
  exists xs ys, ah = feed fn xs h /\ nodes_part (fst ah = Ok tt) ys (gst w') /\ Forall2 (fun y x => rendered node_made y x w') ys xs.
Proof.
  intros (L & xs & -> & Hxs & Hs & _ & Hc & _). destruct (out_split _ _ _ _ _ _ _ _ _ _ _ Hxs) as (ys & Hy & Hr).
  exists xs, ys. split; auto. split; auto. split; [|split].
  - eapply node_read_sorted; eauto.
  - intros x Hin. destruct (forall2_in_r _ _ _ _ Hy Hin) as (kv & _ & Ho). apply Ho.
  - intros E. eapply nodes_scanned; [|exact Hy]. apply scanned_gst. apply Hc, E.
Qed.
Lemma redges_looped w h ah w' : looped cur rext fe (shown_out edge_out edge_made) t_spo None w h ah w' ->
  exists xs ys, ah = feed fe xs h /\ edges_part (fst ah = Ok tt) ys (gst w') /\ Forall2 (fun y x => rendered edge_made y x w') ys xs.
Proof.
  intros (L & xs & -> & Hxs & Hs & _ & Hc & _). destruct (out_split _ _ _ _ _ _ _ _ _ _ _ Hxs) as (ys & Hy & Hr).
  exists xs, ys. split; auto. split; auto. split; [|split].
  - eapply read_sorted; eauto.
  - intros x Hin. destruct (forall2_in_r _ _ _ _ Hy Hin) as (kv & _ & Ho). destruct Ho as [[-> (t & _ & Hk)]|Ho]; eauto.
  - intros E. eapply edges_scanned; [|exact Hy]. apply (scanned_gst cs cu cn ce keep). apply Hc, E.
Qed.

(** What has been handed over, in a world. *)
Definition rtook (h : H) (ah : result (lr_error EL err) unit * H) w : Prop :=
  exists (s : rdf_source S NP EP err) ys zs, ah = r_feed_both fn fe s h /\
  nodes_part (fst ah = Ok tt) ys (gst w) /\ Forall2 (fun y x => rendered node_made y x w) ys (rs_nodes s) /\
  edges_part (fst ah = Ok tt) zs (gst w) /\ Forall2 (fun y x => rendered edge_made y x w) zs (rs_edges s).
Lemma rendered_all_later {A B} (Sh : A -> B -> rst -> Prop) ys xs w w' : (forall a b w1 w2, rext w1 w2 -> Sh a b w1 -> Sh a b w2) ->
  rext w w' -> Forall2 (fun y x => rendered Sh y x w) ys xs -> Forall2 (fun y x => rendered Sh y x w') ys xs.
Proof. intros HSh Hx Hr. induction Hr; constructor; auto. eapply rendered_later; eauto. Qed.
Lemma rtook_later h ah w w' : rext w w' -> rtook h ah w -> rtook h ah w'.
Proof.
  intros Hx (s & ys & zs & E & H1 & H2 & H3 & H4). exists s, ys, zs. split; auto. split; [|split; [|split]].
  - eapply nodes_part_later; [apply rext_gst; exact Hx|exact H1].
  - eapply rendered_all_later; eauto. intros; eapply node_made_later; eauto.
  - eapply edges_part_later; [apply rext_gst; exact Hx|exact H3].
  - eapply rendered_all_later; eauto. intros; eapply edge_made_later; eauto.
Qed.

Lemma rg_rtake cuts cuts' h w : rg (rtook h) (rs_take_over cs cu cn ce fn fe cuts cuts' h) w.
Proof.
  unfold rs_take_over. apply rg_bind.
  eapply rg_mono; [exact rext_refl|exact rext_trans| |
    apply (rg_loop_at cur r_trees u_now rext (fun _ => eq_refl) rext_refl rext_trans F fn (shown_out node_out node_made))].
  - cbv beta. intros [r h1] w1 H1 Hn. destruct (rnodes_looped _ _ _ _ Hn) as (xs & ys & E & A1 & A2). cbn [fst snd] in *.
    destruct r as [[]|e]; cbn [fst snd].
    + eapply rg_mono; [exact rext_refl|exact rext_trans| |
        apply (rg_loop_at cur r_trees u_now rext (fun _ => eq_refl) rext_refl rext_trans F fe (shown_out edge_out edge_made))].
      * intros ah w2 H2 He. destruct (redges_looped _ _ _ _ He) as (xs2 & zs & E2 & B1 & B2).
        exists (RdfSource xs xs2), ys, zs. unfold r_feed_both. cbn [rs_nodes rs_edges]. rewrite <- E.
        split; auto. split; [|split; [|split]]; auto.
        -- eapply nodes_part_later; [apply rext_gst; exact H2|]. destruct A1 as (B & C & D). split; auto.
        -- eapply rendered_all_later; eauto. intros; eapply node_made_later; eauto.
      * intros x y w2 w3 Hx Hv. eapply shown_out_later; [| |exact Hx|exact Hv].
        -- intros; eapply edge_out_later; eauto.
        -- intros; eapply edge_made_later; eauto.
      * intros w'. exact (sn_order _ _ _ _ _ (u_sane cs cu cn ce keep w') (tab SPO)).
      * intros kv w2 w3 _ Hin Hx. eapply (rg_shown cs cu cn ce keep F edge_out edge_made) with (entries := t_spo); [| | |exact Hin|exact Hx].
        -- intros; eapply edge_out_later; eauto.
        -- intros kv' [t p] w4 [_ (g & Hg & Hl)]. simpl in Hg. apply in_map_iff in Hg. destruct Hg as (d & <- & Hd).
           eapply rg_mono; [exact rext_refl|exact rext_trans| |apply (rg_show_edge cs cu cn ce Hcs Htu keep F (since (SE := SE) cs cu d)); intros w5 H5; eapply since_now; eauto].
           intros [b|x] w5 H5 Hb; simpl in *; auto. exists d. split; [apply H5; auto|]. auto.
        -- intros [key b] w4 w5 Hin' Hx'. exact (rg_edge_item cn ce keep F SPO key b w4 w5 Hin' Hx').
    + exists (RdfSource xs []), ys, []. unfold r_feed_both. cbn [rs_nodes rs_edges]. rewrite <- E.
      split; auto. split; [|split; [|split]]; auto. split; [constructor|]. split; [intros x []|discriminate].
  - intros x y w2 w3 Hx Hv. eapply shown_out_later; [| |exact Hx|exact Hv].
    + intros; eapply node_out_later; eauto.
    + intros; eapply node_made_later; eauto.
  - intros w'. exact (sn_order _ _ _ _ _ (u_sane cs cu cn ce keep w') TNode).
  - intros kv w1 w2 _ Hin Hx. eapply (rg_shown cs cu cn ce keep F node_out node_made) with (entries := t_node); [| | |exact Hin|exact Hx].
    + intros; eapply node_out_later; eauto.
    + intros kv' [i p] w4 [_ (g & Hg & Hl)]. simpl in Hg. apply in_map_iff in Hg. destruct Hg as (d & <- & Hd).
      eapply rg_mono; [exact rext_refl|exact rext_trans| |apply (rg_show_pair cs cu cn ce Hcs Htu keep F (since (SE := SE) cs cu d)); intros w5 H5; eapply since_now; eauto].
      intros [b|x] w5 H5 Hb; simpl in *; auto. exists d. split; [apply H5; auto|]. auto.
    + intros [key b] w4 w5 Hin' Hx'. exact (rg_node_item cn ce keep F key b w4 w5 Hin' Hx').
Qed.
End Both.
