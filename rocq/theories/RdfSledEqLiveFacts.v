(** try_eq with an RDF store over sled that is in use: what has been compared. *)
From Coq Require Import Arith NArith List Bool Sorted Lia.
From Verif Require Import Bytes BytesFacts OMap OMapFacts Core IdType IdTypeFacts Store Mem MemIndex Spec GenSpec
  CodecFacts ListFacts MemFacts MemSim History MemTop Prog ProgFacts Sled SledHistory SledSched SledDb SledOps SledBulk SledRead SledTables
  SledAny SledRun SledTop SledMain SledLeaf SledLeafFacts SledLazy SledBeside SledRely SledOwn SledOwnOps SledBesideTop SledReaders
  SledIndex SledIndexFacts Rdf RdfSpec RdfTop RdfQuery RdfSled RdfSledSpec RdfSledSafe RdfSledConc RdfSledTop RdfSledRead RdfSledMain RdfSledLeaf RdfSledOwn
  RdfSledReaders SledReadTop RdfSledReadTop SledCopy SledCopyFacts RdfSledCopy RdfSledCopyFacts RdfSledEqLive.
Import ListNotations.

(** The loops are those of Store.v. *)
Lemma zip_other_eq {A L R} (eqb : A -> A -> bool) (xs : list (result R A)) : forall ls : list (result L A),
  zip_other (feed (EL := unit) (ER := R) (zip_item eqb) xs ls) = zip_longest_eq eqb ls xs.
Proof.
  induction xs as [|[x|e] xs IH]; intros [|[l|e'] ls]; simpl; auto. destruct (eqb l x); simpl; auto.
Qed.
Lemma zip_self_eq {A L R} (eqb : A -> A -> bool) (xs : list (result R A)) : forall ls : list (result L A),
  zip_self (feed (EL := unit) (ER := R) (zip_item (fun l x => eqb x l)) xs ls) = zip_longest_eq eqb xs ls.
Proof.
  induction xs as [|[x|e] xs IH]; intros [|[l|e'] ls]; simpl; auto. destruct (eqb x l); simpl; auto.
Qed.
Lemma zip_other_true {A L R} (x : result (lr_error unit R) unit * list (result L A)) : zip_other x = Ok true -> fst x = Ok tt.
Proof. destruct x as [[[]|[e|e]] [|[l|e'] ls]]; simpl; congruence. Qed.
Lemma zip_self_true {A L R} (x : result (lr_error unit R) unit * list (result L A)) : zip_self x = Ok true -> fst x = Ok tt.
Proof. destruct x as [[[]|[e|e]] [|[l|e'] ls]]; simpl; congruence. Qed.

(** A loop that has been left does not see what would follow. *)
Lemma feed_left {A H EL ER} (f : A -> H -> result EL unit * H) (xs more : list (result ER A)) : forall h,
  fst (feed f xs h) <> Ok tt -> feed f (xs ++ more) h = feed f xs h.
Proof.
  induction xs as [|[a|e] xs IH]; simpl; intros h N; auto; [congruence|]. destruct (f a h) as [[[]|e] h1]; auto.
Qed.
Lemma ok_or_not {E} (r : result E unit) : r = Ok tt \/ r <> Ok tt.
Proof. destruct r as [[]|e]; [left; auto|right; discriminate]. Qed.

Section Both.
Context {S NP EP SE BE L X : Type}.
Context (cs : codec BE S) (cu : codec BE (Id KUlid)) (cn : codec BE NP) (ce : codec BE EP).
Context (Hcs : codec_ok cs) (Hcu : codec_ok cu) (Htu : codec_total cu) (keep : triple (Id KUlid) -> Prop) (F : SE -> Prop).
Notation I := (Id KUlid).
Notation ent := (entity S).
Notation gerr := (sled_error SE BE).
Notation err := (rdf_error S (sled_index_error S (Id KUlid) SE BE) gerr).
Notation rst := (rst (S := S) (SE := SE) cs cu cn ce keep).
Notation u_now := (u_now cs cu cn ce keep).
Notation gst := (gst cs cu cn ce keep).
Notation rext := (rext cs cu cn ce keep).
Notation rext_refl := (rext_refl cs cu cn ce keep).
Notation rext_trans := (rext_trans cs cu cn ce keep).
Notation rg := (rg u_now rext F).
Notation cur := (fun w : rst => r_trees (u_now w)).
Notation rendered := (rendered cs cu cn ce keep F).
Notation shown_out := (shown_out cs cu cn ce keep F).
Notation node_made := (node_made cs cu cn ce keep).
Notation edge_made := (edge_made cs cu cn ce keep SPO).
Notation node_out := (node_out cn ce keep F).
Notation edge_out := (edge_out cn ce keep F SPO).
Notation nodes_part := (nodes_part cn ce keep F).
Notation edges_part := (edges_part cn ce keep F).
Implicit Types d : rdb.
Implicit Types w : rst.
Context (nodeq : ent * NP -> ent * NP -> bool) (edgeq : triple ent * EP -> triple ent * EP -> bool)
  (zn : result (lr_error unit err) unit * list (result L (ent * NP)) -> result X bool)
  (ze : result (lr_error unit err) unit * list (result L (triple ent * EP)) -> result X bool)
  (ns : list (result L (ent * NP))) (es : list (result L (triple ent * EP))).
Context (Hzn : forall x, zn x = Ok true -> fst x = Ok tt).

Definition zipped_nodes (xs : list (result err (ent * NP))) := feed (EL := unit) (zip_item nodeq) xs ns.
Definition zipped_edges (xs : list (result err (triple ent * EP))) := feed (EL := unit) (zip_item edgeq) xs es.
Definition answer (xs : list (result err (ent * NP))) (ys : list (result err (triple ent * EP))) : result X bool :=
  match zn (zipped_nodes xs) with
  | Err e => Err e
  | Ok false => Ok false
  | Ok true => ze (zipped_edges ys)
  end.
Definition nodes_through (xs : list (result err (ent * NP))) : Prop := fst (zipped_nodes xs) = Ok tt.
Definition edges_through (xs : list (result err (ent * NP))) (ys : list (result err (triple ent * EP))) : Prop :=
  zn (zipped_nodes xs) = Ok true /\ fst (zipped_edges ys) = Ok tt.

Lemma nodes_settled xs : nodes_through xs \/ forall ys more more', answer (xs ++ more) more' = answer xs ys.
Proof.
  destruct (ok_or_not (fst (zipped_nodes xs))) as [H|H]; [now left|right]. intros ys more more'. unfold answer.
  replace (zipped_nodes (xs ++ more)) with (zipped_nodes xs) by (symmetry; now apply feed_left).
  destruct (zn (zipped_nodes xs)) as [[|]|e] eqn:E; auto. exfalso. apply H, Hzn, E.
Qed.
Lemma edges_settled xs ys : edges_through xs ys \/ forall more, answer xs (ys ++ more) = answer xs ys.
Proof.
  unfold edges_through, answer. destruct (zn (zipped_nodes xs)) as [[|]|e] eqn:E; auto.
  destruct (ok_or_not (fst (zipped_edges ys))) as [H|H]; [now left|right]. intros more. f_equal. now apply feed_left.
Qed.
Lemma nodes_through_ok xs : nodes_through xs -> forall x, ~ In (Err x) xs.
Proof. unfold nodes_through, zipped_nodes. destruct (feed _ xs ns) as [r h] eqn:E. simpl. intros ->. eapply feed_ok; eauto. Qed.
Lemma edges_through_ok xs ys : edges_through xs ys -> forall x, ~ In (Err x) ys.
Proof. intros [_ H]. unfold zipped_edges in H. destruct (feed _ ys es) as [r h] eqn:E. simpl in H. subst r. eapply feed_ok; eauto. Qed.

(** What has been compared, in a world. *)
Definition rtold (a : result X bool) w : Prop :=
  exists (s : rdf_source S NP EP err) ys zs, a = answer (rs_nodes s) (rs_edges s) /\
  nodes_part (nodes_through (rs_nodes s)) ys (gst w) /\ Forall2 (fun y x => rendered node_made y x w) ys (rs_nodes s) /\
  edges_part (edges_through (rs_nodes s) (rs_edges s)) zs (gst w) /\ Forall2 (fun y x => rendered edge_made y x w) zs (rs_edges s).
Lemma rtold_later a w w' : rext w w' -> rtold a w -> rtold a w'.
Proof.
  intros Hx (s & ys & zs & E & H1 & H2 & H3 & H4). exists s, ys, zs. split; auto. split; [|split; [|split]].
  - eapply nodes_part_later; [apply rext_gst; exact Hx|exact H1].
  - eapply rendered_all_later; eauto. intros; eapply node_made_later; eauto.
  - eapply edges_part_later; [apply rext_gst; exact Hx|exact H3].
  - eapply rendered_all_later; eauto. intros; eapply edge_made_later; eauto.
Qed.

Lemma rg_req cuts cuts' w : rg rtold (req_live cs cu cn ce nodeq edgeq zn ze cuts cuts' ns es) w.
Proof.
  unfold req_live. apply rg_bind.
  eapply rg_mono; [exact rext_refl|exact rext_trans| |
    apply (rg_loop_at cur r_trees u_now rext (fun _ => eq_refl) rext_refl rext_trans F (zip_item nodeq) (shown_out node_out node_made))].
  - cbv beta. intros x w1 H1 Hn. destruct (rnodes_looped _ _ _ _ _ _ _ _ _ _ _ Hn) as (xs & ys & E & A1 & A2).
    assert (x = zipped_nodes xs) as Ex by exact E.
    assert (forall b, zn x = b -> b <> Ok true -> rtold b w1) as Stop.
    { intros b Eb Nb. exists (RdfSource xs []), ys, []. cbn [rs_nodes rs_edges]. split; [|split; [|split; [|split]]].
      - unfold answer. rewrite <- Ex, Eb. destruct b as [[|]|e]; congruence.
      - unfold nodes_through. rewrite <- Ex. exact A1.
      - exact A2.
      - split; [constructor|]. split; [intros y []|]. intros [Ht _]. rewrite <- Ex, Eb in Ht. contradiction.
      - constructor. }
    destruct (zn x) as [[|]|e] eqn:Ez; [|apply Stop; congruence|apply Stop; congruence].
    apply rg_bind. eapply rg_mono; [exact rext_refl|exact rext_trans| |
        apply (rg_loop_at cur r_trees u_now rext (fun _ => eq_refl) rext_refl rext_trans F (zip_item edgeq) (shown_out edge_out edge_made))].
    + cbv beta. intros y w2 H2 He. destruct (redges_looped _ _ _ _ _ _ _ _ _ _ _ He) as (xs2 & zs & E2 & B1 & B2).
      assert (y = zipped_edges xs2) as Ey by exact E2. cbn [SledRely.rg].
      exists (RdfSource xs xs2), ys, zs. cbn [rs_nodes rs_edges]. split; [|split; [|split; [|split]]].
      * unfold answer. now rewrite <- Ex, Ez, Ey.
      * eapply nodes_part_later; [apply rext_gst; exact H2|]. unfold nodes_through. rewrite <- Ex. exact A1.
      * eapply rendered_all_later; eauto. intros; eapply node_made_later; eauto.
      * destruct B1 as (B & C & D). split; auto. split; auto. intros [_ Ht]. apply D. now rewrite Ey.
      * exact B2.
    + intros x' y w2 w3 Hx Hv. eapply shown_out_later; [| |exact Hx|exact Hv].
      -- intros; eapply edge_out_later; eauto.
      -- intros; eapply edge_made_later; eauto.
    + intros w'. exact (sn_order _ _ _ _ _ (u_sane cs cu cn ce keep w') (tab SPO)).
    + intros kv w2 w3 _ Hin Hx. eapply (rg_shown cs cu cn ce keep F edge_out edge_made) with (entries := t_spo); [| | |exact Hin|exact Hx].
      -- intros; eapply edge_out_later; eauto.
      -- intros kv' [t p] w4 [_ (g & Hg & Hl)]. simpl in Hg. apply in_map_iff in Hg. destruct Hg as (d & <- & Hd).
         eapply rg_mono; [exact rext_refl|exact rext_trans| |apply (rg_show_edge cs cu cn ce Hcs Htu keep F (since (SE := SE) cs cu d)); intros w5 H5; eapply since_now; eauto].
         intros [b|y] w5 H5 Hb; simpl in *; auto. exists d. split; [apply H5; auto|]. auto.
      -- intros [key b] w4 w5 Hin' Hx'. exact (rg_edge_item cn ce keep F SPO key b w4 w5 Hin' Hx').
  - intros x y w2 w3 Hx Hv. eapply shown_out_later; [| |exact Hx|exact Hv].
    + intros; eapply node_out_later; eauto.
    + intros; eapply node_made_later; eauto.
  - intros w'. exact (sn_order _ _ _ _ _ (u_sane cs cu cn ce keep w') TNode).
  - intros kv w1 w2 _ Hin Hx. eapply (rg_shown cs cu cn ce keep F node_out node_made) with (entries := t_node); [| | |exact Hin|exact Hx].
    + intros; eapply node_out_later; eauto.
    + intros kv' [i p] w4 [_ (g & Hg & Hl)]. simpl in Hg. apply in_map_iff in Hg. destruct Hg as (d & <- & Hd).
      eapply rg_mono; [exact rext_refl|exact rext_trans| |apply (rg_show_pair cs cu cn ce Hcs Htu keep F (since (SE := SE) cs cu d)); intros w5 H5; eapply since_now; eauto].
      intros [b|x] w5 H5 Hb; simpl in *; auto. exists d. split; [apply H5; auto|]. auto.
    + intros [key b] w4 w5 Hin' Hx'. exact (rg_node_item cn ce keep F key b w4 w5 Hin' Hx').
Qed.
End Both.
