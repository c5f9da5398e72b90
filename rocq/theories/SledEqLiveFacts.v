(** try_eq with a sled store that is in use. *)
From Coq Require Import Arith NArith List Bool Sorted Lia.
From Verif Require Import Bytes BytesFacts OMap OMapFacts Core IdType IdTypeFacts Store Mem Spec
  CodecFacts ListFacts MemFacts MemSim MemSetFacts EqFacts History MemTop Prog ProgFacts Sled SledHistory SledDb SledOps SledBulk SledRead SledTables
  SledAny SledRun SledTop SledLeaf SledLeafFacts SledLazy SledBeside SledRely SledOwn SledOwnOps SledBesideTop SledReaders SledReadTop SledCopy
  SledCopyFacts SledSetLive SledSetLiveFacts SledSetLiveTop SledEqLive.
Import ListNotations.

(** The loop is the one of Store.v. *)
Lemma same_items_zip {A R} (eqb : A -> A -> bool) (xs : list (result R A)) : forall ls,
  zip_longest_eq (L := unit) eqb (map Ok ls) xs =
  match same_items (feed (EL := unit) (ER := R) (same_item eqb) xs ls) with Ok b => Ok b | Err e => Err (RightE e) end.
Proof.
  induction xs as [|[x|e] xs IH]; intros [|l ls]; simpl; auto.
  destruct (eqb l x); simpl; auto.
Qed.

(** ** Two sorted lists *)
Section Lists.
Context {A P R : Type} (lt : A -> A -> Prop) (irr : forall a, ~ lt a a) (tr : forall a b c, lt a b -> lt b c -> lt a c)
  (dec : forall a b, lt a b \/ a = b \/ lt b a).
Context (eqb : A * P -> A * P -> bool) (eqp : P -> P -> bool)
  (spec : forall x y, eqb x y = true <-> fst x = fst y /\ eqp (snd x) (snd y) = true).
Notation sorted l := (StronglySorted lt (map fst l)).
Notation feed := (feed (EL := unit) (ER := R) (same_item eqb)).
Notation keys l := (map (@fst A P) l).

Definition matched (ls xs : list (A * P)) : Prop :=
  (forall a p, In (a, p) ls -> exists q, In (a, q) xs /\ eqp p q = true) /\ (forall a, ~ In a (keys ls) -> ~ In a (keys xs)).
Definition differs (o : result (lr_error unit R) unit) (rest ls xs : list (A * P)) : Prop :=
  (exists a p, In (a, p) ls /\ ((~ In a (keys xs) /\ (o = Ok tt \/ exists b, In b (keys xs) /\ (a = b \/ lt a b))) \/
     exists q, In (a, q) xs /\ eqp p q = false)) \/
  (exists a q, ~ In a (keys ls) /\ In (a, q) xs /\ (rest = [] \/ exists b, In b (keys ls) /\ lt a b)).

Lemma below_not_in a (l : list (A * P)) : Forall (lt a) (keys l) -> ~ In a (keys l).
Proof. intros H Hin. rewrite Forall_forall in H. exact (irr _ (H _ Hin)). Qed.
Lemma below_more a b (l : list (A * P)) : lt a b -> Forall (lt b) (keys l) -> Forall (lt a) (keys l).
Proof. intros H. apply Forall_impl. intros c Hc. eapply tr; eauto. Qed.

Lemma compared (xs : list (A * P)) : forall ls, sorted ls -> sorted xs ->
  let f := feed (map Ok xs) ls in
  (exists b, same_items f = Ok b) /\
  (same_items f = Ok true -> fst f = Ok tt /\ matched ls xs) /\ (same_items f = Ok false -> differs (fst f) (snd f) ls xs).
Proof.
  induction xs as [|[x q] xs IH]; intros [|[a p] ls] Hl Hx; cbv zeta; cbn [map SledCopy.feed same_item].
  - split; [simpl; eauto|]. split; [|intros [=]]. intros _. split; [reflexivity|]. split; simpl; tauto.
  - split; [simpl; eauto|]. split; [intros [=]|]. intros _. left. exists a, p. simpl. auto 6.
  - split; [simpl; eauto|]. split; [intros [=]|]. intros _. right. exists x, q. simpl. auto.
  - simpl map in Hl, Hx. apply StronglySorted_inv in Hl, Hx. destruct Hl as [Hl Fl], Hx as [Hx Fx].
    destruct (eqb (a, p) (x, q)) eqn:Eq.
    + apply spec in Eq. simpl in Eq. destruct Eq as [-> Eq]. destruct (IH ls Hl Hx) as (H0 & H1 & H2). cbv zeta in H0, H1, H2.
      split; auto. split.
      * intros H. destruct (H1 H) as (Ho & M1 & M2). split; auto. split.
        -- intros b r [[= <- <-]|Hin]; [exists q; simpl; auto|]. destruct (M1 b r Hin) as (r' & Hr & Hr'). exists r'. simpl. auto.
        -- simpl. intros b Nb [Hb|Hb]; [tauto|]. apply (M2 b); tauto.
      * intros H. destruct (H2 H) as [(b & r & Hin & Hd)|(b & r & Nb & Hin & Hrest)].
        -- left. exists b, r. split; [simpl; auto|].
           assert (lt x b) as Lb by (rewrite Forall_forall in Fl; apply Fl; apply in_map_iff; exists (b, r); auto).
           destruct Hd as [[Nb Hd]|(r' & Hr & Hr')]; [left|right; exists r'; simpl; auto].
           split; [simpl; intros [->|Hb]; [exact (irr _ Lb)|tauto]|]. destruct Hd as [Hd|(c & Hc & Hd)]; [auto|]. right. exists c. simpl. auto.
        -- right. exists b, r. split; [|split; [simpl; auto|destruct Hrest as [Hrest|(c & Hc & Hrest)]; [auto|right; exists c; simpl; auto]]].
           simpl. intros [->|Hb]; [|tauto]. apply (below_not_in b xs Fx). apply in_map_iff. exists (b, r). auto.
    + cbn [fst same_items]. split; [eauto|]. split; [intros [=]|]. intros _.
      destruct (dec a x) as [L|[->|L]].
      * left. exists a, p. split; [simpl; auto|]. left. split.
        -- simpl. intros [->|Hin]; [exact (irr _ L)|]. exact (below_not_in a xs (below_more _ _ _ L Fx) Hin).
        -- right. exists x. simpl. auto.
      * left. exists x, p. split; [simpl; auto|]. right. exists q. split; [simpl; auto|].
        destruct (eqp p q) eqn:Ep; auto. assert (eqb (x, p) (x, q) = true); [|congruence]. apply spec. auto.
      * right. exists x, q. split; [|split; [simpl; auto|right; exists a; simpl; auto]]. simpl. intros [->|Hin]; [exact (irr _ L)|].
        exact (below_not_in x ls (below_more _ _ _ L Fl) Hin).
Qed.
End Lists.

(** ** The loops, in a world *)
Section World.
Context {k : idkind} {NP EP SE BE : Type} (cn : codec BE NP) (ce : codec BE EP) (keep : triple (Id k) -> Prop) (F : SE -> Prop).
Notation I := (Id k).
Notation T := (triple (Id k)).
Notation err := (sled_error SE BE).
Notation st := (st (k := k) cn ce keep).
Notation s_now := (s_now (k := k) cn ce keep).
Notation ext := (ext (k := k) cn ce keep).
Notation rg := (rg s_now ext F).
Notation ext_refl := (ext_refl (k := k) cn ce keep).
Notation ext_trans := (ext_trans (k := k) cn ce keep).
Notation node_out := (node_out cn ce keep F).
Notation edge_out := (edge_out cn ce keep F).
Notation was_node := (was_node (SE := SE) cn ce keep).
Notation was_edge := (was_edge (SE := SE) cn ce keep SPO).
Notation no_node := (no_node (SE := SE) cn ce keep).
Notation no_edge := (no_edge (SE := SE) cn ce keep).
Notation M := (mem k NP EP).
Context {X : Type} (side : err -> X) (nodeq : I * NP -> I * NP -> bool) (edgeq : T * EP -> T * EP -> bool)
  (neqb : NP -> NP -> bool) (eeqb : EP -> EP -> bool)
  (Hnodeq : forall x y, nodeq x y = true <-> fst x = fst y /\ neqb (snd x) (snd y) = true)
  (Hedgeq : forall x y, edgeq x y = true <-> fst x = fst y /\ eeqb (snd x) (snd y) = true).
Context (m : M) (Hsn : StronglySorted id_lt (map fst (node_props m))) (Hse : StronglySorted (edge_lt SPO) (map fst (edge_items SPO m))).

Section Kind.
Context {A P : Type} (eqp : P -> P -> bool) (ls : list (A * P)) (was : A -> P -> Prop) (no : A -> Prop).
Definition agreed : Prop :=
  (forall a p, In (a, p) ls -> exists q, was a q /\ eqp p q = true) /\ (forall a, ~ In a (map fst ls) -> no a).
Definition disagreed : Prop :=
  (exists a p, In (a, p) ls /\ (no a \/ exists q, was a q /\ eqp p q = false)) \/ (exists a q, ~ In a (map fst ls) /\ was a q).
End Kind.
Lemma agreed_mono {A P} eqp (ls : list (A * P)) (was was' : A -> P -> Prop) (no no' : A -> Prop) :
  (forall a p, was a p -> was' a p) -> (forall a, no a -> no' a) -> agreed eqp ls was no -> agreed eqp ls was' no'.
Proof. intros H1 H2 [H3 H4]. split; auto. intros a p Hin. destruct (H3 a p Hin) as (q & Hq & E). eauto. Qed.
Lemma disagreed_mono {A P} eqp (ls : list (A * P)) (was was' : A -> P -> Prop) (no no' : A -> Prop) :
  (forall a p, was a p -> was' a p) -> (forall a, no a -> no' a) -> disagreed eqp ls was no -> disagreed eqp ls was' no'.
Proof.
  intros H1 H2 [(a & p & Hin & [H|(q & Hq & E)])|(a & q & N & H)].
  - left. exists a, p. auto.
  - left. exists a, p. split; eauto.
  - right. exists a, q. auto.
Qed.

Definition told (a : result X bool) (w : st) : Prop :=
  (exists x, (a = Err (side x) \/ a = Ok false) /\ (fault F x \/ (x = MissingPropertyData /\ exists t, ~ keep t))) \/
  (a = Ok true /\ agreed neqb (node_props m) (was_node w) (no_node w) /\ agreed eeqb (edge_items SPO m) (was_edge w) (no_edge w)) \/
  (a = Ok false /\ (disagreed neqb (node_props m) (was_node w) (no_node w) \/ disagreed eeqb (edge_items SPO m) (was_edge w) (no_edge w))).

Lemma told_later a w w' : ext w w' -> told a w -> told a w'.
Proof.
  intros Hx [H|[(H & H1 & H2)|(H & H1)]]; [now left|right; left|right; right]; split; auto.
  - split; [eapply agreed_mono; [| |exact H1]|eapply agreed_mono; [| |exact H2]]; intros;
      eauto using was_node_later, was_edge_later, no_node_later, no_edge_later.
  - destruct H1 as [H1|H1]; [left|right]; (eapply disagreed_mono; [| |exact H1]); intros;
      eauto using was_node_later, was_edge_later, no_node_later, no_edge_later.
Qed.

Lemma id_dec (a b : I) : id_lt a b \/ a = b \/ id_lt b a.
Proof.
  destruct (id_ltb a b) eqn:E1; [left; now apply id_ltb_lt|]. destruct (id_ltb b a) eqn:E2; [right; right; now apply id_ltb_lt|].
  right. left. now apply id_total.
Qed.
Lemma tr_dec (a b : T) : edge_lt SPO a b \/ a = b \/ edge_lt SPO b a.
Proof.
  destruct (tr_ltb a b) eqn:E1; [left; now apply tr_ltb_lt|]. destruct (tr_ltb b a) eqn:E2; [right; right; now apply tr_ltb_lt|].
  right. left. now apply tr_total.
Qed.

(** What one loop has found. *)
Lemma found {A P} (lt : A -> A -> Prop) (irr : forall a, ~ lt a a) (tr : forall a b c, lt a b -> lt b c -> lt a c)
    (dec : forall a b, lt a b \/ a = b \/ lt b a) (eqb : A * P -> A * P -> bool) (eqp : P -> P -> bool)
    (spec : forall x y, eqb x y = true <-> fst x = fst y /\ eqp (snd x) (snd y) = true)
    (was : A -> P -> Prop) (no : A -> Prop) ls xs (ah : result (lr_error unit err) unit * list (A * P)) :
  StronglySorted lt (map fst ls) -> StronglySorted lt (map fst xs) -> ah = feed (same_item eqb) (map Ok xs) ls ->
  (forall a p, In (a, p) xs -> was a p) ->
  (forall a, (fst ah = Ok tt \/ exists b, In b (map fst xs) /\ (a = b \/ lt a b)) -> ~ In a (map fst xs) -> no a) ->
  (same_items ah = Ok true /\ agreed eqp ls was no) \/ (same_items ah = Ok false /\ disagreed eqp ls was no).
Proof.
  intros Sl Sx E Hw Hno. destruct (compared (R := err) lt irr tr dec eqb eqp spec xs ls Sl Sx) as ((b & Hb) & H1 & H2). cbv zeta in *.
  rewrite <- E in *. destruct b; [left|right]; split; auto.
  - destruct (H1 Hb) as (Ho & M1 & M2). split.
    + intros a p Hin. destruct (M1 a p Hin) as (q & Hq & Eq). eauto.
    + intros a Na. apply Hno; auto.
  - destruct (H2 Hb) as [(a & p & Hin & [[Na Ha]|(q & Hq & Eq)])|(a & q & Na & Hin & _)].
    + left. exists a, p. auto.
    + left. exists a, p. split; eauto.
    + right. exists a, q. auto.
Qed.

Lemma swallowed {A} (x : err) (ah : result (lr_error unit err) unit * list A) : fst ah = Err (RightE x) ->
  same_items ah = Err x \/ same_items ah = Ok false.
Proof. destruct ah as [r [|l ls]]; simpl; intros ->; auto. Qed.

Lemma rg_eq_live cuts cuts' w : rg told (eq_live cn ce side nodeq edgeq cuts cuts' m) w.
Proof.
  unfold eq_live, iter_nodes. cbn [fst snd]. rewrite iter_vertices_eq, iter_edges_eq, !ok_items_map. apply rg_bind.
  eapply rg_mono; [exact ext_refl|exact ext_trans| |apply (rg_loop_from s_now ext ext_refl ext_trans F (same_item nodeq) node_out)].
  - cbv beta. intros x w1 H1 Hx. apply nodes_joined in Hx.
    destruct Hx as [(y & Ey & Hy)|(ns & En & A1 & A2 & A3 & A4)].
    { destruct (swallowed y x Ey) as [->| ->]; cbn [SledRely.rg]; left; eauto. }
    destruct (found id_lt id_lt_irr id_lt_tr id_dec nodeq neqb Hnodeq (was_node w1) (no_node w1) _ ns x Hsn A2 En A1 A4) as [[-> Hag]|[-> Hdis]].
    2:{ cbn [SledRely.rg]. right. right. auto. }
    apply rg_bind.
    eapply rg_mono; [exact ext_refl|exact ext_trans| |apply (rg_loop_from s_now ext ext_refl ext_trans F (same_item edgeq) (edge_out SPO))].
    + cbv beta. intros y w2 H2 Hy. apply edges_joined in Hy.
      destruct Hy as [(z & Ez & Hz)|(es & Ee & B1 & B2 & B3 & B4)].
      { destruct (swallowed z y Ez) as [->| ->]; cbn [SledRely.rg]; left; eauto. }
      destruct (found (edge_lt SPO) (edge_lt_irr SPO) (edge_lt_tr SPO) tr_dec edgeq eeqb Hedgeq (was_edge w2) (no_edge w2) _ es y Hse B2 Ee B1 B4)
        as [[-> Hag']|[-> Hdis]]; cbn [SledRely.rg].
      * right. left. split; auto. split; auto.
        eapply agreed_mono; [| |exact Hag]; eauto using was_node_later, no_node_later.
      * right. right. auto.
    + intros; eapply edge_out_later; eauto.
    + intros w'. exact (sn_order _ _ _ _ _ (s_sane _ _ _ w') (tab SPO)).
    + intros [key b] w2 w3 _ Hin Hx. exact (rg_edge_item cn ce keep F SPO key b w2 w3 Hin Hx).
  - intros; eapply node_out_later; eauto.
  - intros w'. exact (sn_order _ _ _ _ _ (s_sane _ _ _ w') TNode).
  - intros [key b] w1 w2 _ Hin Hx. exact (rg_node_item cn ce keep F key b w1 w2 Hin Hx).
Qed.
End World.
