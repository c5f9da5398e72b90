(** Set operations with a sled store in use: the graphs. *)
From Coq Require Import Arith NArith List Bool Sorted Lia.
From Verif Require Import Bytes BytesFacts OMap OMapFacts Core IdType IdTypeFacts Store Mem Spec
  CodecFacts ListFacts MemFacts MemSim MemSetFacts History MemTop Prog ProgFacts Sled SledHistory SledTables
  SledLeaf SledLazy SledBeside SledRely SledBesideTop SledReaders SledReadTop SledCopy SledCopyFacts SledSetLive SledSetLiveFacts.
Import ListNotations.

(** The graph of two sorted lists. *)
Section Listed.
Context {A P : Type} (dec : forall a b : A, {a = b} + {a <> b}) (lt : A -> A -> Prop) (irr : forall a, ~ lt a a).
Definition at_key (l : list (A * P)) (a : A) : option P :=
  option_map snd (find (fun x => if dec (fst x) a then true else false) l).
Lemma at_key_in l : StronglySorted lt (map fst l) -> forall a p, In (a, p) l <-> at_key l a = Some p.
Proof.
  induction l as [|[b q] l IH]; simpl; intros Hs a p; [split; [tauto|discriminate]|].
  apply StronglySorted_inv in Hs. destruct Hs as [Hs Hf]. unfold at_key. simpl.
  destruct (dec b a) as [->|N].
  - simpl. split; [|intros [= ->]; auto]. intros [[= ->]|Hin]; auto. exfalso.
    eapply Forall_forall in Hf; [exact (irr _ Hf)|]. apply in_map_iff. exists (a, p). auto.
  - rewrite <- (IH Hs a p). split; auto. intros [[= ->]|]; tauto.
Qed.
Lemma at_key_none l a : StronglySorted lt (map fst l) -> at_key l a = None -> ~ In a (map fst l).
Proof.
  intros Hs Hn Hin. apply in_map_iff in Hin. destruct Hin as ([b p] & <- & Hin). apply at_key_in in Hin; auto. simpl in *. congruence.
Qed.
Lemma at_key_some l a : StronglySorted lt (map fst l) -> In a (map fst l) -> exists p, at_key l a = Some p.
Proof. intros Hs Hin. apply in_map_iff in Hin. destruct Hin as ([b p] & <- & Hin). exists p. now apply at_key_in. Qed.
End Listed.

Lemma sorted_pairs {A P} (lt : A -> A -> Prop) (l : list (A * P)) : StronglySorted lt (map fst l) ->
  StronglySorted (fun x y => lt (fst x) (fst y)) l.
Proof.
  induction l as [|x l IH]; simpl; intros Hs; [constructor|]. apply StronglySorted_inv in Hs. destruct Hs as [Hs Hf].
  constructor; auto. apply Forall_forall. intros y Hy. eapply Forall_forall in Hf; [exact Hf|]. now apply in_map.
Qed.

Section Beside.
Context {k : idkind} {NP EP SE BE E : Type} (cn : codec BE NP) (ce : codec BE EP) (mn : NP -> NP -> NP) (me : EP -> EP -> EP).
Notation I := (Id k).
Notation T := (triple (Id k)).
Notation err := (sled_error SE BE).
Notation M := (mem k NP EP).
Notation answer := (result (set_error unit err unit) M).
Context (ls : list (life (k := k) (NP := NP) (EP := EP) (SE := SE) (E := E)))
  (cs : list (handle k * list (op k NP EP E))) (wcuts : nat -> nat -> cutting) (schedule : list (nat * option SE)).
Context (Hn : codec_ok cn) (He : codec_ok ce) (Hd : NoDup (life_keys ls ++ session_keys cs)).
Notation d := (lives cn ce mn me ls db_new).
Notation keep := (fun t => ~ rewritten cs t).

Definition right_error (a : answer) : Prop :=
  exists x, a = Err (SetRight x) /\ ((exists y, met schedule y /\ x = SledError y) \/ (x = MissingPropertyData /\ exists t, rewritten cs t)).

Lemma set_beside (p : prog db SE answer) wn we op a :
  (forall F w, rg (s_now cn ce keep) (ext cn ce keep) F (joined cn ce keep F wn we op) p w) ->
  let ps := beside p (l_callers cn ce mn me wcuts 0 cs) in
  has_read a (fst (interleave schedule ps d)) ->
  right_error a \/
  exists s b r, a = Ok r /\ op s = Ok r /\ delivers s b /\
    (forall i q, g_node b i = Some q -> node_was cn schedule ps d i q) /\
    (forall t q, g_edge b t = Some q -> edge_was ce schedule ps d t q) /\
    (forall i, wn i -> g_node b i = None -> node_missing cn schedule ps d i) /\
    (forall t, we t -> g_edge b t = None -> edge_missing ce schedule ps d t) /\
    ((forall t, g_edge b t = None -> edge_missing ce schedule ps d t) \/
     forall t, we t -> exists u, g_edge b u <> None /\ (t = u \/ edge_lt SPO t u)) /\
    (forall t, (forall u, g_edge b u <> None -> edge_lt SPO u t) \/ exists u, g_edge b u <> None /\ (t = u \/ edge_lt SPO t u)).
Proof.
  intros Hp ps Hx.
  destruct (beside_reads (k := k) cn ce keep Hn He mn me p (fun F => joined cn ce keep F wn we op) ls cs wcuts schedule Hd (adds_spared _)
    (fun F a w1 w2 => joined_later cn ce keep F wn we op a w1 w2) Hp a Hx) as (w & Hw & Hpast). fold ps in Hpast.
  destruct Hw as [(x & -> & Hx')|(ns & es & r & -> & Hop & S1 & S2 & H1 & H2 & H3 & H4 & H5)].
  - left. exists x. split; auto. destruct Hx' as [Hx'|[-> [t Ht]]]; [left; exact Hx'|]. right. split; auto. exists t. now apply rewritten_not.
  - right. exists (Source (map Ok ns) (map Ok es)), (Graph (at_key id_eq_dec ns) (at_key triple_eq_dec es)), r.
    pose proof (at_key_in id_eq_dec id_lt id_lt_irr ns S1) as K1.
    pose proof (at_key_in triple_eq_dec (edge_lt SPO) (edge_lt_irr SPO) es S2) as K2.
    pose proof (fun a => at_key_none id_eq_dec id_lt id_lt_irr ns a S1) as N1.
    pose proof (fun a => at_key_none triple_eq_dec (edge_lt SPO) (edge_lt_irr SPO) es a S2) as N2.
    pose proof (fun a => at_key_some triple_eq_dec (edge_lt SPO) (edge_lt_irr SPO) es a S2) as N3.
    assert (forall t, no_edge cn ce keep w t -> edge_missing ce schedule ps d t) as Me by (intros t (d1 & D1 & L1); exists d1; auto).
    split; auto. split; auto. cbn [g_node g_edge]. split; [|split; [|split; [|split; [|split; [|split]]]]].
    + split; cbn [src_nodes src_edges g_node g_edge]; [exists ns|exists es]; repeat split; try apply sorted_pairs; auto; try apply K1; try apply K2.
    + intros i q Hi. apply K1 in Hi. destruct (H1 i q Hi) as (d1 & D1 & L1). exists d1. auto.
    + intros i q Hi. apply K2 in Hi. destruct (H2 i q Hi) as (d1 & D1 & L1). exists d1. auto.
    + intros i Hi Ni. destruct (H3 i Hi (N1 i Ni)) as (d1 & D1 & L1). exists d1. auto.
    + intros i Hi Ni. apply Me. auto.
    + destruct H5 as [H5|H5]; [left|right].
      * intros t Nt. apply Me, H5. auto.
      * intros t Ht. destruct (H5 t Ht) as (u & Hu & Hl). exists u. split; auto. destruct (N3 u Hu) as [q ->]. discriminate.
    + intros t. destruct (forallb (fun x => tr_ltb (fst x) t) es) eqn:Ef.
      * left. intros u Hu. destruct (at_key triple_eq_dec es u) as [q|] eqn:Eu; [|tauto]. apply K2 in Eu.
        rewrite forallb_forall in Ef. apply tr_ltb_lt. exact (Ef _ Eu).
      * right. assert (exists x, In x es /\ tr_ltb (fst x) t = false) as (x & Hxin & Hxt).
        { clear - Ef. induction es as [|y es IH]; simpl in Ef; [discriminate|]. apply andb_false_iff in Ef.
          destruct Ef as [Ef|Ef]; [exists y; simpl; auto|]. destruct (IH Ef) as (x & Hx & Hy). exists x. simpl. auto. }
        exists (fst x). split.
        -- destruct (N3 (fst x) (in_map fst _ _ Hxin)) as [q ->]. discriminate.
        -- destruct (tr_ltb t (fst x)) eqn:Et; [right; now apply tr_ltb_lt|left; now apply tr_total].
Qed.
End Beside.

Section Self.
Context {k : idkind} {NP EP E : Type} (mn : NP -> NP -> NP) (me : EP -> EP -> EP).
Notation M := (mem k NP EP).
Lemma self_has (m : M) g : reachable E mn me m -> shows m g ->
  (forall i, g_node g i <> None <-> In i (map fst (node_props m))) /\ (forall t, g_edge g t <> None <-> In t (map fst (edge_items SPO m))).
Proof.
  intros R S. pose proof (reachable_agree _ _ _ R) as A. apply shows_iff in S; auto. destruct S as [S1 S2]. split.
  - intros i. rewrite <- S1. simpl. split.
    + destruct (nprop m i) as [p|] eqn:Ei; [|tauto]. intros _. apply in_map_iff. exists (i, p). split; auto. now apply node_props_in.
    + intros Hin. apply in_map_iff in Hin. destruct Hin as ([j p] & <- & Hin). apply node_props_in in Hin; auto. simpl. congruence.
  - intros i. rewrite <- S2. simpl. split.
    + destruct (abs_edge m i) as [p|] eqn:Ei; [|tauto]. intros _. apply in_map_iff. exists (i, p). split; auto. now apply edge_items_in.
    + intros Hin. apply in_map_iff in Hin. destruct Hin as ([j p] & <- & Hin). apply edge_items_in in Hin; auto. simpl. congruence.
Qed.
End Self.

Lemma union_beside : forall k NP EP SE BE E (cn : codec BE NP) (ce : codec BE EP) mn me
    (ls : list (life (k := k) (NP := NP) (EP := EP) (SE := SE) (E := E)))
    (cs : list (handle k * list (op k NP EP E))) (wcuts : nat -> nat -> cutting) (cuts cuts' : list bytes)
    (schedule : list (nat * option SE)) gn (m : mem k NP EP) g (a : result (set_error unit (sled_error SE BE) unit) (mem k NP EP)),
  codec_ok cn -> codec_ok ce -> NoDup (life_keys ls ++ session_keys cs) ->
  let d := lives cn ce mn me ls db_new in
  let ps := beside (union_live cn ce gn cuts cuts' m) (l_callers cn ce mn me wcuts 0 cs) in
  has_read a (fst (interleave schedule ps d)) ->
  reachable (sled_error SE BE) mn me m -> shows m g ->
  (exists x, a = Err (SetRight x) /\ ((exists y, met schedule y /\ x = SledError y) \/ (x = MissingPropertyData /\ exists t, rewritten cs t))) \/
  exists r, a = Ok r /\ (drawn_distinct (id_generator r) -> exists c, shows r c /\
    (forall i p, g_node c i = Some p -> node_was cn schedule ps d i p \/ (g_node g i = Some p /\ node_missing cn schedule ps d i)) /\
    (forall i, g_node c i = None -> g_node g i = None /\ node_missing cn schedule ps d i) /\
    (forall t e, g_edge c t = Some e -> edge_was ce schedule ps d t e \/ (g_edge g t = Some e /\ edge_missing ce schedule ps d t)) /\
    (forall t, g_edge c t = None -> g_edge g t = None /\ edge_missing ce schedule ps d t)).
Proof.
  intros k NP EP SE BE E cn ce mn me ls cs wcuts cuts cuts' schedule gn m g a Hn He Hd d ps Hx R S.
  destruct (set_beside cn ce mn me ls cs wcuts schedule Hn He Hd _ _ _ _ a
    (fun F w => rg_union cn ce (fun t => ~ rewritten cs t) F gn cuts cuts' m w) Hx)
    as [H|(s & b & r & -> & Hop & Hb & H1 & H2 & H3 & H4 & _)]; [now left|right]. exists r. split; auto. intros D.
  destruct (shows_union (E := sled_error SE BE) mn me gn s m g b R S Hb) as (r' & Hr & Hs). rewrite Hop in Hr. injection Hr as <-.
  exists (g_union g b). split; auto. fold d ps in H1, H2, H3, H4. cbn [g_node g_edge g_union]. split; [|split; [|split]].
  - intros i p. destruct (g_node b i) as [q|] eqn:Eb; [intros [= <-]; auto|]. right. auto.
  - intros i. destruct (g_node b i) as [q|] eqn:Eb; [discriminate|]. auto.
  - intros i p. destruct (g_edge b i) as [q|] eqn:Eb; [intros [= <-]; auto|]. right. auto.
  - intros i. destruct (g_edge b i) as [q|] eqn:Eb; [discriminate|]. auto.
Qed.

Lemma intersection_beside : forall k NP EP SE BE E (cn : codec BE NP) (ce : codec BE EP) mn me
    (ls : list (life (k := k) (NP := NP) (EP := EP) (SE := SE) (E := E)))
    (cs : list (handle k * list (op k NP EP E))) (wcuts : nat -> nat -> cutting) (cuts cuts' : list bytes)
    (schedule : list (nat * option SE)) gn (m : mem k NP EP) g (a : result (set_error unit (sled_error SE BE) unit) (mem k NP EP)),
  codec_ok cn -> codec_ok ce -> NoDup (life_keys ls ++ session_keys cs) ->
  let d := lives cn ce mn me ls db_new in
  let ps := beside (intersection_live cn ce gn cuts cuts' m) (l_callers cn ce mn me wcuts 0 cs) in
  has_read a (fst (interleave schedule ps d)) ->
  reachable (sled_error SE BE) mn me m -> shows m g ->
  (exists x, a = Err (SetRight x) /\ ((exists y, met schedule y /\ x = SledError y) \/ (x = MissingPropertyData /\ exists t, rewritten cs t))) \/
  exists r, a = Ok r /\ (drawn_distinct (id_generator r) -> exists c, shows r c /\
    (forall i p, g_node c i = Some p -> g_node g i = Some p /\ exists q, node_was cn schedule ps d i q) /\
    (forall i, g_node g i <> None -> g_node c i = None -> node_missing cn schedule ps d i) /\
    (forall t e, g_edge c t = Some e -> g_edge g t = Some e /\ exists q, edge_was ce schedule ps d t q) /\
    (forall t, g_edge g t <> None -> g_edge c t = None -> edge_missing ce schedule ps d t)).
Proof.
  intros k NP EP SE BE E cn ce mn me ls cs wcuts cuts cuts' schedule gn m g a Hn He Hd d ps Hx R S.
  destruct (set_beside cn ce mn me ls cs wcuts schedule Hn He Hd _ _ _ _ a
    (fun F w => rg_intersection cn ce (fun t => ~ rewritten cs t) F gn cuts cuts' m w) Hx)
    as [H|(s & b & r & -> & Hop & Hb & H1 & H2 & H3 & H4 & _)]; [now left|right]. exists r. split; auto. intros D.
  destruct (shows_intersection (E := sled_error SE BE) mn me gn s m g b R S Hb) as (r' & Hr & Hs). rewrite Hop in Hr. injection Hr as <-.
  destruct (self_has (E := sled_error SE BE) mn me m g R S) as [M1 M2].
  exists (g_inter g b). split; auto. fold d ps in H1, H2, H3, H4. cbn [g_node g_edge g_inter]. split; [|split; [|split]].
  - intros i p. destruct (g_node b i) as [q|] eqn:Eb; [|discriminate]. eauto.
  - intros i Hi. destruct (g_node b i) as [q|] eqn:Eb; [tauto|]. intros _. apply H3; auto. exists i. split; [now apply M1|auto].
  - intros i p. destruct (g_edge b i) as [q|] eqn:Eb; [|discriminate]. eauto.
  - intros i Hi. destruct (g_edge b i) as [q|] eqn:Eb; [tauto|]. intros _. apply H4; auto. now apply M2.
Qed.

Lemma difference_beside : forall k NP EP SE BE E (cn : codec BE NP) (ce : codec BE EP) mn me
    (ls : list (life (k := k) (NP := NP) (EP := EP) (SE := SE) (E := E)))
    (cs : list (handle k * list (op k NP EP E))) (wcuts : nat -> nat -> cutting) (cuts cuts' : list bytes)
    (schedule : list (nat * option SE)) gn (m : mem k NP EP) g (a : result (set_error unit (sled_error SE BE) unit) (mem k NP EP)),
  codec_ok cn -> codec_ok ce -> NoDup (life_keys ls ++ session_keys cs) ->
  let d := lives cn ce mn me ls db_new in
  let ps := beside (difference_live cn ce gn cuts cuts' m) (l_callers cn ce mn me wcuts 0 cs) in
  has_read a (fst (interleave schedule ps d)) ->
  reachable (sled_error SE BE) mn me m -> shows m g ->
  (exists x, a = Err (SetRight x) /\ ((exists y, met schedule y /\ x = SledError y) \/ (x = MissingPropertyData /\ exists t, rewritten cs t))) \/
  exists r, a = Ok r /\ (drawn_distinct (id_generator r) -> exists c, shows r c /\
    (forall i p, g_node c i = Some p -> g_node g i = Some p /\ node_missing cn schedule ps d i) /\
    (forall i, g_node g i <> None -> g_node c i = None -> exists q, node_was cn schedule ps d i q) /\
    (forall t e, g_edge c t = Some e -> g_edge g t = Some e /\ edge_missing ce schedule ps d t /\
       forall v, v = sub t \/ v = obj t -> (exists j, g_node g j <> None /\ (v = j \/ id_lt v j)) ->
         node_missing cn schedule ps d v \/ forall u, edge_lt SPO t u -> edge_missing ce schedule ps d u) /\
    (forall t, g_edge g t <> None -> g_edge c t = None -> (exists q, edge_was ce schedule ps d t q) \/
       exists v q u e, (v = sub t \/ v = obj t) /\ (exists j, g_node g j <> None /\ (v = j \/ id_lt v j)) /\
         node_was cn schedule ps d v q /\ edge_lt SPO t u /\ edge_was ce schedule ps d u e)).
Proof.
  intros k NP EP SE BE E cn ce mn me ls cs wcuts cuts cuts' schedule gn m g a Hn He Hd d ps Hx R S.
  destruct (set_beside cn ce mn me ls cs wcuts schedule Hn He Hd _ _ _ _ a
    (fun F w => rg_difference cn ce (fun t => ~ rewritten cs t) F gn cuts cuts' m w) Hx)
    as [H|(s & b & r & -> & Hop & Hb & H1 & H2 & H3 & H4 & H5 & H6)]; [now left|right]. exists r. split; auto. intros D.
  destruct (shows_difference (E := sled_error SE BE) mn me gn s m g b R S Hb) as (r' & Hr & Hs). rewrite Hop in Hr. injection Hr as <-.
  destruct (self_has (E := sled_error SE BE) mn me m g R S) as [M1 M2].
  destruct (Hs D) as (c & Sc & Cn & Ce). exists c. split; auto. fold d ps in H1, H2, H3, H4, H5.
  assert (forall v, (exists j, g_node g j <> None /\ (v = j \/ id_lt v j)) -> upto m v) as Up.
  { intros v (j & Hj & Hv). exists j. split; auto. now apply M1. }
  split; [|split; [|split]].
  - intros i p. rewrite Cn. unfold g_minus_nodes. destruct (g_node b i) as [q|] eqn:Eb; [discriminate|]. intros Hg. split; auto.
    apply H3; auto. exists i. split; auto. apply M1. congruence.
  - intros i Hi. rewrite Cn. unfold g_minus_nodes. destruct (g_node b i) as [q|] eqn:Eb; [eauto|]. tauto.
  - intros t e Ht. apply Ce in Ht. destruct Ht as (G1 & G2 & G3). assert (In t (map fst (edge_items SPO m))) as Ht by (apply M2; congruence).
    split; auto. split; [auto|]. intros v Hv Hj. destruct G3 as [G3|G3].
    + right. intros u Hu. destruct (g_edge b u) as [q|] eqn:Eu.
      * exfalso. apply (edge_lt_irr SPO t). eapply edge_lt_tr; [exact Hu|]. apply G3. congruence.
      * destruct H5 as [H5|H5]; auto. destruct (H5 t Ht) as (u' & Hu' & Hl). specialize (G3 u' Hu'). exfalso.
        destruct Hl as [<-|Hl]; [exact (edge_lt_irr SPO _ G3)|]. apply (edge_lt_irr SPO t). eapply edge_lt_tr; eauto.
    + left. apply H3; auto. destruct (g_node b v) as [q|] eqn:Ev; auto. exfalso.
      assert (hidden g b v) as Hh by (split; [congruence|exact Hj]). destruct G3 as [G3 G4]. destruct Hv as [->| ->]; auto.
  - intros t Ht Hc. destruct (g_edge b t) as [q|] eqn:Eb; [left; eauto|right].
    assert (forall v, {q | g_node b v = Some q} + {g_node b v = None}) as Dv by (intros v; destruct (g_node b v); eauto).
    destruct (g_edge g t) as [e|] eqn:Eg; [|tauto]. clear Ht.
    assert (forall v, hidden g b v \/ ~ hidden g b v) as Dh.
    { intros v. destruct (Dv v) as [[q Hq]|Hq]; [|right; intros [N _]; contradiction].
      destruct (existsb (fun j => negb (id_ltb j v)) (map fst (node_props m))) eqn:Ex.
      - left. split; [congruence|]. apply existsb_exists in Ex. destruct Ex as (j & Hj & Hl). exists j. split; [now apply M1|].
        apply negb_true_iff in Hl. destruct (id_ltb v j) eqn:El; [right; now apply id_ltb_lt|left; now apply id_total].
      - right. intros (_ & j & Hj & Hl). apply M1 in Hj.
        assert (existsb (fun j => negb (id_ltb j v)) (map fst (node_props m)) = true); [|congruence].
        apply existsb_exists. exists j. split; auto. apply negb_true_iff. destruct (id_ltb j v) eqn:El; auto.
        apply id_ltb_lt in El. exfalso. destruct Hl as [->|Hl]; [exact (id_lt_irr _ El)|]. apply (id_lt_irr v). eapply id_lt_tr; eauto. }
    destruct (H6 t) as [All|(u & Hu & Hl)].
    { exfalso. assert (g_edge c t = Some e) as H; [|congruence]. apply Ce. split; auto. }
    destruct (g_edge b u) as [qu|] eqn:Eu; [|tauto]. assert (edge_lt SPO t u) as Hlt by (destruct Hl as [->|Hl]; [congruence|exact Hl]).
    assert (exists v, (v = sub t \/ v = obj t) /\ hidden g b v) as (v & Hv & Hh).
    { destruct (Dh (sub t)) as [H|N1]; [eauto|]. destruct (Dh (obj t)) as [H|N2]; [eauto|].
      exfalso. assert (g_edge c t = Some e) as H; [|congruence]. apply Ce. split; auto. }
    destruct Hh as [Hh Hj]. destruct (g_node b v) as [q|] eqn:Ev; [|tauto]. exists v, q, u, qu. auto 10.
Qed.
