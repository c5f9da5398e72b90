(** try_eq with a sled store in use: the graphs. *)
From Coq Require Import Arith NArith List Bool Sorted Lia.
From Verif Require Import Bytes BytesFacts OMap OMapFacts Core IdType IdTypeFacts Store Mem Spec
  CodecFacts ListFacts MemFacts MemSim MemSetFacts EqFacts History MemTop Prog ProgFacts Sled SledHistory SledTables
  SledLeaf SledLazy SledBeside SledRely SledBesideTop SledReaders SledReadTop SledCopy SledCopyFacts SledSetLive SledSetLiveFacts SledSetLiveTop
  SledEqLive SledEqLiveFacts.
Import ListNotations.

Lemma sorted_keys {A P} (lt : A -> A -> Prop) (l : list (A * P)) : StronglySorted (fun x y => lt (fst x) (fst y)) l ->
  StronglySorted lt (map fst l).
Proof.
  induction 1 as [|x l Hs IH Hf]; simpl; constructor; auto. apply Forall_forall. intros a Ha. apply in_map_iff in Ha.
  destruct Ha as (y & <- & Hy). rewrite Forall_forall in Hf. auto.
Qed.

Section Beside.
Context {k : idkind} {NP EP SE BE E X : Type} (cn : codec BE NP) (ce : codec BE EP) (mn : NP -> NP -> NP) (me : EP -> EP -> EP).
Notation I := (Id k).
Notation T := (triple (Id k)).
Notation err := (sled_error SE BE).
Notation M := (mem k NP EP).
Context (side : err -> X) (nodeq : I * NP -> I * NP -> bool) (edgeq : T * EP -> T * EP -> bool)
  (neqb : NP -> NP -> bool) (eeqb : EP -> EP -> bool)
  (Hnodeq : forall x y, nodeq x y = true <-> fst x = fst y /\ neqb (snd x) (snd y) = true)
  (Hedgeq : forall x y, edgeq x y = true <-> fst x = fst y /\ eeqb (snd x) (snd y) = true).

Lemma eq_beside (ls : list (life (k := k) (NP := NP) (EP := EP) (SE := SE) (E := E)))
    (cs : list (handle k * list (op k NP EP E))) (wcuts : nat -> nat -> cutting) (cuts cuts' : list bytes)
    (schedule : list (nat * option SE)) (m : M) g (a : result X bool) :
  codec_ok cn -> codec_ok ce -> NoDup (life_keys ls ++ session_keys cs) ->
  let d := lives cn ce mn me ls db_new in
  let ps := beside (eq_live cn ce side nodeq edgeq cuts cuts' m) (l_callers cn ce mn me wcuts 0 cs) in
  has_read a (fst (interleave schedule ps d)) ->
  reachable err mn me m -> shows m g ->
  (exists x, (a = Err (side x) \/ a = Ok false) /\
     ((exists y, met schedule y /\ x = SledError y) \/ (x = MissingPropertyData /\ exists t, rewritten cs t))) \/
  (a = Ok true /\
    (forall i p, g_node g i = Some p -> exists q, node_was cn schedule ps d i q /\ neqb p q = true) /\
    (forall i, g_node g i = None -> node_missing cn schedule ps d i) /\
    (forall t e, g_edge g t = Some e -> exists q, edge_was ce schedule ps d t q /\ eeqb e q = true) /\
    (forall t, g_edge g t = None -> edge_missing ce schedule ps d t)) \/
  (a = Ok false /\
    ((exists i p, g_node g i = Some p /\
        (node_missing cn schedule ps d i \/ exists q, node_was cn schedule ps d i q /\ neqb p q = false)) \/
     (exists i q, g_node g i = None /\ node_was cn schedule ps d i q) \/
     (exists t e, g_edge g t = Some e /\
        (edge_missing ce schedule ps d t \/ exists q, edge_was ce schedule ps d t q /\ eeqb e q = false)) \/
     (exists t q, g_edge g t = None /\ edge_was ce schedule ps d t q))).
Proof.
  intros Hn He Hd d ps Hx R S. pose proof (reachable_agree _ _ _ R) as A. set (keep := fun t : T => ~ rewritten cs t).
  assert (StronglySorted id_lt (map fst (node_props m))) as Sn by (apply sorted_keys, (nsorted_props m A)).
  assert (StronglySorted (edge_lt SPO) (map fst (edge_items SPO m))) as Se by (apply sorted_keys, (edge_items_sorted SPO m A)).
  destruct (beside_reads (k := k) cn ce keep Hn He mn me (eq_live cn ce side nodeq edgeq cuts cuts' m)
    (fun F => told cn ce keep F side neqb eeqb m) ls cs wcuts schedule Hd (adds_spared _)
    (fun F a w1 w2 => told_later cn ce keep F side neqb eeqb m a w1 w2)
    (fun F w => rg_eq_live cn ce keep F side nodeq edgeq neqb eeqb Hnodeq Hedgeq m Sn Se cuts cuts' w) a Hx) as (w & Hw & Hpast).
  fold d ps in Hpast.
  destruct (self_has (E := err) mn me m g R S) as [M1 M2]. apply shows_iff in S; auto. destruct S as [S1 S2]. simpl in S1, S2.
  assert (forall i p, In (i, p) (node_props m) <-> g_node g i = Some p) as K1 by (intros; rewrite <- S1; now apply node_props_in).
  assert (forall t e, In (t, e) (edge_items SPO m) <-> g_edge g t = Some e) as K2 by (intros; rewrite <- S2; now apply edge_items_in).
  assert (forall i, ~ In i (map fst (node_props m)) <-> g_node g i = None) as K3.
  { intros i. rewrite <- M1. destruct (g_node g i); split; intros H; try congruence. exfalso. apply H. discriminate. }
  assert (forall t, ~ In t (map fst (edge_items SPO m)) <-> g_edge g t = None) as K4.
  { intros i. rewrite <- M2. destruct (g_edge g i); split; intros H; try congruence. exfalso. apply H. discriminate. }
  assert (forall i p, was_node (SE := SE) cn ce keep w i p -> node_was cn schedule ps d i p) as W1 by (intros i p (d1 & D1 & L1); exists d1; auto).
  assert (forall i p, was_edge (SE := SE) cn ce keep SPO w i p -> edge_was ce schedule ps d i p) as W2 by (intros i p (d1 & D1 & L1); exists d1; auto).
  assert (forall i, no_node (SE := SE) cn ce keep w i -> node_missing cn schedule ps d i) as W3 by (intros i (d1 & D1 & L1); exists d1; auto).
  assert (forall i, no_edge (SE := SE) cn ce keep w i -> edge_missing ce schedule ps d i) as W4 by (intros i (d1 & D1 & L1); exists d1; auto).
  destruct Hw as [(x & Ha & Hf)|[(-> & [G1 G2] & [G3 G4])|(-> & [[(i & p & Hi & Hd')|(i & q & Hi & Hd')]|[(i & p & Hi & Hd')|(i & q & Hi & Hd')]])]].
  - left. exists x. split; auto. destruct Hf as [Hf|[-> [t Ht]]]; [left; exact Hf|]. right. split; auto. exists t. now apply rewritten_not.
  - right. left. split; auto. split; [|split; [|split]].
    + intros i p Hi. apply K1 in Hi. destruct (G1 i p Hi) as (q & Hq & Eq). eauto.
    + intros i Hi. apply W3, G2, K3, Hi.
    + intros i p Hi. apply K2 in Hi. destruct (G3 i p Hi) as (q & Hq & Eq). eauto.
    + intros i Hi. apply W4, G4, K4, Hi.
  - right. right. split; auto. left. exists i, p. apply K1 in Hi. split; auto. destruct Hd' as [Hd'|(q & Hq & Eq)]; eauto.
  - right. right. split; auto. right. left. exists i, q. apply K3 in Hi. auto.
  - right. right. split; auto. right. right. left. exists i, p. apply K2 in Hi. split; auto. destruct Hd' as [Hd'|(q & Hq & Eq)]; eauto.
  - right. right. split; auto. right. right. right. exists i, q. apply K4 in Hi. auto.
Qed.
End Beside.

Lemma mem_eq_beside : forall k NP EP SE BE E (cn : codec BE NP) (ce : codec BE EP) mn me (neqb : NP -> NP -> bool) (eeqb : EP -> EP -> bool)
    (ls : list (life (k := k) (NP := NP) (EP := EP) (SE := SE) (E := E)))
    (cs : list (handle k * list (op k NP EP E))) (wcuts : nat -> nat -> cutting) (cuts cuts' : list bytes)
    (schedule : list (nat * option SE)) (m : mem k NP EP) g a,
  codec_ok cn -> codec_ok ce -> NoDup (life_keys ls ++ session_keys cs) ->
  let d := lives cn ce mn me ls db_new in
  let ps := beside (mem_eq_live cn ce neqb eeqb cuts cuts' m) (l_callers cn ce mn me wcuts 0 cs) in
  has_read a (fst (interleave schedule ps d)) ->
  reachable (sled_error SE BE) mn me m -> shows m g ->
  (exists x, (a = Err (RightE x) \/ a = Ok false) /\
     ((exists y, met schedule y /\ x = SledError y) \/ (x = MissingPropertyData /\ exists t, rewritten cs t))) \/
  (a = Ok true /\
    (forall i p, g_node g i = Some p -> exists q, node_was cn schedule ps d i q /\ neqb p q = true) /\
    (forall i, g_node g i = None -> node_missing cn schedule ps d i) /\
    (forall t e, g_edge g t = Some e -> exists q, edge_was ce schedule ps d t q /\ eeqb e q = true) /\
    (forall t, g_edge g t = None -> edge_missing ce schedule ps d t)) \/
  (a = Ok false /\
    ((exists i p, g_node g i = Some p /\
        (node_missing cn schedule ps d i \/ exists q, node_was cn schedule ps d i q /\ neqb p q = false)) \/
     (exists i q, g_node g i = None /\ node_was cn schedule ps d i q) \/
     (exists t e, g_edge g t = Some e /\
        (edge_missing ce schedule ps d t \/ exists q, edge_was ce schedule ps d t q /\ eeqb e q = false)) \/
     (exists t q, g_edge g t = None /\ edge_was ce schedule ps d t q))).
Proof.
  intros k NP EP SE BE E cn ce mn me neqb eeqb ls cs wcuts cuts cuts' schedule m g a Hn He Hd d ps Hx R S.
  eapply (eq_beside cn ce mn me RightE _ _ neqb eeqb); eauto.
  - intros x y. apply (pair_eqb_item id_eqb neqb id_eqb_eq).
  - intros x y. apply (pair_eqb_item _ eeqb triple_eqb_eq).
Qed.

Lemma sled_eq_beside : forall k NP EP SE BE E (cn : codec BE NP) (ce : codec BE EP) mn me (neqb : NP -> NP -> bool) (eeqb : EP -> EP -> bool)
    (ls : list (life (k := k) (NP := NP) (EP := EP) (SE := SE) (E := E)))
    (cs : list (handle k * list (op k NP EP E))) (wcuts : nat -> nat -> cutting) (cuts cuts' : list bytes)
    (schedule : list (nat * option SE)) (m : mem k NP EP) g a,
  codec_ok cn -> codec_ok ce -> NoDup (life_keys ls ++ session_keys cs) ->
  let d := lives cn ce mn me ls db_new in
  let ps := beside (sled_eq_live cn ce neqb eeqb cuts cuts' m) (l_callers cn ce mn me wcuts 0 cs) in
  has_read a (fst (interleave schedule ps d)) ->
  reachable (sled_error SE BE) mn me m -> shows m g ->
  (exists x, (a = Err (LeftE x) \/ a = Ok false) /\
     ((exists y, met schedule y /\ x = SledError y) \/ (x = MissingPropertyData /\ exists t, rewritten cs t))) \/
  (a = Ok true /\
    (forall i p, g_node g i = Some p -> exists q, node_was cn schedule ps d i q /\ neqb q p = true) /\
    (forall i, g_node g i = None -> node_missing cn schedule ps d i) /\
    (forall t e, g_edge g t = Some e -> exists q, edge_was ce schedule ps d t q /\ eeqb q e = true) /\
    (forall t, g_edge g t = None -> edge_missing ce schedule ps d t)) \/
  (a = Ok false /\
    ((exists i p, g_node g i = Some p /\
        (node_missing cn schedule ps d i \/ exists q, node_was cn schedule ps d i q /\ neqb q p = false)) \/
     (exists i q, g_node g i = None /\ node_was cn schedule ps d i q) \/
     (exists t e, g_edge g t = Some e /\
        (edge_missing ce schedule ps d t \/ exists q, edge_was ce schedule ps d t q /\ eeqb q e = false)) \/
     (exists t q, g_edge g t = None /\ edge_was ce schedule ps d t q))).
Proof.
  intros k NP EP SE BE E cn ce mn me neqb eeqb ls cs wcuts cuts cuts' schedule m g a Hn He Hd d ps Hx R S.
  eapply (eq_beside cn ce mn me LeftE _ _ (fun p q => neqb q p) (fun p q => eeqb q p)); eauto.
  - intros x y. cbv beta. rewrite (pair_eqb_item id_eqb neqb id_eqb_eq). unfold item_eq. intuition.
  - intros x y. cbv beta. rewrite (pair_eqb_item _ eeqb triple_eqb_eq). unfold item_eq. intuition.
Qed.
