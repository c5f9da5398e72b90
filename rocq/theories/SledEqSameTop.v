(** What try_eq of two handles of one database tells. *)
From Coq Require Import Arith NArith List Bool Sorted.
From Verif Require Import Bytes OMap OMapFacts Core IdType IdTypeFacts Store Mem MemIndex Spec GenSpec CodecFacts ListFacts EqFacts History MemTop Prog ProgFacts Sled SledHistory SledDb SledRead SledTables SledTop SledLeaf SledLeafFacts SledLazy SledLazyTop
  SledIndex Rdf RdfSpec RdfSled RdfSledSpec SledCopy SledTwo SledTwoTop SledEqTwo SledEqTwoTop SledEqTwoAlone RdfSledTwo RdfSledEqTwo RdfSledEqTwoFacts RdfSledEqTwoTop
  RdfSledSafe RdfSledMain SledEqSame SledEqSameFacts SledBeside RdfSledLeaf.
Import ListNotations.

Section Mono.
Context {k : idkind} {NP EP SE BE : Type} (cn : codec BE NP) (ce : codec BE EP) (seen seen' : db -> Prop) (H : forall d, seen d -> seen' d).
Lemma had_node_mono i p : had_node (k := k) (SE := SE) cn seen i p -> had_node (k := k) (SE := SE) cn seen' i p.
Proof. intros (d1 & D1 & L). exists d1. auto. Qed.
Lemma lacked_node_mono i : lacked_node (k := k) (SE := SE) cn seen i -> lacked_node (k := k) (SE := SE) cn seen' i.
Proof. intros (d1 & D1 & L). exists d1. auto. Qed.
Lemma had_edge_mono t p : had_edge (k := k) (SE := SE) ce seen t p -> had_edge (k := k) (SE := SE) ce seen' t p.
Proof. intros (d1 & D1 & L). exists d1. auto. Qed.
Lemma lacked_edge_mono t : lacked_edge (k := k) (SE := SE) ce seen t -> lacked_edge (k := k) (SE := SE) ce seen' t.
Proof. intros (d1 & D1 & L). exists d1. auto. Qed.
End Mono.
Section Compare.
Context {A P : Type} (eqp : P -> P -> bool) (h h' g g' : A -> P -> Prop) (l l' m m' : A -> Prop)
  (Hh : forall a p, h a p -> g a p) (Hh' : forall a p, h' a p -> g' a p) (Hl : forall a, l a -> m a) (Hl' : forall a, l' a -> m' a).
Lemma agree_mono a : agree_at eqp h h' l l' a -> agree_at eqp g g' m m' a.
Proof. intros [(p & q & H1 & H2 & E)|[H1 H2]]; [left; exists p, q; auto|right; auto]. Qed.
Lemma differ_mono a : differ_at eqp h h' l l' a -> differ_at eqp g g' m m' a.
Proof.
  intros [(p & H1 & H2)|[(q & H1 & H2)|(p & q & H1 & H2 & E)]]; [left; exists p; auto|right; left; exists q; auto|right; right; exists p, q; auto].
Qed.
End Compare.

Lemma eq_same_beside : forall k NP EP SE BE E (cn : codec BE NP) (ce : codec BE EP) mn me (neqb : NP -> NP -> bool) (eeqb : EP -> EP -> bool)
    (ls : list (life (k := k) (NP := NP) (EP := EP) (SE := SE) (E := E))) (cs : list (handle k * list (op k NP EP E))) (wcuts : nat -> nat -> cutting)
    (cuts ecuts cuts' ecuts' : list bytes) (schedule : list (nat * option SE)) a,
  codec_ok cn -> codec_ok ce -> NoDup (life_keys ls ++ session_keys cs) ->
  let d := lives cn ce mn me ls db_new in
  let ps := beside (eq_same (k := k) cn ce neqb eeqb cuts ecuts cuts' ecuts') (l_callers cn ce mn me wcuts 0 cs) in
  has_read a (fst (interleave schedule ps d)) ->
  let had_node := had_node (k := k) (SE := SE) cn (during schedule ps d) in
  let lacked_node := lacked_node (k := k) (SE := SE) cn (during schedule ps d) in
  let had_edge := had_edge (k := k) (SE := SE) ce (during schedule ps d) in
  let lacked_edge := lacked_edge (k := k) (SE := SE) ce (during schedule ps d) in
  (exists x, (a = Err (LeftE x) \/ a = Err (RightE x) \/ a = Ok false) /\
     ((exists y, met schedule y /\ x = SledError y) \/ (x = MissingPropertyData /\ exists t, rewritten cs t))) \/
  (a = Ok true /\
    (forall i, agree_at neqb had_node had_node lacked_node lacked_node i) /\ (forall t, agree_at eeqb had_edge had_edge lacked_edge lacked_edge t)) \/
  (a = Ok false /\
    ((exists i, differ_at neqb had_node had_node lacked_node lacked_node i) \/ (exists t, differ_at eeqb had_edge had_edge lacked_edge lacked_edge t))).
Proof.
  intros k NP EP SE BE E cn ce mn me neqb eeqb ls cs wcuts cuts ecuts cuts' ecuts' schedule a Hn He Hd d ps Ha had_n lacked_n had_e lacked_e.
  pose proof (fused_eq (k := k) (SE := SE) cn ce neqb eeqb cuts ecuts cuts' ecuts') as Hf.
  destruct (fused_read _ _ _ _ _ _ Hf Ha) as [ws1 Hi].
  pose proof (fun d1 H => fused_during _ _ (l_callers cn ce mn me wcuts 0 cs) d schedule d1 Hf (or_introl H)) as Hs. fold ps in Hs.
  pose proof (fun d1 H => fused_during _ _ (l_callers cn ce mn me wcuts 0 cs) d schedule d1 Hf (or_intror H)) as Hs'. fold ps in Hs'.
  destruct (eq_two k NP EP SE BE BE E E cn ce cn ce mn me mn me neqb eeqb ls cs wcuts ls cs wcuts cuts ecuts cuts' ecuts' (twice schedule) a ws1 ws1 _
    Hn He Hn He Hd Hd Hi) as [(x & Hx & Hw)|[(x & Hx & Hw)|[(-> & HN & HE)|(-> & HD)]]].
  - left. exists x. split; [tauto|]. destruct Hw as [(y & Hy & ->)|Hw]; [left; exists y; split; auto; now apply twice_met|right; exact Hw].
  - left. exists x. split; [tauto|]. destruct Hw as [(y & Hy & ->)|Hw]; [left; exists y; split; auto; now apply twice_met|right; exact Hw].
  - right. left. split; auto. split.
    + intros i. eapply agree_mono; [| | | |exact (HN i)]; intros; eauto using had_node_mono, lacked_node_mono.
      * eapply had_node_mono; [exact Hs|]; eauto.
      * eapply had_node_mono; [exact Hs'|]; eauto.
      * eapply lacked_node_mono; [exact Hs|]; eauto.
      * eapply lacked_node_mono; [exact Hs'|]; eauto.
    + intros i. eapply agree_mono; [| | | |exact (HE i)]; intros.
      * eapply had_edge_mono; [exact Hs|]; eauto.
      * eapply had_edge_mono; [exact Hs'|]; eauto.
      * eapply lacked_edge_mono; [exact Hs|]; eauto.
      * eapply lacked_edge_mono; [exact Hs'|]; eauto.
  - right. right. split; auto. destruct HD as [[i HD]|[t HD]]; [left; exists i|right; exists t]; (eapply differ_mono; [| | | |exact HD]); intros.
    + eapply had_node_mono; [exact Hs|]; eauto.
    + eapply had_node_mono; [exact Hs'|]; eauto.
    + eapply lacked_node_mono; [exact Hs|]; eauto.
    + eapply lacked_node_mono; [exact Hs'|]; eauto.
    + eapply had_edge_mono; [exact Hs|]; eauto.
    + eapply had_edge_mono; [exact Hs'|]; eauto.
    + eapply lacked_edge_mono; [exact Hs|]; eauto.
    + eapply lacked_edge_mono; [exact Hs'|]; eauto.
Qed.

(** ** Named *)
Section Handed.
Context {S NP EP SE BE E : Type} (cs : codec BE S) (cu : codec BE (Id KUlid)) (cn : codec BE NP) (ce : codec BE EP).
Context (seen seen' : rdb -> Prop) (H : forall d, seen d -> seen' d) (last : rdb) (met1 met2 : SE -> Prop) (Hm : forall y, met1 y -> met2 y)
  (ts : list (rhandle * list (rop S NP EP E))).
Lemma handed_mono s : r_handed2 cs cu cn ce seen last met1 ts s -> r_handed2 cs cu cn ce seen' last met2 ts s.
Proof.
  assert (forall d1 i e, called SE cs cu (knowing SE cs cu seen d1) i e -> called SE cs cu (knowing SE cs cu seen' d1) i e) as Hc.
  { intros d1 i e (d2 & [Hd Hk] & Ee). exists d2. split; [split; [now apply H|exact Hk]|exact Ee]. }
  assert (forall z : rdf_error S (sled_index_error S (Id KUlid) SE BE) (sled_error SE BE), is_fault met1 z -> is_fault met2 z) as Hf
    by (intros z (y & Hy & Ez); exists y; auto).
  intros (H1 & H2 & H3 & H4 & H5 & H6). split; [|split; [|split; [|split; [|split]]]]; auto.
  - intros e p Hin. destruct (H1 e p Hin) as (i & d1 & D1 & L1 & C1). exists i, d1. auto.
  - intros t p Hin. destruct (H2 t p Hin) as (u & d1 & D1 & L1 & (C1 & C2 & C3)). exists u, d1. split; auto. split; auto. repeat split; auto.
  - intros z Hin. destruct (H6 z Hin); auto.
Qed.
Lemma all_nodes_mono (xs : list (result (rdf_error S (sled_index_error S (Id KUlid) SE BE) (sled_error SE BE)) (entity S * NP))) :
  r_all_nodes2 cs cu cn seen last xs -> r_all_nodes2 cs cu cn seen' last xs.
Proof. intros Ha e He. apply Ha. intros d1 D1. apply He, H, D1. Qed.
Lemma all_edges_mono (xs : list (result (rdf_error S (sled_index_error S (Id KUlid) SE BE) (sled_error SE BE)) (triple (entity S) * EP))) :
  r_all_edges2 cs cu ce seen last xs -> r_all_edges2 cs cu ce seen' last xs.
Proof. intros Ha e He. apply Ha. intros d1 D1. apply He, H, D1. Qed.
End Handed.
Lemma req_same_beside : forall S NP EP SE BE E (seqb : S -> S -> bool) (neqb : NP -> NP -> bool) (eeqb : EP -> EP -> bool)
  (cs : codec BE S) (cu : codec BE (Id KUlid)) (cn : codec BE NP) (ce : codec BE EP) mn me,
  (forall a b, seqb a b = true <-> a = b) ->
  codec_ok cs -> codec_ok cu -> codec_ok cn -> codec_ok ce -> codec_total cu ->
  forall (es : list (repoch (S := S) (NP := NP) (EP := EP) (SE := SE) (E := E))) (ts : list (rhandle * list (rop S NP EP E))) (wcuts : nat -> nat -> cutting)
    (cuts ecuts cuts' ecuts' : list bytes) (schedule : list (nat * option SE)) a,
  NoDup (flat_map epoch_keys es ++ callers_keys ts) -> Forall RdfSledSpec.calm es ->
  let d := rs_epochs cs cu cn ce mn me es rdb_new in
  let ps := beside (req_same seqb neqb eeqb cs cu cn ce cuts ecuts cuts' ecuts') (rl_callers cs cu cn ce mn me wcuts 0 ts) in
  has_read a (fst (interleave schedule ps d)) ->
  let seen := during schedule ps d in
  let last := snd (interleave schedule ps d) in
  let eq := try_eq (entity_eqb seqb) neqb eeqb in
  exists s s', a = eq (rs_nodes s) (rs_edges s) (rs_nodes s') (rs_edges s') /\
    r_handed2 cs cu cn ce seen last (met schedule) ts s /\ r_handed2 cs cu cn ce seen last (met schedule) ts s' /\
    (r_all_nodes2 cs cu cn seen last (rs_nodes s) \/ forall more edges edges', eq (rs_nodes s ++ more) edges (rs_nodes s') edges' = a) /\
    (r_all_nodes2 cs cu cn seen last (rs_nodes s') \/ forall more edges edges', eq (rs_nodes s) edges (rs_nodes s' ++ more) edges' = a) /\
    (r_all_edges2 cs cu ce seen last (rs_edges s) \/ forall more, eq (rs_nodes s) (rs_edges s ++ more) (rs_nodes s') (rs_edges s') = a) /\
    (r_all_edges2 cs cu ce seen last (rs_edges s') \/ forall more, eq (rs_nodes s) (rs_edges s) (rs_nodes s') (rs_edges s' ++ more) = a).
Proof.
  intros S NP EP SE BE E seqb neqb eeqb cs cu cn ce mn me Hseq Hcs Hcu Hcn Hce Htu es ts wcuts cuts ecuts cuts' ecuts' schedule a Hnd Hcalm d ps Ha seen last eq.
  pose proof (fused_req (SE := SE) seqb neqb eeqb cs cu cn ce cuts ecuts cuts' ecuts') as Hf.
  destruct (fused_read _ _ _ _ _ _ Hf Ha) as [ws1 Hi].
  pose proof (fun d1 H => fused_during _ _ (rl_callers cs cu cn ce mn me wcuts 0 ts) d schedule d1 Hf (or_introl H)) as Hs. fold ps seen in Hs.
  pose proof (fun d1 H => fused_during _ _ (rl_callers cs cu cn ce mn me wcuts 0 ts) d schedule d1 Hf (or_intror H)) as Hs'. fold ps seen in Hs'.
  destruct (req_two S NP EP SE BE BE E E seqb neqb eeqb cs cu cn ce cs cu cn ce mn me mn me Hseq Hcs Hcu Hcn Hce Htu Hcs Hcu Hcn Hce Htu
    es ts wcuts es ts wcuts cuts ecuts cuts' ecuts' (twice schedule) a ws1 ws1 _ Hnd Hcalm Hnd Hcalm Hi)
    as (s & s' & T & Hh & Hh' & An & An' & Ae & Ae').
  cbn [fst snd] in Hh, Hh', An, An', Ae, Ae'. fold ps last in Hh, Hh', An, An', Ae, Ae'.
  pose proof (fun y => twice_met schedule y) as Hm.
  exists s, s'. split; [exact T|]. split; [exact (handed_mono cs cu cn ce _ _ Hs last _ _ Hm ts s Hh)|].
  split; [exact (handed_mono cs cu cn ce _ _ Hs' last _ _ Hm ts s' Hh')|]. split; [|split; [|split]].
  - destruct An as [X|X]; [left; exact (all_nodes_mono cs cu cn _ _ Hs last _ X)|right; exact X].
  - destruct An' as [X|X]; [left; exact (all_nodes_mono cs cu cn _ _ Hs' last _ X)|right; exact X].
  - destruct Ae as [X|X]; [left; exact (all_edges_mono cs cu ce _ _ Hs last _ X)|right; exact X].
  - destruct Ae' as [X|X]; [left; exact (all_edges_mono cs cu ce _ _ Hs' last _ X)|right; exact X].
Qed.

Section Met.
Context {S NP EP SE BE : Type} (cs : codec BE S) (cu : codec BE (Id KUlid)) (cn : codec BE NP) (ce : codec BE EP) (seen seen' : rdb -> Prop) (H : forall d, seen d -> seen' d).
Lemma node_met_mono e p : node_met SE cs cu cn seen e p -> node_met SE cs cu cn seen' e p.
Proof. intros (i & d1 & D1 & L1 & (d2 & [Hd Hk] & Ee)). exists i, d1. split; [now apply H|]. split; [exact L1|]. exists d2. split; [split; [now apply H|exact Hk]|exact Ee]. Qed.
Lemma edge_met_mono t p : edge_met SE cs cu ce seen t p -> edge_met SE cs cu ce seen' t p.
Proof.
  intros (u & d1 & D1 & L1 & (C1 & C2 & C3)). exists u, d1. split; [now apply H|]. split; [exact L1|].
  split; [|split]; [destruct C1 as (d2 & [Hd Hk] & Ee)|destruct C2 as (d2 & [Hd Hk] & Ee)|destruct C3 as (d2 & [Hd Hk] & Ee)]; exists d2; (split; [split; [now apply H|exact Hk]|exact Ee]).
Qed.
End Met.
Lemma req_same_true : forall S NP EP SE BE E (seqb : S -> S -> bool) (neqb : NP -> NP -> bool) (eeqb : EP -> EP -> bool)
  (cs : codec BE S) (cu : codec BE (Id KUlid)) (cn : codec BE NP) (ce : codec BE EP) mn me,
  (forall a b, seqb a b = true <-> a = b) ->
  codec_ok cs -> codec_ok cu -> codec_ok cn -> codec_ok ce -> codec_total cu ->
  forall (es : list (repoch (S := S) (NP := NP) (EP := EP) (SE := SE) (E := E))) (ts : list (rhandle * list (rop S NP EP E))) (wcuts : nat -> nat -> cutting)
    (cuts ecuts cuts' ecuts' : list bytes) (schedule : list (nat * option SE)),
  NoDup (flat_map epoch_keys es ++ callers_keys ts) -> Forall RdfSledSpec.calm es ->
  let d := rs_epochs cs cu cn ce mn me es rdb_new in
  let ps := beside (req_same seqb neqb eeqb cs cu cn ce cuts ecuts cuts' ecuts') (rl_callers cs cu cn ce mn me wcuts 0 ts) in
  has_read (Ok true) (fst (interleave schedule ps d)) ->
  let seen := during schedule ps d in
  let last := snd (interleave schedule ps d) in
  let names := id_now (SE := SE) cs cu last in
  (forall e, node_stays SE cs cu cn seen names e -> exists e2 q q', by_name names e2 = by_name names e /\
     node_met SE cs cu cn seen e2 q /\ node_met SE cs cu cn seen e2 q' /\ neqb q q' = true) /\
  (forall t, edge_stays SE cs cu ce seen names t -> exists t2 q q', triple_map (by_name names) t2 = triple_map (by_name names) t /\
     edge_met SE cs cu ce seen t2 q /\ edge_met SE cs cu ce seen t2 q' /\ eeqb q q' = true).
Proof.
  intros S NP EP SE BE E seqb neqb eeqb cs cu cn ce mn me Hseq Hcs Hcu Hcn Hce Htu es ts wcuts cuts ecuts cuts' ecuts' schedule Hnd Hcalm d ps Ha seen last names.
  pose proof (fused_req (SE := SE) seqb neqb eeqb cs cu cn ce cuts ecuts cuts' ecuts') as Hf.
  destruct (fused_read _ _ _ _ _ _ Hf Ha) as [ws1 Hi].
  pose proof (fun d1 H => fused_during _ _ (rl_callers cs cu cn ce mn me wcuts 0 ts) d schedule d1 Hf (or_introl H)) as Hs. fold ps seen in Hs.
  pose proof (fun d1 H => fused_during _ _ (rl_callers cs cu cn ce mn me wcuts 0 ts) d schedule d1 Hf (or_intror H)) as Hs'. fold ps seen in Hs'.
  destruct (req_two_true S NP EP SE BE BE E E seqb neqb eeqb cs cu cn ce cs cu cn ce mn me mn me Hseq Hcs Hcu Hcn Hce Htu Hcs Hcu Hcn Hce Htu
    es ts wcuts es ts wcuts cuts ecuts cuts' ecuts' (twice schedule) ws1 ws1 _ Hnd Hcalm Hnd Hcalm Hi) as (HN & _ & HE & _).
  cbn [fst snd] in HN, HE. fold ps last names in HN, HE. split.
  - intros e Hst. destruct (HN e) as (e2 & q & q' & En & M1 & M2 & Eq); [intros d1 D1; apply Hst, Hs, D1|].
    exists e2, q, q'. split; [exact En|]. split; [exact (node_met_mono cs cu cn _ _ Hs _ _ M1)|]. split; [exact (node_met_mono cs cu cn _ _ Hs' _ _ M2)|exact Eq].
  - intros t Hst. destruct (HE t) as (t2 & q & q' & En & M1 & M2 & Eq); [intros d1 D1; apply Hst, Hs, D1|].
    exists t2, q, q'. split; [exact En|]. split; [exact (edge_met_mono cs cu ce _ _ Hs _ _ M1)|]. split; [exact (edge_met_mono cs cu ce _ _ Hs' _ _ M2)|exact Eq].
Qed.

(** ** Nobody else *)
Lemma eq_same_alone : forall k NP EP SE BE (cn : codec BE NP) (ce : codec BE EP) (neqb : NP -> NP -> bool) (eeqb : EP -> EP -> bool)
    (cuts ecuts cuts' ecuts' : list bytes) (d : db),
  (forall x, om_sorted bytes_cmp (tbl x d)) ->
  let nodes := now SE (s_iter_vertices (k := k) cn) d in
  let edges := now SE (s_iter_edges (k := k) ce SPO) d in
  ret_of (eq_same (k := k) (SE := SE) cn ce neqb eeqb cuts ecuts cuts' ecuts') [] d = try_eq id_eqb neqb eeqb nodes edges nodes edges.
Proof.
  intros k NP EP SE BE cn ce neqb eeqb cuts ecuts cuts' ecuts' d Hs nodes edges.
  rewrite (fused_ret_of _ _ d (fused_eq (k := k) (SE := SE) cn ce neqb eeqb cuts ecuts cuts' ecuts')). apply eq_two_alone; exact Hs.
Qed.
Lemma req_same_alone : forall S NP EP SE BE (seqb : S -> S -> bool) (neqb : NP -> NP -> bool) (eeqb : EP -> EP -> bool)
    (cs : codec BE S) (cu : codec BE (Id KUlid)) (cn : codec BE NP) (ce : codec BE EP) (cuts ecuts cuts' ecuts' : list bytes) (d : rdb),
  (forall x, om_sorted bytes_cmp (tbl x (r_trees d))) ->
  let nodes := ret_of (rs_iter_vertices cs cu cn) [] d in
  let edges := ret_of (rs_iter_edges cs cu ce SPO) [] d in
  ret_of (req_same (SE := SE) seqb neqb eeqb cs cu cn ce cuts ecuts cuts' ecuts') [] d = try_eq (entity_eqb seqb) neqb eeqb nodes edges nodes edges.
Proof.
  intros S NP EP SE BE seqb neqb eeqb cs cu cn ce cuts ecuts cuts' ecuts' d Hs nodes edges.
  rewrite (fused_ret_of _ _ d (fused_req (SE := SE) seqb neqb eeqb cs cu cn ce cuts ecuts cuts' ecuts')). apply req_two_alone; exact Hs.
Qed.
Lemma zip_itself {A L R} (eqb : A -> A -> bool) (xs : list A) : (forall x, eqb x x = true) -> zip_longest_eq (L := L) (R := R) eqb (map Ok xs) (map Ok xs) = Ok true.
Proof. intros H. induction xs as [|x xs IH]; simpl; auto. now rewrite H. Qed.
Lemma eq_itself : forall k NP EP SE BE E (cn : codec BE NP) (ce : codec BE EP) mn me (neqb : NP -> NP -> bool) (eeqb : EP -> EP -> bool)
    (ls : list (life (k := k) (NP := NP) (EP := EP) (SE := SE) (E := E))) (cuts ecuts cuts' ecuts' : list bytes),
  codec_ok cn -> codec_ok ce -> (forall p, neqb p p = true) -> (forall e, eeqb e e = true) -> NoDup (life_keys ls) ->
  ret_of (eq_same (k := k) (SE := SE) cn ce neqb eeqb cuts ecuts cuts' ecuts') [] (lives cn ce mn me ls db_new) = Ok true.
Proof.
  intros k NP EP SE BE E cn ce mn me neqb eeqb ls cuts ecuts cuts' ecuts' Hn He Rn Re Hd.
  set (d := lives cn ce mn me ls db_new). pose proof (lives_fair cn ce mn me ls Hn He Hd) as Hf. fold d in Hf. destruct Hf as [Fn Fe].
  rewrite eq_same_alone.
  - cbv zeta. rewrite (rds_now _ _ _ (rds_iter_vertices cn never d)), (rds_now _ _ _ (rds_iter_edges ce never d SPO)).
    destruct (fair_vertices (SE := SE) cn d Fn) as (ns & -> & _). destruct (fair_edges (SE := SE) ce _ d SPO Fe) as (es & -> & _).
    unfold try_eq. rewrite zip_itself.
    + apply zip_itself. intros [t e]. unfold pair_eqb. cbn [fst snd]. rewrite Re, (proj2 (triple_eqb_eq t t) eq_refl). reflexivity.
    + intros [i p]. unfold pair_eqb. cbn [fst snd]. rewrite Rn, (proj2 (id_eqb_eq i i) eq_refl). reflexivity.
  - intros [| | | |]; [exact (fn_sorted _ _ Fn)|exact (fe_sorted _ _ _ Fe)|exact (fe_isorted _ _ _ Fe SPO)|exact (fe_isorted _ _ _ Fe POS)|exact (fe_isorted _ _ _ Fe OSP)].
Qed.
Lemma req_itself : forall S NP EP SE BE E (seqb : S -> S -> bool) (neqb : NP -> NP -> bool) (eeqb : EP -> EP -> bool)
  (cs : codec BE S) (cu : codec BE (Id KUlid)) (cn : codec BE NP) (ce : codec BE EP) mn me,
  (forall a b, seqb a b = true <-> a = b) -> (forall p, neqb p p = true) -> (forall e, eeqb e e = true) ->
  codec_ok cs -> codec_ok cu -> codec_ok cn -> codec_ok ce -> codec_total cu ->
  forall (es : list (repoch (S := S) (NP := NP) (EP := EP) (SE := SE) (E := E))) (cuts ecuts cuts' ecuts' : list bytes),
  NoDup (flat_map epoch_keys es) -> Forall RdfSledSpec.calm es ->
  ret_of (req_same (SE := SE) seqb neqb eeqb cs cu cn ce cuts ecuts cuts' ecuts') [] (rs_epochs cs cu cn ce mn me es rdb_new) = Ok true.
Proof.
  intros S NP EP SE BE E seqb neqb eeqb cs cu cn ce mn me Hseq Rn Re Hcs Hcu Hcn Hce Htu es cuts ecuts cuts' ecuts' Hnd Hcalm.
  set (d := rs_epochs cs cu cn ce mn me es rdb_new).
  destruct (main_epochs seqb cs cu cn ce mn me Hseq Hcs Hcu Hcn Hce Htu es Hnd Hcalm) as (_ & _ & eg & _ & [Sn Se] & _).
  destruct (epochs_world (SE := SE) seqb cs cu cn ce mn me Hseq Hcs Hcu Hcn Hce es Hnd Hcalm) as ((_ & [Fn Fe] & _) & _).
  fold d in Sn, Se, Fn, Fe. assert (Hent : forall e : entity S, entity_eqb seqb e e = true).
  { intros [x|i]; simpl; [now apply Hseq|now apply id_eqb_eq]. }
  rewrite req_same_alone.
  - cbv zeta. destruct Sn as (ns & -> & _). destruct (Se SPO) as (ts & -> & _).
    unfold try_eq. rewrite zip_itself.
    + apply zip_itself. intros [[a b c] e]. unfold pair_eqb, triple_eqb. cbn [fst snd sub pred obj]. now rewrite Re, !Hent.
    + intros [i p]. unfold pair_eqb. cbn [fst snd]. now rewrite Rn, Hent.
  - intros [| | | |]; [exact (fn_sorted _ _ Fn)|exact (fe_sorted _ _ _ Fe)|exact (fe_isorted _ _ _ Fe SPO)|exact (fe_isorted _ _ _ Fe POS)|exact (fe_isorted _ _ _ Fe OSP)].
Qed.
