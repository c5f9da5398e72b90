(** try_eq with an RDF store over sled that is in use, said about the executions. *)
From Coq Require Import Arith NArith List Bool Sorted Lia.
From Verif Require Import Bytes BytesFacts OMap OMapFacts Core IdType IdTypeFacts Store Mem MemIndex Spec GenSpec
  CodecFacts ListFacts MemFacts MemSim History MemTop Prog ProgFacts Sled SledHistory SledSched SledDb SledOps SledBulk SledRead SledTables
  SledAny SledRun SledTop SledMain SledLeaf SledLeafFacts SledLazy SledBeside SledRely SledOwn SledOwnOps SledBesideTop SledReaders
  SledIndex SledIndexFacts Rdf RdfSpec RdfTop RdfQuery RdfSled RdfSledSpec RdfSledSafe RdfSledConc RdfSledTop RdfSledRead RdfSledMain RdfSledLeaf RdfSledOwn
  RdfSledReaders SledReadTop RdfSledReadTop SledCopy SledCopyFacts SledCopyTop RdfCopySpec RdfCopyFacts RdfSledCopy RdfSledCopyFacts RdfSledCopyTop RdfSledEqLive RdfSledEqLiveFacts.
Import ListNotations.

Section Top.
Context {S NP EP SE BE E : Type} (seqb : S -> S -> bool) (seqb_eq : forall a b, seqb a b = true <-> a = b).
Context (cs : codec BE S) (cu : codec BE (Id KUlid)) (cn : codec BE NP) (ce : codec BE EP).
Context (Hcs : codec_ok cs) (Hcu : codec_ok cu) (Hcn : codec_ok cn) (Hce : codec_ok ce) (Htu : codec_total cu).
Context (mn : NP -> NP -> NP) (me : EP -> EP -> EP) (keep : triple (Id KUlid) -> Prop).
Context (Fin : rdb -> Prop) (den : entity S -> Id KUlid -> Prop).
Context (Hulid : forall i, den (EUlid i) i) (Hname : forall d n i, Fin d -> name_now (SE := SE) cs cu d n = Some i -> den (EString n) i).
Notation I := (Id KUlid).
Notation ent := (entity S).
Notation gerr := (sled_error SE BE).
Notation err := (rdf_error S (sled_index_error S (Id KUlid) SE BE) gerr).
Notation rop := (rop S NP EP E).
Notation repoch := (repoch (S := S) (NP := NP) (EP := EP) (SE := SE) (E := E)).
Notation nu := (name_now (SE := SE) cs cu).
Notation rho := (id_now (SE := SE) cs cu).
Notation rst := (rst (S := S) (SE := SE) cs cu cn ce keep).
Notation u_now := (u_now cs cu cn ce keep).
Notation u_past := (u_past cs cu cn ce keep).
Notation gst := (gst cs cu cn ce keep).
Notation callers := (rl_callers cs cu cn ce mn me).
Implicit Types d : rdb.
Implicit Types w : rst.
Context (es : list repoch) (ts : list (rhandle * list rop)) (wcuts : nat -> nat -> cutting) (schedule : list (nat * option SE)).
Context (Hnd : NoDup (flat_map epoch_keys es ++ callers_keys ts)) (Hcalm : Forall RdfSledSpec.calm es).
Context (Ho : Forall (fun hl => Forall (fun o => forall t, keep t -> ~ r_rewrites den o t) (snd hl)) ts).
Notation d0 := (rs_epochs cs cu cn ce mn me es rdb_new).
Context {L X : Type} (nodeq : ent * NP -> ent * NP -> bool) (edgeq : triple ent * EP -> triple ent * EP -> bool)
  (zn : result (lr_error unit err) unit * list (result L (ent * NP)) -> result X bool)
  (ze : result (lr_error unit err) unit * list (result L (triple ent * EP)) -> result X bool)
  (ns : list (result L (ent * NP))) (eds : list (result L (triple ent * EP))) (Hzn : forall x, zn x = Ok true -> fst x = Ok tt).
Notation answer := (answer nodeq edgeq zn ze ns eds).

Lemma compared_rbeside cuts cuts' a :
  let ps := beside (req_live cs cu cn ce nodeq edgeq zn ze cuts cuts' ns eds) (callers wcuts 0 ts) in
  let seen := during schedule ps d0 in
  let r2l := rho (snd (interleave schedule ps d0)) in
  (forall d1, seen d1 -> Fin d1) ->
  has_read a (fst (interleave schedule ps d0)) ->
  (forall d1, seen d1 -> below (nu d1) (nu (snd (interleave schedule ps d0)))) /\
  (forall d1 i s, seen d1 -> rho d1 i = Some s -> r2l i = Some s) /\
  one_to_one (nu (snd (interleave schedule ps d0))) r2l /\
  exists s : rdf_source S NP EP err, a = answer (rs_nodes s) (rs_edges s) /\
  ((forall e p, In (Ok (e, p)) (rs_nodes s) -> exists i d1, seen d1 /\
     r_lists_node SE cs cu cn d1 (shown (rho d1) i) p /\ called SE cs cu (knowing SE cs cu seen d1) i e) /\
   (forall t p, In (Ok (t, p)) (rs_edges s) -> exists u d1, seen d1 /\
     r_lists_edge SE cs cu ce SPO d1 (triple_map (shown (rho d1)) u) p /\ called3 SE cs cu (knowing SE cs cu seen d1) u t) /\
   StronglySorted (behind_lt r2l) (map (fun ep => by_name r2l (fst ep)) (ok_items (rs_nodes s))) /\
   StronglySorted (behind_edge_lt r2l SPO) (map (fun tp => triple_map (by_name r2l) (fst tp)) (ok_items (rs_edges s))) /\
   (forall x, In (Err x) (rs_nodes s) -> is_fault (met schedule) x) /\
   (forall x, In (Err x) (rs_edges s) -> is_fault (met schedule) x \/ (x = GraphStorageError MissingPropertyData /\ exists u, ~ keep u))) /\
  (r_all_nodes cs cu cn schedule ps d0 (rs_nodes s) \/ forall more more', answer (rs_nodes s ++ more) more' = a) /\
  (r_all_edges cs cu ce schedule ps d0 (rs_edges s) \/ forall more, answer (rs_nodes s) (rs_edges s ++ more) = a).
Proof.
  intros ps seen r2l HN Hx.
  destruct (rbeside_reads seqb seqb_eq cs cu cn ce Hcs Hcu Hcn Hce mn me keep Fin den Hulid Hname
    _ (fun F => rtold cs cu cn ce keep F nodeq edgeq zn ze ns eds) es ts wcuts schedule Hnd Hcalm Ho
    (fun F a w1 w2 => rtold_later cs cu cn ce keep F nodeq edgeq zn ze ns eds a w1 w2)
    (fun F w => rg_req cs cu cn ce Hcs Htu keep F nodeq edgeq zn ze ns eds cuts cuts' w) HN _ Hx)
    as (w & (s & ys & zs & Es & (N2 & N3 & N4) & Hr & (R2 & R3 & R4) & Hr') & Hn & Hp & Hp').
  fold ps in Hn, Hp, Hp'. fold (during schedule ps d0) seen in Hp, Hp'.
  assert (r2l = rho (u_now w)) as Er by (unfold r2l; now rewrite Hn).
  assert (forall (a : I * NP) (b : ent * NP), node_made cs cu cn ce keep a b w -> by_name r2l (fst b) = shown r2l (fst a)) as Hk.
  { intros x y (d1 & _ & _ & _ & Hy). rewrite Er. eapply (called_now cs cu cn ce Hcs Hcu keep); exact Hy. }
  assert (forall (a : triple I * EP) (b : triple ent * EP), edge_made cs cu cn ce keep SPO a b w -> triple_map (by_name r2l) (fst b) = triple_map (shown r2l) (fst a)) as Hk'.
  { intros x y (d1 & _ & _ & _ & Hy). rewrite Er. eapply (called3_now cs cu cn ce Hcs Hcu keep); exact Hy. }
  assert (forall d1, In d1 (u_past w) -> index_ok cs cu (r_names d1)) as Hok by apply u_ok.
  pose proof (one_here cs cu cn ce Hcs Hcu keep w) as One.
  split; [intros d1 Hd1; rewrite <- Hn; apply (u_grew cs cu cn ce keep w d1); auto|].
  split; [intros d1 i x Hd1 Hs; rewrite Er; apply (name_stays cs cu cn ce Hcs Hcu keep w d1); auto|].
  split; [rewrite Er, <- Hn; exact One|].
  exists s. split; auto. split; [split; [|split; [|split; [|split; [|split]]]]|].
  - intros e p Hin. destruct (forall2_in_r _ _ _ _ Hr Hin) as (y & Hy & [i q] & -> & d1 & Hd1 & Hl & Hq & He). simpl in Hq, He. subst q.
    exists i, d1. split; auto. split; [apply node_listed; auto; exists i; auto|]. eapply (called_since cs cu cn ce Hcs Hcu keep w); eauto.
  - intros t p Hin. destruct (forall2_in_r _ _ _ _ Hr' Hin) as (y & Hy & [u q] & -> & d1 & Hd1 & Hl & Hq & Ha & Hb & Hc).
    simpl in Hq, Ha, Hb, Hc. subst q. exists u, d1. split; auto. split; [apply edge_listed; auto; exists u; auto|].
    repeat split; eapply (called_since cs cu cn ce Hcs Hcu keep w); eauto.
  - eapply made_sorted with (ka := fst) (h := shown r2l); [exact Hk| |exact N2|exact Hr]. intros x y Lt. exists x, y. auto.
  - eapply made_sorted with (ka := fst) (h := triple_map (shown r2l)); [exact Hk'| |exact R2|exact Hr']. intros x y Lt. exists x, y. auto.
  - intros x Hin. destruct (forall2_in_r _ _ _ _ Hr Hin) as (y & Hy & [(g & -> & ->)|Hf]); auto.
    destruct (N3 g Hy) as (z & Hz & ->). exists z. auto.
  - intros x Hin. destruct (forall2_in_r _ _ _ _ Hr' Hin) as (y & Hy & [(g & -> & ->)|Hf]); auto.
    destruct (R3 g Hy) as [[-> Hkeep]|(z & Hz & ->)]; [right; auto|]. left. exists z. auto.
  - split; [destruct (nodes_settled nodeq edgeq zn ze ns eds Hzn (rs_nodes s)) as [Ht|Ht]; [left|right; intros; rewrite Es; apply Ht]|
      destruct (edges_settled nodeq edgeq zn ze ns eds (rs_nodes s) (rs_edges s)) as [Ht|Ht]; [left|right; intros; rewrite Es; apply Ht]].
    + pose proof (nodes_through_ok _ _ _ Ht) as E1. specialize (N4 Ht). destruct N4 as (_ & _ & _ & N4).
      unfold r_all_nodes. fold seen; fold r2l. intros e He. destruct (He _ (Hp _ (u_in cs cu cn ce keep w))) as (e0 & p0 & E0 & L0).
      apply node_listed in L0; [| |exact Htu|apply Hok, u_in]; auto. destruct L0 as (i & -> & _).
      assert (by_name r2l e = shown r2l i) as Ei.
      { rewrite <- E0, Er. eapply (called_now cs cu cn ce Hcs Hcu keep), shown_was, u_in. }
      destruct (N4 i) as [Hin|(g & Hg)].
      * intros g Hg. simpl in Hg. apply in_map_iff in Hg. destruct Hg as (d1 & <- & Hd1).
        destruct (He d1 (Hp _ Hd1)) as (e1 & p1 & E1' & L1). apply node_listed in L1; auto. destruct L1 as (j & -> & L1).
        assert (j = i) as ->; [|eauto]. apply (shown_inj _ _ One). rewrite <- Er, <- Ei, <- E1', Er. symmetry.
        now eapply (called_now cs cu cn ce Hcs Hcu keep), shown_was.
      * rewrite Ei. destruct (made_there cs cu cn ce keep _ _ (shown r2l) _ _ _ _ _ _ Hk Hr Hin) as [Q|(x & Q & _)]; [exact Q|destruct (E1 x Q)].
      * destruct (made_error cs cu cn ce keep _ _ _ _ _ _ Hr Hg) as (x & Q & _). destruct (E1 x Q).
    + pose proof (edges_through_ok _ _ _ _ _ _ _ Ht) as E2. specialize (R4 Ht). destruct R4 as (_ & _ & _ & R4). clear Ht.
      unfold r_all_edges. fold seen; fold r2l. intros t Ht. destruct (Ht _ (Hp _ (u_in cs cu cn ce keep w))) as (e0 & p0 & E0 & L0).
      apply edge_listed in L0; [| |exact Htu|apply Hok, u_in]; auto. destruct L0 as (i & -> & _).
      assert (triple_map (by_name r2l) t = triple_map (shown r2l) i) as Ei.
      { rewrite <- E0, Er. eapply (called3_now cs cu cn ce Hcs Hcu keep), triple_was, u_in. }
      destruct (R4 i) as [Hin|(g & Hg & Hwhy)].
      * intros g Hg. simpl in Hg. apply in_map_iff in Hg. destruct Hg as (d1 & <- & Hd1).
        destruct (Ht d1 (Hp _ Hd1)) as (e1 & p1 & E1' & L1). apply edge_listed in L1; auto. destruct L1 as (j & -> & L1).
        assert (j = i) as ->; [|eauto]. apply (shown3_inj _ _ One). rewrite <- Er, <- Ei, <- E1', Er. symmetry.
        now eapply (called3_now cs cu cn ce Hcs Hcu keep), triple_was.
      * rewrite Ei. destruct (made_there cs cu cn ce keep _ _ (triple_map (shown r2l)) _ _ _ _ _ _ Hk' Hr' Hin) as [Q|(x & Q & _)]; [exact Q|destruct (E2 x Q)].
      * destruct (made_error cs cu cn ce keep _ _ _ _ _ _ Hr' Hg) as (x & Q & _). destruct (E2 x Q).
Qed.
End Top.

Section Exact.
Context {S NP EP SE BE E L X : Type} (seqb : S -> S -> bool) (Hseq : forall a b, seqb a b = true <-> a = b).
Context (cs : codec BE S) (cu : codec BE (Id KUlid)) (cn : codec BE NP) (ce : codec BE EP) (mn : NP -> NP -> NP) (me : EP -> EP -> EP).
Context (Hcs : codec_ok cs) (Hcu : codec_ok cu) (Hcn : codec_ok cn) (Hce : codec_ok ce) (Htu : codec_total cu).
Notation ent := (entity S).
Notation err := (rdf_error S (sled_index_error S (Id KUlid) SE BE) (sled_error SE BE)).
Context (nodeq : ent * NP -> ent * NP -> bool) (edgeq : triple ent * EP -> triple ent * EP -> bool)
  (zn : result (lr_error unit err) unit * list (result L (ent * NP)) -> result X bool)
  (ze : result (lr_error unit err) unit * list (result L (triple ent * EP)) -> result X bool)
  (Hzn : forall x, zn x = Ok true -> fst x = Ok tt).

Lemma answer_beside (es : list (repoch (S := S) (NP := NP) (EP := EP) (SE := SE) (E := E))) (ts : list (rhandle * list (rop S NP EP E)))
    (wcuts : nat -> nat -> cutting) (cuts cuts' : list bytes) (schedule : list (nat * option SE))
    (ns : list (result L (ent * NP))) (eds : list (result L (triple ent * EP))) a :
  NoDup (flat_map epoch_keys es ++ callers_keys ts) -> Forall RdfSledSpec.calm es ->
  let d := rs_epochs cs cu cn ce mn me es rdb_new in
  let ps := beside (req_live cs cu cn ce nodeq edgeq zn ze cuts cuts' ns eds) (rl_callers cs cu cn ce mn me wcuts 0 ts) in
  let names := id_now (SE := SE) cs cu (snd (interleave schedule ps d)) in
  has_read a (fst (interleave schedule ps d)) ->
  (forall d1 i s, during schedule ps d d1 -> id_now (SE := SE) cs cu d1 i = Some s -> names i = Some s) /\
  one_to_one (name_now (SE := SE) cs cu (snd (interleave schedule ps d))) names /\
  exists s, a = answer nodeq edgeq zn ze ns eds (rs_nodes s) (rs_edges s) /\ r_handed cs cu cn ce schedule ps d ts s /\
    (r_all_nodes cs cu cn schedule ps d (rs_nodes s) \/ forall more more', answer nodeq edgeq zn ze ns eds (rs_nodes s ++ more) more' = a) /\
    (r_all_edges cs cu ce schedule ps d (rs_edges s) \/ forall more, answer nodeq edgeq zn ze ns eds (rs_nodes s) (rs_edges s ++ more) = a).
Proof.
  intros Hnd Hcalm d ps names Hx.
  destruct (compared_rbeside seqb Hseq cs cu cn ce Hcs Hcu Hcn Hce Htu mn me none every anyhow (fun _ => Logic.I) (fun _ _ _ _ _ => Logic.I) es ts wcuts schedule Hnd Hcalm (radds_none _ _)
    nodeq edgeq zn ze ns eds Hzn cuts cuts' a (fun _ _ => Logic.I) Hx) as (G & _).
  fold d ps in G. set (d_end := snd (interleave schedule ps d)) in *.
  destruct (compared_rbeside seqb Hseq cs cu cn ce Hcs Hcu Hcn Hce Htu mn me (fun t => ~ r_rewritten (r_denotes SE cs cu d_end) ts t)
    (fun d1 => below (name_now (SE := SE) cs cu d1) (name_now (SE := SE) cs cu d_end))
    (r_denotes SE cs cu d_end) (fun i => eq_refl) (fun d1 n i H => H n i) es ts wcuts schedule Hnd Hcalm (radds_spared _ _)
    nodeq edgeq zn ze ns eds Hzn cuts cuts' a G Hx)
    as (_ & H0 & Ho & s & Es & (H1 & H2 & H3 & H4 & H5 & H6) & Hc).
  split; auto. split; auto. exists s. split; auto. split; auto. split; [|split; [|split; [|split; [|split]]]]; auto.
  intros x Hin. destruct (H6 x Hin) as [Hf|[-> (u & K)]]; auto. right. split; auto. exists u.
  apply r_rewritten_not; auto. intros; apply denotes_dec.
Qed.
End Exact.

(** The answer is that of Store.v. *)
Section Answer.
Context {S NP EP SE BE L : Type} (seqb : S -> S -> bool) (neqb : NP -> NP -> bool) (eeqb : EP -> EP -> bool).
Notation ent := (entity S).
Notation err := (rdf_error S (sled_index_error S (Id KUlid) SE BE) (sled_error SE BE)).
Context (ns : list (result L (ent * NP))) (es : list (result L (triple ent * EP))).
Implicit Types (xs : list (result err (ent * NP))) (ys : list (result err (triple ent * EP))).
Lemma answer_other xs ys :
  answer (pair_eqb (entity_eqb seqb) neqb) (pair_eqb (triple_eqb (entity_eqb seqb)) eeqb) zip_other zip_other ns es xs ys =
  try_eq (entity_eqb seqb) neqb eeqb ns es xs ys.
Proof. unfold answer, zipped_nodes, zipped_edges, try_eq. now rewrite !zip_other_eq. Qed.
Lemma answer_self xs ys :
  answer (fun l x => pair_eqb (entity_eqb seqb) neqb x l) (fun l x => pair_eqb (triple_eqb (entity_eqb seqb)) eeqb x l) zip_self zip_self ns es xs ys =
  try_eq (entity_eqb seqb) neqb eeqb xs ys ns es.
Proof. unfold answer, zipped_nodes, zipped_edges, try_eq. now rewrite !zip_self_eq. Qed.
End Answer.

Lemma req_other_beside : forall S NP EP SE BE E L (seqb : S -> S -> bool) (neqb : NP -> NP -> bool) (eeqb : EP -> EP -> bool)
  (cs : codec BE S) (cu : codec BE (Id KUlid)) (cn : codec BE NP) (ce : codec BE EP) mn me,
  (forall a b, seqb a b = true <-> a = b) ->
  codec_ok cs -> codec_ok cu -> codec_ok cn -> codec_ok ce -> codec_total cu ->
  forall (es : list (repoch (S := S) (NP := NP) (EP := EP) (SE := SE) (E := E))) (ts : list (rhandle * list (rop S NP EP E)))
    (wcuts : nat -> nat -> cutting) (cuts cuts' : list bytes) (schedule : list (nat * option SE))
    (nodes : list (result L (entity S * NP))) (edges : list (result L (triple (entity S) * EP))) a,
  NoDup (flat_map epoch_keys es ++ callers_keys ts) -> Forall RdfSledSpec.calm es ->
  let d := rs_epochs cs cu cn ce mn me es rdb_new in
  let ps := beside (req_other cs cu cn ce seqb neqb eeqb cuts cuts' nodes edges) (rl_callers cs cu cn ce mn me wcuts 0 ts) in
  let eq := try_eq (entity_eqb seqb) neqb eeqb nodes edges in
  has_read a (fst (interleave schedule ps d)) ->
  exists s, a = eq (rs_nodes s) (rs_edges s) /\ r_handed cs cu cn ce schedule ps d ts s /\
    (r_all_nodes cs cu cn schedule ps d (rs_nodes s) \/ forall more more', eq (rs_nodes s ++ more) more' = a) /\
    (r_all_edges cs cu ce schedule ps d (rs_edges s) \/ forall more, eq (rs_nodes s) (rs_edges s ++ more) = a).
Proof.
  intros S NP EP SE BE E L seqb neqb eeqb cs cu cn ce mn me Hseq Hcs Hcu Hcn Hce Htu es ts wcuts cuts cuts' schedule nodes edges a Hnd Hcalm d ps eq Hx.
  destruct (answer_beside seqb Hseq cs cu cn ce mn me Hcs Hcu Hcn Hce Htu _ _ _ _ zip_other_true es ts wcuts cuts cuts' schedule nodes edges a Hnd Hcalm Hx)
    as (_ & _ & s & Es & Hh & Hn & He).
  exists s. rewrite answer_other in Es. split; auto. split; auto. split.
  - destruct Hn as [Hn|Hn]; [left; exact Hn|right]. intros. unfold eq. rewrite <- (Hn more more'). now rewrite answer_other.
  - destruct He as [He|He]; [left; exact He|right]. intros. unfold eq. rewrite <- (He more). now rewrite answer_other.
Qed.
Lemma req_self_beside : forall S NP EP SE BE E L (seqb : S -> S -> bool) (neqb : NP -> NP -> bool) (eeqb : EP -> EP -> bool)
  (cs : codec BE S) (cu : codec BE (Id KUlid)) (cn : codec BE NP) (ce : codec BE EP) mn me,
  (forall a b, seqb a b = true <-> a = b) ->
  codec_ok cs -> codec_ok cu -> codec_ok cn -> codec_ok ce -> codec_total cu ->
  forall (es : list (repoch (S := S) (NP := NP) (EP := EP) (SE := SE) (E := E))) (ts : list (rhandle * list (rop S NP EP E)))
    (wcuts : nat -> nat -> cutting) (cuts cuts' : list bytes) (schedule : list (nat * option SE))
    (nodes : list (result L (entity S * NP))) (edges : list (result L (triple (entity S) * EP))) a,
  NoDup (flat_map epoch_keys es ++ callers_keys ts) -> Forall RdfSledSpec.calm es ->
  let d := rs_epochs cs cu cn ce mn me es rdb_new in
  let ps := beside (req_self cs cu cn ce seqb neqb eeqb cuts cuts' nodes edges) (rl_callers cs cu cn ce mn me wcuts 0 ts) in
  let eq xs ys := try_eq (entity_eqb seqb) neqb eeqb xs ys nodes edges in
  has_read a (fst (interleave schedule ps d)) ->
  exists s, a = eq (rs_nodes s) (rs_edges s) /\ r_handed cs cu cn ce schedule ps d ts s /\
    (r_all_nodes cs cu cn schedule ps d (rs_nodes s) \/ forall more more', eq (rs_nodes s ++ more) more' = a) /\
    (r_all_edges cs cu ce schedule ps d (rs_edges s) \/ forall more, eq (rs_nodes s) (rs_edges s ++ more) = a).
Proof.
  intros S NP EP SE BE E L seqb neqb eeqb cs cu cn ce mn me Hseq Hcs Hcu Hcn Hce Htu es ts wcuts cuts cuts' schedule nodes edges a Hnd Hcalm d ps eq Hx.
  destruct (answer_beside seqb Hseq cs cu cn ce mn me Hcs Hcu Hcn Hce Htu _ _ _ _ zip_self_true es ts wcuts cuts cuts' schedule nodes edges a Hnd Hcalm Hx)
    as (_ & _ & s & Es & Hh & Hn & He).
  exists s. rewrite answer_self in Es. split; auto. split; auto. split.
  - destruct Hn as [Hn|Hn]; [left; exact Hn|right]. intros. unfold eq. rewrite <- (Hn more more'). now rewrite answer_self.
  - destruct He as [He|He]; [left; exact He|right]. intros. unfold eq. rewrite <- (He more). now rewrite answer_self.
Qed.

(** ** [Ok true] *)
Section True.
Context {A P L R : Type} (ea : A -> A -> bool) (ep : P -> P -> bool) (Hea : forall a b, ea a b = true <-> a = b).
Lemma zip_true (ls : list (result L (A * P))) : forall xs : list (result R (A * P)), zip_longest_eq (pair_eqb ea ep) ls xs = Ok true ->
  (forall x, In x ls -> exists a p q, x = Ok (a, p) /\ In (Ok (a, q)) xs /\ ep p q = true) /\
  (forall a q, In (Ok (a, q)) xs -> exists p, In (Ok (a, p)) ls /\ ep p q = true).
Proof.
  induction ls as [|[[a p]|e] ls IH]; intros [|[[b q]|e'] xs]; simpl; try discriminate.
  - intros _. split; intros; contradiction.
  - destruct (pair_eqb ea ep (a, p) (b, q)) eqn:Eq; [|discriminate]. intros Hz. destruct (IH xs Hz) as [H1 H2].
    unfold pair_eqb in Eq. simpl in Eq. apply andb_true_iff in Eq. destruct Eq as [Ea Eq]. apply Hea in Ea. subst b. split.
    + intros x [<-|Hin]; [exists a, p, q; auto|]. destruct (H1 x Hin) as (a' & p' & q' & ? & ? & ?). exists a', p', q'. auto.
    + intros a' q' [[= <- <-]|Hin]; [exists p; auto|]. destruct (H2 a' q' Hin) as (p' & ? & ?). exists p'. auto.
Qed.
(** The other way round. *)
Lemma zip_true' (xs : list (result R (A * P))) : forall ls : list (result L (A * P)), zip_longest_eq (pair_eqb ea ep) xs ls = Ok true ->
  (forall x, In x ls -> exists a p q, x = Ok (a, p) /\ In (Ok (a, q)) xs /\ ep q p = true) /\
  (forall a q, In (Ok (a, q)) xs -> exists p, In (Ok (a, p)) ls).
Proof.
  induction xs as [|[[b q]|e'] xs IH]; intros [|[[a p]|e] ls]; simpl; try discriminate.
  - intros _. split; intros; contradiction.
  - destruct (pair_eqb ea ep (b, q) (a, p)) eqn:Eq; [|discriminate]. intros Hz. destruct (IH ls Hz) as [H1 H2].
    unfold pair_eqb in Eq. simpl in Eq. apply andb_true_iff in Eq. destruct Eq as [Ea Eq]. apply Hea in Ea. subst b. split.
    + intros x [<-|Hin]; [exists a, p, q; auto|]. destruct (H1 x Hin) as (a' & p' & q' & ? & ? & ?). exists a', p', q'. auto.
    + intros a' q' [[= <- <-]|Hin]; [exists p; auto|]. destruct (H2 a' q' Hin) as (p' & ?). exists p'. auto.
Qed.
End True.
Lemma try_true {I NP EP L R} ieqb neqb eeqb (ns : list (result L (I * NP))) (es : list (result L (triple I * EP)))
    (xs : list (result R (I * NP))) ys : try_eq ieqb neqb eeqb ns es xs ys = Ok true ->
  zip_longest_eq (pair_eqb ieqb neqb) ns xs = Ok true /\ zip_longest_eq (pair_eqb (triple_eqb ieqb) eeqb) es ys = Ok true.
Proof. unfold try_eq. destruct (zip_longest_eq _ ns xs) as [[|]|e]; try discriminate. auto. Qed.
Lemma zip_more {A L R} (eqb : A -> A -> bool) (ls : list (result L A)) : forall (xs : list (result R A)) e,
  zip_longest_eq eqb ls xs = Ok true -> zip_longest_eq eqb ls (xs ++ [Err e]) <> Ok true.
Proof.
  induction ls as [|[l|e'] ls IH]; intros [|[x|e''] xs] e; simpl; try discriminate. destruct (eqb l x); [apply IH|discriminate].
Qed.
Lemma zip_more' {A L R} (eqb : A -> A -> bool) (xs : list (result R A)) : forall (ls : list (result L A)) e,
  zip_longest_eq eqb xs ls = Ok true -> zip_longest_eq eqb (xs ++ [Err e]) ls <> Ok true.
Proof.
  induction xs as [|[x|e'] xs IH]; intros [|[l|e''] ls] e; simpl; try discriminate. destruct (eqb x l); [apply IH|discriminate].
Qed.

(** What was read, in terms of the other store. *)
Section Meaning.
Context {S NP EP SE BE E L X : Type} (cs : codec BE S) (cu : codec BE (Id KUlid)) (cn : codec BE NP) (ce : codec BE EP)
  (neqb : NP -> NP -> bool) (eeqb : EP -> EP -> bool).
Notation ent := (entity S).
Notation err := (rdf_error S (sled_index_error S (Id KUlid) SE BE) (sled_error SE BE)).
Context (schedule : list (nat * option SE)) (ps : list (prog rdb SE X)) (d : rdb) (ts : list (rhandle * list (rop S NP EP E))).
Notation seen := (during schedule ps d).
Notation names := (id_now (SE := SE) cs cu (snd (interleave schedule ps d))).
Context (nodes : list (result L (ent * NP))) (edges : list (result L (triple ent * EP))).
Lemma held_so (s : rdf_source S NP EP err) : r_handed cs cu cn ce schedule ps d ts s ->
  r_all_nodes cs cu cn schedule ps d (rs_nodes s) -> r_all_edges cs cu ce schedule ps d (rs_edges s) ->
  (forall x, In x nodes -> exists a p q, x = Ok (a, p) /\ In (Ok (a, q)) (rs_nodes s) /\ neqb p q = true) ->
  (forall a q, In (Ok (a, q)) (rs_nodes s) -> exists p, In (Ok (a, p)) nodes) ->
  (forall x, In x edges -> exists a p q, x = Ok (a, p) /\ In (Ok (a, q)) (rs_edges s) /\ eeqb p q = true) ->
  (forall a q, In (Ok (a, q)) (rs_edges s) -> exists p, In (Ok (a, p)) edges) -> r_held cs cu cn ce schedule ps d neqb eeqb nodes edges.
Proof.
  intros (H1 & H2 & _) An Ae N1 N2 E1 E2. split; [|split; [|split]].
  - intros x Hin. destruct (N1 x Hin) as (e & p & q & -> & Hq & Eq). destruct (H1 e q Hq) as (i & d1 & ? & ? & ?). exists e, p, q, i, d1. auto.
  - intros x Hin. destruct (E1 x Hin) as (e & p & q & -> & Hq & Eq). destruct (H2 e q Hq) as (i & d1 & ? & ? & ?). exists e, p, q, i, d1. auto 6.
  - intros e He. apply An in He. apply in_map_iff in He. destruct He as ([e2 q] & Ee & Hin). apply ok_items_in in Hin.
    destruct (N2 e2 q Hin) as (p & Hp). exists e2, p. auto.
  - intros e He. apply Ae in He. apply in_map_iff in He. destruct He as ([e2 q] & Ee & Hin). apply ok_items_in in Hin.
    destruct (E2 e2 q Hin) as (p & Hp). exists e2, p. auto.
Qed.
End Meaning.

Section Named.
Context {S NP EP SE BE E L X : Type} (seqb : S -> S -> bool) (Hseq : forall a b, seqb a b = true <-> a = b)
  (neqb : NP -> NP -> bool) (eeqb : EP -> EP -> bool).
Context (cs : codec BE S) (cu : codec BE (Id KUlid)) (cn : codec BE NP) (ce : codec BE EP).
Notation ent := (entity S).
Notation err := (rdf_error S (sled_index_error S (Id KUlid) SE BE) (sled_error SE BE)).
Context (schedule : list (nat * option SE)) (ps : list (prog rdb SE X)) (d : rdb) (ts : list (rhandle * list (rop S NP EP E))).
Context (nodes : list (result L (ent * NP))) (edges : list (result L (triple ent * EP))).
Lemma other_true (s : rdf_source S NP EP err) (e : err) : let eq := try_eq (entity_eqb seqb) neqb eeqb nodes edges in
  eq (rs_nodes s) (rs_edges s) = Ok true -> r_handed cs cu cn ce schedule ps d ts s ->
  (r_all_nodes cs cu cn schedule ps d (rs_nodes s) \/ forall more more', eq (rs_nodes s ++ more) more' = Ok true) ->
  (r_all_edges cs cu ce schedule ps d (rs_edges s) \/ forall more, eq (rs_nodes s) (rs_edges s ++ more) = Ok true) ->
  r_held cs cu cn ce schedule ps d neqb eeqb nodes edges.
Proof.
  intros eq T Hh Hn He. destruct (try_true _ _ _ _ _ _ _ T) as [T1 T2].
  destruct Hn as [Hn|Hn]; [|exfalso; destruct (try_true _ _ _ _ _ _ _ (Hn [Err e] [])) as [T3 _]; exact (zip_more _ _ _ e T1 T3)].
  destruct He as [He|He]; [|exfalso; destruct (try_true _ _ _ _ _ _ _ (He [Err e])) as [_ T3]; exact (zip_more _ _ _ e T2 T3)].
  destruct (zip_true _ _ (RdfTop.entity_eqb_eq seqb Hseq) _ _ T1) as [N1 N2].
  destruct (zip_true _ _ (RdfTop.entity3_eqb_eq seqb Hseq) _ _ T2) as [E1 E2].
  apply (held_so cs cu cn ce neqb eeqb schedule ps d ts nodes edges s Hh Hn He); auto.
  - intros a q Hin. destruct (N2 a q Hin) as (p & ? & _). eauto.
  - intros a q Hin. destruct (E2 a q Hin) as (p & ? & _). eauto.
Qed.
Lemma self_true (s : rdf_source S NP EP err) (e : err) : let eq xs ys := try_eq (entity_eqb seqb) neqb eeqb xs ys nodes edges in
  eq (rs_nodes s) (rs_edges s) = Ok true -> r_handed cs cu cn ce schedule ps d ts s ->
  (r_all_nodes cs cu cn schedule ps d (rs_nodes s) \/ forall more more', eq (rs_nodes s ++ more) more' = Ok true) ->
  (r_all_edges cs cu ce schedule ps d (rs_edges s) \/ forall more, eq (rs_nodes s) (rs_edges s ++ more) = Ok true) ->
  r_held cs cu cn ce schedule ps d (fun p q => neqb q p) (fun p q => eeqb q p) nodes edges.
Proof.
  intros eq T Hh Hn He. destruct (try_true _ _ _ _ _ _ _ T) as [T1 T2].
  destruct Hn as [Hn|Hn]; [|exfalso; destruct (try_true _ _ _ _ _ _ _ (Hn [Err e] [])) as [T3 _]; exact (zip_more' _ _ _ e T1 T3)].
  destruct He as [He|He]; [|exfalso; destruct (try_true _ _ _ _ _ _ _ (He [Err e])) as [_ T3]; exact (zip_more' _ _ _ e T2 T3)].
  destruct (zip_true' _ _ (RdfTop.entity_eqb_eq seqb Hseq) _ _ T1) as [N1 N2].
  destruct (zip_true' _ _ (RdfTop.entity3_eqb_eq seqb Hseq) _ _ T2) as [E1 E2].
  apply (held_so cs cu cn ce (fun p q => neqb q p) (fun p q => eeqb q p) schedule ps d ts nodes edges s Hh Hn He); auto.
Qed.
End Named.

Lemma req_other_true : forall S NP EP SE BE E L (seqb : S -> S -> bool) (neqb : NP -> NP -> bool) (eeqb : EP -> EP -> bool)
  (cs : codec BE S) (cu : codec BE (Id KUlid)) (cn : codec BE NP) (ce : codec BE EP) mn me,
  (forall a b, seqb a b = true <-> a = b) ->
  codec_ok cs -> codec_ok cu -> codec_ok cn -> codec_ok ce -> codec_total cu ->
  forall (es : list (repoch (S := S) (NP := NP) (EP := EP) (SE := SE) (E := E))) (ts : list (rhandle * list (rop S NP EP E)))
    (wcuts : nat -> nat -> cutting) (cuts cuts' : list bytes) (schedule : list (nat * option SE))
    (nodes : list (result L (entity S * NP))) (edges : list (result L (triple (entity S) * EP))),
  NoDup (flat_map epoch_keys es ++ callers_keys ts) -> Forall RdfSledSpec.calm es ->
  let d := rs_epochs cs cu cn ce mn me es rdb_new in
  let ps := beside (req_other cs cu cn ce seqb neqb eeqb cuts cuts' nodes edges) (rl_callers cs cu cn ce mn me wcuts 0 ts) in
  has_read (Ok true) (fst (interleave schedule ps d)) ->
  r_held cs cu cn ce schedule ps d neqb eeqb nodes edges.
Proof.
  intros S NP EP SE BE E L seqb neqb eeqb cs cu cn ce mn me Hseq Hcs Hcu Hcn Hce Htu es ts wcuts cuts cuts' schedule nodes edges Hnd Hcalm d ps Hx.
  destruct (req_other_beside S NP EP SE BE E L seqb neqb eeqb cs cu cn ce mn me Hseq Hcs Hcu Hcn Hce Htu es ts wcuts cuts cuts' schedule nodes edges _ Hnd Hcalm Hx)
    as (s & Es & Hh & Hn & He).
  exact (other_true seqb Hseq neqb eeqb cs cu cn ce schedule ps d ts nodes edges s (GraphStorageError MissingPropertyData) (eq_sym Es) Hh Hn He).
Qed.
Lemma req_self_true : forall S NP EP SE BE E L (seqb : S -> S -> bool) (neqb : NP -> NP -> bool) (eeqb : EP -> EP -> bool)
  (cs : codec BE S) (cu : codec BE (Id KUlid)) (cn : codec BE NP) (ce : codec BE EP) mn me,
  (forall a b, seqb a b = true <-> a = b) ->
  codec_ok cs -> codec_ok cu -> codec_ok cn -> codec_ok ce -> codec_total cu ->
  forall (es : list (repoch (S := S) (NP := NP) (EP := EP) (SE := SE) (E := E))) (ts : list (rhandle * list (rop S NP EP E)))
    (wcuts : nat -> nat -> cutting) (cuts cuts' : list bytes) (schedule : list (nat * option SE))
    (nodes : list (result L (entity S * NP))) (edges : list (result L (triple (entity S) * EP))),
  NoDup (flat_map epoch_keys es ++ callers_keys ts) -> Forall RdfSledSpec.calm es ->
  let d := rs_epochs cs cu cn ce mn me es rdb_new in
  let ps := beside (req_self cs cu cn ce seqb neqb eeqb cuts cuts' nodes edges) (rl_callers cs cu cn ce mn me wcuts 0 ts) in
  has_read (Ok true) (fst (interleave schedule ps d)) ->
  r_held cs cu cn ce schedule ps d (fun p q => neqb q p) (fun p q => eeqb q p) nodes edges.
Proof.
  intros S NP EP SE BE E L seqb neqb eeqb cs cu cn ce mn me Hseq Hcs Hcu Hcn Hce Htu es ts wcuts cuts cuts' schedule nodes edges Hnd Hcalm d ps Hx.
  destruct (req_self_beside S NP EP SE BE E L seqb neqb eeqb cs cu cn ce mn me Hseq Hcs Hcu Hcn Hce Htu es ts wcuts cuts cuts' schedule nodes edges _ Hnd Hcalm Hx)
    as (s & Es & Hh & Hn & He).
  exact (self_true seqb Hseq neqb eeqb cs cu cn ce schedule ps d ts nodes edges s (GraphStorageError MissingPropertyData) (eq_sym Es) Hh Hn He).
Qed.
