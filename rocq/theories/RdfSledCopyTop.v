(** A copy of an RDF store over sled that is in use, said about the executions. *)
From Coq Require Import Arith NArith List Bool Sorted Lia.
From Verif Require Import Bytes BytesFacts OMap OMapFacts Core IdType IdTypeFacts Store Mem MemIndex Spec GenSpec
  CodecFacts ListFacts MemFacts MemSim History MemTop Prog ProgFacts Sled SledHistory SledSched SledDb SledOps SledBulk SledRead SledTables
  SledAny SledRun SledTop SledMain SledLeaf SledLeafFacts SledLazy SledBeside SledRely SledOwn SledOwnOps SledBesideTop SledReaders
  SledIndex SledIndexFacts Rdf RdfSpec RdfTop RdfQuery RdfSled RdfSledSpec RdfSledSafe RdfSledConc RdfSledTop RdfSledRead RdfSledMain RdfSledLeaf RdfSledOwn
  RdfSledReaders SledReadTop RdfSledReadTop SledCopy SledCopyFacts SledCopyTop RdfCopySpec RdfCopyFacts RdfSledCopy RdfSledCopyFacts.
Import ListNotations.

Section Top.
Context {S NP EP SE BE E : Type} (seqb : S -> S -> bool) (seqb_eq : forall a b, seqb a b = true <-> a = b).
Context (cs : codec BE S) (cu : codec BE (Id KUlid)) (cn : codec BE NP) (ce : codec BE EP).
Context (Hcs : codec_ok cs) (Hcu : codec_ok cu) (Hcn : codec_ok cn) (Hce : codec_ok ce) (Htu : codec_total cu).
Context (mn : NP -> NP -> NP) (me : EP -> EP -> EP) (keep : triple (Id KUlid) -> Prop).
Context (Fin : rdb -> Prop) (den : entity S -> Id KUlid -> Prop).
Context (Hulid : forall i, den (EUlid i) i) (Hname : forall d n i, Fin d -> name_now (SE := SE) cs cu d n = Some i -> den (EString n) i).
Notation I := (Id KUlid).
Notation ent := (entity S).
Notation gerr := (sled_error SE BE).
Notation err := (rdf_error S (sled_index_error S (Id KUlid) SE BE) gerr).
Notation rop := (rop S NP EP E).
Notation repoch := (repoch (S := S) (NP := NP) (EP := EP) (SE := SE) (E := E)).
Notation nu := (name_now (SE := SE) cs cu).
Notation rho := (id_now (SE := SE) cs cu).
Notation rst := (rst (S := S) (SE := SE) cs cu cn ce keep).
Notation u_now := (u_now cs cu cn ce keep).
Notation u_past := (u_past cs cu cn ce keep).
Notation gst := (gst cs cu cn ce keep).
Notation callers := (rl_callers cs cu cn ce mn me).
Implicit Types d : rdb.
Implicit Types w : rst.
Context (es : list repoch) (ts : list (rhandle * list rop)) (wcuts : nat -> nat -> cutting) (schedule : list (nat * option SE)).
Context (Hnd : NoDup (flat_map epoch_keys es ++ callers_keys ts)) (Hcalm : Forall RdfSledSpec.calm es).
Context (Ho : Forall (fun hl => Forall (fun o => forall t, keep t -> ~ r_rewrites den o t) (snd hl)) ts).
Notation d0 := (rs_epochs cs cu cn ce mn me es rdb_new).
Context {H EL : Type} (fn : ent * NP -> H -> result EL unit * H) (fe : triple ent * EP -> H -> result EL unit * H).

Lemma r_feed_ok (s : rdf_source S NP EP err) h h' : r_feed_both fn fe s h = (Ok tt, h') ->
  (forall x, ~ In (Err x) (rs_nodes s)) /\ (forall x, ~ In (Err x) (rs_edges s)).
Proof.
  unfold r_feed_both. destruct (feed fn (rs_nodes s) h) as [[[]|e] h1] eqn:E1; [|discriminate]. intros E2. split; eapply feed_ok; eauto.
Qed.

Lemma taken_rbeside cuts cuts' h a h' :
  let ps := beside (rs_take_over cs cu cn ce fn fe cuts cuts' h) (callers wcuts 0 ts) in
  let seen := during schedule ps d0 in
  let r2l := rho (snd (interleave schedule ps d0)) in
  (forall d1, seen d1 -> Fin d1) ->
  has_read (a, h') (fst (interleave schedule ps d0)) ->
  (forall d1, seen d1 -> below (nu d1) (nu (snd (interleave schedule ps d0)))) /\
  (forall d1 i s, seen d1 -> rho d1 i = Some s -> r2l i = Some s) /\
  one_to_one (nu (snd (interleave schedule ps d0))) r2l /\
  exists s : rdf_source S NP EP err, (a, h') = r_feed_both fn fe s h /\
  ((forall e p, In (Ok (e, p)) (rs_nodes s) -> exists i d1, seen d1 /\
     r_lists_node SE cs cu cn d1 (shown (rho d1) i) p /\ called SE cs cu (knowing SE cs cu seen d1) i e) /\
   (forall t p, In (Ok (t, p)) (rs_edges s) -> exists u d1, seen d1 /\
     r_lists_edge SE cs cu ce SPO d1 (triple_map (shown (rho d1)) u) p /\ called3 SE cs cu (knowing SE cs cu seen d1) u t) /\
   StronglySorted (behind_lt r2l) (map (fun ep => by_name r2l (fst ep)) (ok_items (rs_nodes s))) /\
   StronglySorted (behind_edge_lt r2l SPO) (map (fun tp => triple_map (by_name r2l) (fst tp)) (ok_items (rs_edges s))) /\
   (forall x, In (Err x) (rs_nodes s) -> is_fault (met schedule) x) /\
   (forall x, In (Err x) (rs_edges s) -> is_fault (met schedule) x \/ (x = GraphStorageError MissingPropertyData /\ exists u, ~ keep u))) /\
  (a = Ok tt -> r_complete cs cu cn ce schedule ps d0 s).
Proof.
  intros ps seen r2l HN Hx.
  destruct (rbeside_reads seqb seqb_eq cs cu cn ce Hcs Hcu Hcn Hce mn me keep Fin den Hulid Hname
    _ (fun F => rtook cs cu cn ce keep F fn fe h) es ts wcuts schedule Hnd Hcalm Ho
    (fun F a w1 w2 => rtook_later cs cu cn ce keep F fn fe h a w1 w2)
    (fun F w => rg_rtake cs cu cn ce Hcs Htu keep F fn fe cuts cuts' h w) HN _ Hx)
    as (w & (s & ys & zs & Es & (N2 & N3 & N4) & Hr & (R2 & R3 & R4) & Hr') & Hn & Hp & Hp').
  fold ps in Hn, Hp, Hp'. fold (during schedule ps d0) seen in Hp, Hp'.
  assert (r2l = rho (u_now w)) as Er by (unfold r2l; now rewrite Hn).
  assert (forall (a : I * NP) (b : ent * NP), node_made cs cu cn ce keep a b w -> by_name r2l (fst b) = shown r2l (fst a)) as Hk.
  { intros x y (d1 & _ & _ & _ & Hy). rewrite Er. eapply (called_now cs cu cn ce Hcs Hcu keep); exact Hy. }
  assert (forall (a : triple I * EP) (b : triple ent * EP), edge_made cs cu cn ce keep SPO a b w -> triple_map (by_name r2l) (fst b) = triple_map (shown r2l) (fst a)) as Hk'.
  { intros x y (d1 & _ & _ & _ & Hy). rewrite Er. eapply (called3_now cs cu cn ce Hcs Hcu keep); exact Hy. }
  assert (forall d1, In d1 (u_past w) -> index_ok cs cu (r_names d1)) as Hok by apply u_ok.
  pose proof (one_here cs cu cn ce Hcs Hcu keep w) as One.
  split; [intros d1 Hd1; rewrite <- Hn; apply (u_grew cs cu cn ce keep w d1); auto|].
  split; [intros d1 i x Hd1 Hs; rewrite Er; apply (name_stays cs cu cn ce Hcs Hcu keep w d1); auto|].
  split; [rewrite Er, <- Hn; exact One|].
  exists s. split; auto. split; [split; [|split; [|split; [|split; [|split]]]]|].
  - intros e p Hin. destruct (forall2_in_r _ _ _ _ Hr Hin) as (y & Hy & [i q] & -> & d1 & Hd1 & Hl & Hq & He). simpl in Hq, He. subst q.
    exists i, d1. split; auto. split; [apply node_listed; auto; exists i; auto|]. eapply (called_since cs cu cn ce Hcs Hcu keep w); eauto.
  - intros t p Hin. destruct (forall2_in_r _ _ _ _ Hr' Hin) as (y & Hy & [u q] & -> & d1 & Hd1 & Hl & Hq & Ha & Hb & Hc).
    simpl in Hq, Ha, Hb, Hc. subst q. exists u, d1. split; auto. split; [apply edge_listed; auto; exists u; auto|].
    repeat split; eapply (called_since cs cu cn ce Hcs Hcu keep w); eauto.
  - eapply made_sorted with (ka := fst) (h := shown r2l); [exact Hk| |exact N2|exact Hr]. intros x y L. exists x, y. auto.
  - eapply made_sorted with (ka := fst) (h := triple_map (shown r2l)); [exact Hk'| |exact R2|exact Hr']. intros x y L. exists x, y. auto.
  - intros x Hin. destruct (forall2_in_r _ _ _ _ Hr Hin) as (y & Hy & [(g & -> & ->)|Hf]); auto.
    destruct (N3 g Hy) as (z & Hz & ->). exists z. auto.
  - intros x Hin. destruct (forall2_in_r _ _ _ _ Hr' Hin) as (y & Hy & [(g & -> & ->)|Hf]); auto.
    destruct (R3 g Hy) as [[-> Hkeep]|(z & Hz & ->)]; [right; auto|]. left. exists z. auto.
  - intros ->. symmetry in Es. destruct (r_feed_ok _ _ _ Es) as [E1 E2]. specialize (N4 eq_refl). specialize (R4 eq_refl).
    destruct N4 as (_ & _ & _ & N4), R4 as (_ & _ & _ & R4). split; fold seen; fold r2l.
    + intros e He. destruct (He _ (Hp _ (u_in cs cu cn ce keep w))) as (e0 & p0 & E0 & L0).
      apply node_listed in L0; [| |exact Htu|apply Hok, u_in]; auto. destruct L0 as (i & -> & _).
      assert (by_name r2l e = shown r2l i) as Ei.
      { rewrite <- E0, Er. eapply (called_now cs cu cn ce Hcs Hcu keep), shown_was, u_in. }
      destruct (N4 i) as [Hin|(g & Hg)].
      * intros g Hg. simpl in Hg. apply in_map_iff in Hg. destruct Hg as (d1 & <- & Hd1).
        destruct (He d1 (Hp _ Hd1)) as (e1 & p1 & E1' & L1). apply node_listed in L1; auto. destruct L1 as (j & -> & L1).
        assert (j = i) as ->; [|eauto]. apply (shown_inj _ _ One). rewrite <- Er, <- Ei, <- E1', Er. symmetry.
        now eapply (called_now cs cu cn ce Hcs Hcu keep), shown_was.
      * rewrite Ei. destruct (made_there cs cu cn ce keep _ _ (shown r2l) _ _ _ _ _ _ Hk Hr Hin) as [Q|(x & Q & _)]; [exact Q|destruct (E1 x Q)].
      * destruct (made_error cs cu cn ce keep _ _ _ _ _ _ Hr Hg) as (x & Q & _). destruct (E1 x Q).
    + intros t Ht. destruct (Ht _ (Hp _ (u_in cs cu cn ce keep w))) as (e0 & p0 & E0 & L0).
      apply edge_listed in L0; [| |exact Htu|apply Hok, u_in]; auto. destruct L0 as (i & -> & _).
      assert (triple_map (by_name r2l) t = triple_map (shown r2l) i) as Ei.
      { rewrite <- E0, Er. eapply (called3_now cs cu cn ce Hcs Hcu keep), triple_was, u_in. }
      destruct (R4 i) as [Hin|(g & Hg & Hwhy)].
      * intros g Hg. simpl in Hg. apply in_map_iff in Hg. destruct Hg as (d1 & <- & Hd1).
        destruct (Ht d1 (Hp _ Hd1)) as (e1 & p1 & E1' & L1). apply edge_listed in L1; auto. destruct L1 as (j & -> & L1).
        assert (j = i) as ->; [|eauto]. apply (shown3_inj _ _ One). rewrite <- Er, <- Ei, <- E1', Er. symmetry.
        now eapply (called3_now cs cu cn ce Hcs Hcu keep), triple_was.
      * rewrite Ei. destruct (made_there cs cu cn ce keep _ _ (triple_map (shown r2l)) _ _ _ _ _ _ Hk' Hr' Hin) as [Q|(x & Q & _)]; [exact Q|destruct (E2 x Q)].
      * destruct (made_error cs cu cn ce keep _ _ _ _ _ _ Hr' Hg) as (x & Q & _). destruct (E2 x Q).
Qed.
End Top.

Lemma rtaken_beside : forall S NP EP SE BE E H EL (seqb : S -> S -> bool)
  (cs : codec BE S) (cu : codec BE (Id KUlid)) (cn : codec BE NP) (ce : codec BE EP) mn me
  (fn : entity S * NP -> H -> result EL unit * H) (fe : triple (entity S) * EP -> H -> result EL unit * H),
  (forall a b, seqb a b = true <-> a = b) ->
  codec_ok cs -> codec_ok cu -> codec_ok cn -> codec_ok ce -> codec_total cu ->
  forall (es : list (repoch (S := S) (NP := NP) (EP := EP) (SE := SE) (E := E))) (ts : list (rhandle * list (rop S NP EP E)))
    (wcuts : nat -> nat -> cutting) (cuts cuts' : list bytes) (schedule : list (nat * option SE)) (h : H) a h',
  NoDup (flat_map epoch_keys es ++ callers_keys ts) -> Forall RdfSledSpec.calm es ->
  let d := rs_epochs cs cu cn ce mn me es rdb_new in
  let ps := beside (rs_take_over cs cu cn ce fn fe cuts cuts' h) (rl_callers cs cu cn ce mn me wcuts 0 ts) in
  let names := id_now (SE := SE) cs cu (snd (interleave schedule ps d)) in
  has_read (a, h') (fst (interleave schedule ps d)) ->
  (forall d1 i s, during schedule ps d d1 -> id_now (SE := SE) cs cu d1 i = Some s -> names i = Some s) /\
  one_to_one (name_now (SE := SE) cs cu (snd (interleave schedule ps d))) names /\
  exists s, (a, h') = r_feed_both fn fe s h /\ r_handed cs cu cn ce schedule ps d ts s /\
    (a = Ok tt -> r_complete cs cu cn ce schedule ps d s).
Proof.
  intros S NP EP SE BE E H EL seqb cs cu cn ce mn me fn fe Hseq Hcs Hcu Hcn Hce Htu es ts wcuts cuts cuts' schedule h a h' Hnd Hcalm d ps names Hx.
  destruct (taken_rbeside seqb Hseq cs cu cn ce Hcs Hcu Hcn Hce Htu mn me none every anyhow (fun _ => Logic.I) (fun _ _ _ _ _ => Logic.I) es ts wcuts schedule Hnd Hcalm (radds_none _ _) fn fe cuts cuts' h a h' (fun _ _ => Logic.I) Hx) as (G & _).
  fold d ps in G. set (d_end := snd (interleave schedule ps d)) in *.
  destruct (taken_rbeside seqb Hseq cs cu cn ce Hcs Hcu Hcn Hce Htu mn me (fun t => ~ r_rewritten (r_denotes SE cs cu d_end) ts t)
    (fun d1 => below (name_now (SE := SE) cs cu d1) (name_now (SE := SE) cs cu d_end))
    (r_denotes SE cs cu d_end) (fun i => eq_refl) (fun d1 n i H => H n i) es ts wcuts schedule Hnd Hcalm (radds_spared _ _) fn fe cuts cuts' h a h' G Hx)
    as (_ & H0 & Ho & s & Es & (H1 & H2 & H3 & H4 & H5 & H6) & Hc).
  split; auto. split; auto. exists s. split; auto. split; auto. split; [|split; [|split; [|split; [|split]]]]; auto.
  intros x Hin. destruct (H6 x Hin) as [Hf|[-> (u & K)]]; auto. right. split; auto. exists u.
  apply r_rewritten_not; auto. intros; apply denotes_dec.
Qed.

(** ** The stores that are written *)
Section Feed.
Context {S NP EP E : Type} (seqb : S -> S -> bool).
Notation M := (rdf S NP EP).
Lemma r_feed_for_each {A} (f : A -> M -> _) (l : list (result E A)) : forall r, feed f l r = rdf_for_each f l r.
Proof. induction l as [|[a|e] l IH]; intros r; simpl; auto. destruct (f a r) as [[[]|x] r1]; auto. Qed.
Lemma r_feed_extend (s : rdf_source S NP EP E) (r : M) :
  r_feed_both (fun ip => rdf_insert_node seqb (fst ip) (snd ip)) (fun te => rdf_insert_edge seqb (fst te) (snd te)) s r = rdf_extend seqb s r.
Proof. unfold r_feed_both, rdf_extend, rdf_bulk. rewrite r_feed_for_each. destruct (rdf_for_each _ (rs_nodes s) r) as [[]]; auto. apply r_feed_for_each. Qed.
Lemma r_feed_merge mn me (s : rdf_source S NP EP E) (r : M) :
  r_feed_both (fun ip => rdf_merge_node seqb mn (fst ip) (snd ip)) (fun te => rdf_merge_edge seqb me (fst te) (snd te)) s r = rdf_merge seqb mn me s r.
Proof. unfold r_feed_both, rdf_merge, rdf_bulk. rewrite r_feed_for_each. destruct (rdf_for_each _ (rs_nodes s) r) as [[]]; auto. apply r_feed_for_each. Qed.

Context {SE' BE' : Type}.
Notation err' := (rdf_error S (sled_index_error S (Id KUlid) SE' BE') (sled_error SE' BE')).
Lemma r_feed_elsewhere {A} (p : A -> rhandle -> prog rdb SE' (result err' unit * rhandle)) (l : list (result E A)) : forall h d fs,
  feed (fun a => r_elsewhere (p a)) l (h, d, fs) =
  let '(a, h', d', fs') := exec (rs_for_each p l h) fs d in (a, (h', d', fs')).
Proof.
  induction l as [|[a|e] l IH]; intros h d fs; cbn [feed rs_for_each]; try reflexivity.
  rewrite exec_bind. cbn [r_elsewhere]. destruct (exec (p a h) fs d) as [[[r h1] d1] fs1]. destruct r as [[]|e]; cbn [fst snd].
  - apply IH.
  - reflexivity.
Qed.
Lemma r_feed_sled pn pe (s : rdf_source S NP EP E) (h : rhandle) (d : rdb) (fs : list (option SE')) :
  r_feed_both (fun a => r_elsewhere (S := S) (SE' := SE') (BE' := BE') (pn (fst a) (snd a))) (fun a => r_elsewhere (pe (fst a) (snd a))) s (h, d, fs) =
  let '(a, h', d', fs') := exec (rs_bulk pn pe s h) fs d in (a, (h', d', fs')).
Proof.
  unfold r_feed_both, rs_bulk. rewrite exec_bind, r_feed_elsewhere.
  destruct (exec (rs_for_each _ (rs_nodes s) h) fs d) as [[[r h1] d1] fs1]. destruct r as [u|e]; cbn [fst snd].
  - apply r_feed_elsewhere.
  - reflexivity.
Qed.
End Feed.

(** ** A new store in memory *)
Section New.
Context {S NP EP E : Type} (seqb : S -> S -> bool) (seqb_eq : forall a b, seqb a b = true <-> a = b).
Context (mn : NP -> NP -> NP) (me : EP -> EP -> EP).
Notation ent := (entity S).
Notation EG := (egraph S NP EP).
Notation same := (entity_eqb seqb).
Notation same3 := (triple_eqb (entity_eqb seqb)).

Lemma bulk_used (Fn : ent * NP -> (ent -> option NP) -> ent -> option NP)
    (Fe : triple ent * EP -> (triple ent -> option EP) -> triple ent -> option EP)
    (fn : ent -> NP -> EG -> EG) (fe : triple ent -> EP -> EG -> EG) (s : rdf_source S NP EP E) :
  (forall n p g, e_edge (fn n p g) = e_edge g) -> (forall n p g, e_node (fn n p g) = Fn (n, p) (e_node g)) ->
  (forall n p g, e_node (fe n p g) = e_node g) -> (forall n p g, e_edge (fe n p g) = Fe (n, p) (e_edge g)) ->
  (forall x m a, m (fst x) = None -> Fn x m a = if same a (fst x) then Some (snd x) else m a) ->
  (forall x m a, m (fst x) = None -> Fe x m a = if same3 a (fst x) then Some (snd x) else m a) ->
  NoDup (map fst (used_nodes s)) -> NoDup (map fst (used_edges s)) ->
  (forall a p, e_node (e_bulk fn fe s e_empty) a = Some p <-> In (a, p) (used_nodes s)) /\
  (forall a p, e_edge (e_bulk fn fe s e_empty) a = Some p <-> In (a, p) (used_edges s)).
Proof.
  intros A1 A2 B1 B2 C1 C2 N1 N2. unfold e_bulk.
  destruct (edges_filled fe Fe B1 B2 (used_edges s) (fold_left (fun g ip => fn (fst ip) (snd ip) g) (used_nodes s) e_empty)) as [X1 X2].
  destruct (nodes_filled fn Fn A1 A2 (used_nodes s) e_empty) as [Y1 Y2].
  split; intros a p.
  - rewrite X2, Y1. rewrite (fill same (entity_eqb_eq seqb seqb_eq) Fn); auto. simpl.
    split; [intros [Q|Q]; [auto|discriminate]|auto].
  - rewrite X1, Y2. rewrite (fill same3 (entity3_eqb_eq seqb seqb_eq) Fe); auto. simpl.
    split; [intros [Q|Q]; [auto|discriminate]|auto].
Qed.

Lemma new_store (s : rdf_source S NP EP E) o g u a (r : rdf S NP EP) :
  r_copying s o -> rdf_apply seqb mn me o (rdf_new g u) = (a, r) ->
  NoDup (map fst (used_nodes s)) -> NoDup (map fst (used_edges s)) ->
  drawn_distinct (r_ulids r) -> drawn_distinct (id_generator (r_graph r)) ->
  (forall i n, In (EUlid i) (entities_of o) -> n < g_pos (r_ulids r) -> g_seq (r_ulids r) n <> i) ->
  a = match rdf_source_error s with Some e => Err (RightE e) | None => Ok tt end /\
  exists eg, rdf_shows r eg /\
    (forall e p, e_node eg e = Some p <-> In (e, p) (used_nodes s)) /\
    (forall t p, e_edge eg t = Some p <-> In (t, p) (used_edges s)).
Proof.
  intros C Ha N1 N2 D1 D2 Fr.
  assert (rdf_history seqb mn me [o] (rdf_new g u) = ([a], r)) as Hh by (simpl; now rewrite Ha).
  destruct (top_rdf_plain seqb seqb_eq mn me [o] g u _ _ Hh D1 D2) as [X Y].
  { intros i n Hi. apply Fr. simpl in Hi. now rewrite app_nil_r in Hi. }
  assert (forall t : triple ent, triple_map (fun e => e) t = t) as Tm by (intros []; reflexivity).
  split; [destruct C; simpl in X; injection X as ->; reflexivity|]. eexists. split; [exact Y|].
  destruct C; simpl.
  - apply bulk_used with
      (Fn := fun x m a => if same a (fst x) then Some (snd x) else m a)
      (Fe := fun x m a => if same3 a (fst x) then Some (snd x) else m a); auto; intros; rewrite ?Tm; reflexivity.
  - apply bulk_used with
      (Fn := fun x m a => if same a (fst x) then Some (merged mn (m (fst x)) (snd x)) else m a)
      (Fe := fun x m a => if same3 a (fst x) then Some (merged me (m (fst x)) (snd x)) else m a); auto; intros; rewrite ?Tm; try reflexivity.
    + simpl. now rewrite H.
    + simpl. now rewrite H.
Qed.
End New.

Section Into.
Context {S NP EP SE BE E X : Type} (seqb : S -> S -> bool) (seqb_eq : forall a b, seqb a b = true <-> a = b).
Context (cs : codec BE S) (cu : codec BE (Id KUlid)) (cn : codec BE NP) (ce : codec BE EP) (mn : NP -> NP -> NP) (me : EP -> EP -> EP).
Context (schedule : list (nat * option SE)) (ps : list (prog rdb SE X)) (d : rdb) (ts : list (rhandle * list (rop S NP EP E))).
Notation seen := (during schedule ps d).
Notation last := (snd (interleave schedule ps d)).
Notation rho := (id_now (SE := SE) cs cu).
Notation names := (rho last).
Notation ent := (entity S).
Notation err := (rdf_error S (sled_index_error S (Id KUlid) SE BE) (sled_error SE BE)).

(** A handed over identifier without a name had none when it was read. *)
Lemma called_nameless d1 i j : called SE cs cu (knowing SE cs cu seen d1) i (EUlid j) -> i = j /\ shown (rho d1) i = EUlid j.
Proof.
  intros (d2 & (_ & Hk) & Es). unfold shown in *. destruct (rho d2 i) as [n|] eqn:E2; [discriminate|]. injection Es as ->. split; auto.
  destruct (rho d1 i) as [n|] eqn:E1; auto. apply Hk in E1. congruence.
Qed.

Lemma handed_new (s : rdf_source S NP EP err) o g u a (r : rdf S NP EP) :
  one_to_one (name_now (SE := SE) cs cu last) names ->
  r_handed cs cu cn ce schedule ps d ts s -> (a = Ok tt -> r_complete cs cu cn ce schedule ps d s) ->
  r_copying s o -> rdf_apply seqb mn me o (rdf_new g u) = (a, r) ->
  drawn_distinct (r_ulids r) -> drawn_distinct (id_generator (r_graph r)) ->
  (forall d1 i n, seen d1 -> r_nameless SE cs cu cn ce d1 i -> n < g_pos (r_ulids r) -> g_seq (r_ulids r) n <> i) ->
  (a = Ok tt \/ exists x, a = Err (RightE x) /\ (is_fault (met schedule) x \/
     (x = GraphStorageError MissingPropertyData /\ exists u, r_rewritten (r_denotes SE cs cu last) ts u))) /\
  exists eg, rdf_shows r eg /\
  (forall e p, e_node eg e = Some p -> exists i d1, seen d1 /\
     r_lists_node SE cs cu cn d1 (shown (rho d1) i) p /\ called SE cs cu (knowing SE cs cu seen d1) i e) /\
  (forall t p, e_edge eg t = Some p -> exists u d1, seen d1 /\
     r_lists_edge SE cs cu ce SPO d1 (triple_map (shown (rho d1)) u) p /\ called3 SE cs cu (knowing SE cs cu seen d1) u t) /\
  (a = Ok tt ->
    (forall e, (forall d1, seen d1 -> exists e1 p, by_name names e1 = by_name names e /\ r_lists_node SE cs cu cn d1 e1 p) ->
       exists e2, by_name names e2 = by_name names e /\ e_node eg e2 <> None) /\
    (forall t, (forall d1, seen d1 -> exists t1 p, triple_map (by_name names) t1 = triple_map (by_name names) t /\
          r_lists_edge SE cs cu ce SPO d1 t1 p) ->
       exists t2, triple_map (by_name names) t2 = triple_map (by_name names) t /\ e_edge eg t2 <> None)).
Proof.
  intros One (H1 & H2 & H3 & H4 & H5 & H6) Hc C Ha D1 D2 Fr.
  assert (NoDup (map fst (used_nodes s))) as N1.
  { apply (NoDup_map_inv (by_name names)). rewrite map_map. unfold used_nodes.
    eapply before_error_sorted; [apply (behind_lt_irr _ _ One)|exact H3]. }
  assert (NoDup (map fst (used_edges s))) as N2.
  { apply (NoDup_map_inv (triple_map (by_name names))). rewrite map_map. unfold used_edges. destruct (first_error (rs_nodes s)); [constructor|].
    eapply before_error_sorted; [apply (behind_edge_lt_irr _ _ SPO One)|exact H4]. }
  assert (forall e p, In (e, p) (used_nodes s) -> In (Ok (e, p)) (rs_nodes s)) as U1 by (intros; now apply before_error_in).
  assert (forall t p, In (t, p) (used_edges s) -> In (Ok (t, p)) (rs_edges s)) as U2.
  { intros t p. unfold used_edges. destruct (first_error (rs_nodes s)); [intros []|]. apply before_error_in. }
  destruct (new_store seqb seqb_eq mn me s o g u a r C Ha N1 N2 D1 D2) as (Ea & eg & Sh & G1 & G2).
  { assert (forall i, In (EUlid i) (entities_of o) -> exists d1, seen d1 /\ r_nameless SE cs cu cn ce d1 i) as He.
    { intros i Hi. assert (In (EUlid i) (map (fun ip => fst ip) (used_nodes s) ++ flat_map (fun te => ends (fst te)) (used_edges s))) as Hi'
        by (destruct C; exact Hi). clear Hi. apply in_app_iff in Hi'. destruct Hi' as [Hi|Hi].
      - apply in_map_iff in Hi. destruct Hi as ([e p] & Ee & Hi). simpl in Ee. subst e. apply U1, H1 in Hi.
        destruct Hi as (j & d1 & Hd & Hl & Hcl). destruct (called_nameless _ _ _ Hcl) as [-> Es]. exists d1. split; auto. left. exists p.
        rewrite Es in Hl. exact Hl.
      - apply in_flat_map in Hi. destruct Hi as ([t p] & Hi & Hin). simpl in Hin. apply U2, H2 in Hi.
        destruct Hi as (v & d1 & Hd & Hl & (C1 & C2 & C3)). exists d1. split; auto. right. eexists. exists p. split; [exact Hl|].
        simpl in Hin. unfold ends, triple_map. simpl.
        destruct Hin as [Hin|[Hin|[Hin|[]]]]; [rewrite Hin in C1; destruct (called_nameless _ _ _ C1) as [_ Es]|
          rewrite Hin in C2; destruct (called_nameless _ _ _ C2) as [_ Es]|rewrite Hin in C3; destruct (called_nameless _ _ _ C3) as [_ Es]]; auto. }
    intros i n Hi. destruct (He i Hi) as (d1 & Hd & Hn). eapply Fr; eauto. }
  split.
  - rewrite Ea. unfold rdf_source_error. destruct (first_error (rs_nodes s)) as [x|] eqn:E1.
    + right. exists x. split; auto. left. apply H5. now apply first_error_in.
    + destruct (first_error (rs_edges s)) as [x|] eqn:E2; [|auto]. right. exists x. split; auto. apply H6. now apply first_error_in.
  - exists eg. split; auto. split; [intros e p Hp; apply H1, U1, G1, Hp|]. split; [intros t p Hp; apply H2, U2, G2, Hp|].
    intros Hok. destruct (Hc Hok) as [K1 K2].
    assert (first_error (rs_nodes s) = None /\ first_error (rs_edges s) = None) as [E1 E2].
    { rewrite Hok in Ea. unfold rdf_source_error in Ea. destruct (first_error (rs_nodes s)); [discriminate|]. destruct (first_error (rs_edges s)); [discriminate|auto]. }
    split.
    + intros e He. specialize (K1 e He). apply in_map_iff in K1. destruct K1 as ([e2 p] & Ee & Hin). apply ok_items_in in Hin.
      exists e2. split; auto. rewrite (proj2 (G1 e2 p)); [discriminate|]. now apply in_before_error.
    + intros t Ht. specialize (K2 t Ht). apply in_map_iff in K2. destruct K2 as ([t2 p] & Ee & Hin). apply ok_items_in in Hin.
      exists t2. split; auto. rewrite (proj2 (G2 t2 p)); [discriminate|]. unfold used_edges. rewrite E1. now apply in_before_error.
Qed.
End Into.

(** ** Into the stores of the crate *)
Lemma rextend_live_new : forall S NP EP SE BE E (seqb : S -> S -> bool)
  (cs : codec BE S) (cu : codec BE (Id KUlid)) (cn : codec BE NP) (ce : codec BE EP) mn me,
  (forall a b, seqb a b = true <-> a = b) ->
  codec_ok cs -> codec_ok cu -> codec_ok cn -> codec_ok ce -> codec_total cu ->
  forall (es : list (repoch (S := S) (NP := NP) (EP := EP) (SE := SE) (E := E))) (ts : list (rhandle * list (rop S NP EP E)))
    (wcuts : nat -> nat -> cutting) (cuts cuts' : list bytes) (schedule : list (nat * option SE)) g u a (r : rdf S NP EP),
  NoDup (flat_map epoch_keys es ++ callers_keys ts) -> Forall RdfSledSpec.calm es ->
  let d := rs_epochs cs cu cn ce mn me es rdb_new in
  let ps := beside (m_rextend_live cs cu cn ce seqb cuts cuts' (rdf_new g u)) (rl_callers cs cu cn ce mn me wcuts 0 ts) in
  let seen := during schedule ps d in
  let names := id_now (SE := SE) cs cu (snd (interleave schedule ps d)) in
  has_read (a, r) (fst (interleave schedule ps d)) ->
  drawn_distinct (r_ulids r) -> drawn_distinct (id_generator (r_graph r)) ->
  (forall d1 i n, seen d1 -> r_nameless SE cs cu cn ce d1 i -> n < g_pos (r_ulids r) -> g_seq (r_ulids r) n <> i)%nat ->
  (a = Ok tt \/ exists x, a = Err (RightE x) /\ (is_fault (met schedule) x \/
     (x = GraphStorageError MissingPropertyData /\ exists u, r_rewritten (r_denotes SE cs cu (snd (interleave schedule ps d))) ts u))) /\
  exists eg, rdf_shows r eg /\
  (forall e p, e_node eg e = Some p -> exists i d1, seen d1 /\
     r_lists_node SE cs cu cn d1 (shown (id_now (SE := SE) cs cu d1) i) p /\ called SE cs cu (knowing SE cs cu seen d1) i e) /\
  (forall t p, e_edge eg t = Some p -> exists u d1, seen d1 /\
     r_lists_edge SE cs cu ce SPO d1 (triple_map (shown (id_now (SE := SE) cs cu d1)) u) p /\
     called3 SE cs cu (knowing SE cs cu seen d1) u t) /\
  (a = Ok tt ->
    (forall e, (forall d1, seen d1 -> exists e1 p, by_name names e1 = by_name names e /\ r_lists_node SE cs cu cn d1 e1 p) ->
       exists e2, by_name names e2 = by_name names e /\ e_node eg e2 <> None) /\
    (forall t, (forall d1, seen d1 -> exists t1 p, triple_map (by_name names) t1 = triple_map (by_name names) t /\
          r_lists_edge SE cs cu ce SPO d1 t1 p) ->
       exists t2, triple_map (by_name names) t2 = triple_map (by_name names) t /\ e_edge eg t2 <> None)).
Proof.
  intros S NP EP SE BE E seqb cs cu cn ce mn me Hseq Hcs Hcu Hcn Hce Htu es ts wcuts cuts cuts' schedule g u a r Hnd Hcalm d ps seen names Hx D1 D2 Fr.
  destruct (rtaken_beside _ _ _ _ _ _ _ _ seqb cs cu cn ce mn me _ _ Hseq Hcs Hcu Hcn Hce Htu es ts wcuts cuts cuts' schedule _ a r Hnd Hcalm Hx) as (_ & One & s & Es & Hh & Hc).
  rewrite r_feed_extend in Es. eapply (handed_new seqb Hseq cs cu cn ce mn me schedule ps d ts s (RExtend s)); eauto. constructor.
Qed.
Lemma rmerge_live_new : forall S NP EP SE BE E (seqb : S -> S -> bool)
  (cs : codec BE S) (cu : codec BE (Id KUlid)) (cn : codec BE NP) (ce : codec BE EP) mn me,
  (forall a b, seqb a b = true <-> a = b) ->
  codec_ok cs -> codec_ok cu -> codec_ok cn -> codec_ok ce -> codec_total cu ->
  forall (es : list (repoch (S := S) (NP := NP) (EP := EP) (SE := SE) (E := E))) (ts : list (rhandle * list (rop S NP EP E)))
    (wcuts : nat -> nat -> cutting) (cuts cuts' : list bytes) (schedule : list (nat * option SE)) g u a (r : rdf S NP EP),
  NoDup (flat_map epoch_keys es ++ callers_keys ts) -> Forall RdfSledSpec.calm es ->
  let d := rs_epochs cs cu cn ce mn me es rdb_new in
  let ps := beside (m_rmerge_live cs cu cn ce seqb mn me cuts cuts' (rdf_new g u)) (rl_callers cs cu cn ce mn me wcuts 0 ts) in
  let seen := during schedule ps d in
  let names := id_now (SE := SE) cs cu (snd (interleave schedule ps d)) in
  has_read (a, r) (fst (interleave schedule ps d)) ->
  drawn_distinct (r_ulids r) -> drawn_distinct (id_generator (r_graph r)) ->
  (forall d1 i n, seen d1 -> r_nameless SE cs cu cn ce d1 i -> n < g_pos (r_ulids r) -> g_seq (r_ulids r) n <> i)%nat ->
  (a = Ok tt \/ exists x, a = Err (RightE x) /\ (is_fault (met schedule) x \/
     (x = GraphStorageError MissingPropertyData /\ exists u, r_rewritten (r_denotes SE cs cu (snd (interleave schedule ps d))) ts u))) /\
  exists eg, rdf_shows r eg /\
  (forall e p, e_node eg e = Some p -> exists i d1, seen d1 /\
     r_lists_node SE cs cu cn d1 (shown (id_now (SE := SE) cs cu d1) i) p /\ called SE cs cu (knowing SE cs cu seen d1) i e) /\
  (forall t p, e_edge eg t = Some p -> exists u d1, seen d1 /\
     r_lists_edge SE cs cu ce SPO d1 (triple_map (shown (id_now (SE := SE) cs cu d1)) u) p /\
     called3 SE cs cu (knowing SE cs cu seen d1) u t) /\
  (a = Ok tt ->
    (forall e, (forall d1, seen d1 -> exists e1 p, by_name names e1 = by_name names e /\ r_lists_node SE cs cu cn d1 e1 p) ->
       exists e2, by_name names e2 = by_name names e /\ e_node eg e2 <> None) /\
    (forall t, (forall d1, seen d1 -> exists t1 p, triple_map (by_name names) t1 = triple_map (by_name names) t /\
          r_lists_edge SE cs cu ce SPO d1 t1 p) ->
       exists t2, triple_map (by_name names) t2 = triple_map (by_name names) t /\ e_edge eg t2 <> None)).
Proof.
  intros S NP EP SE BE E seqb cs cu cn ce mn me Hseq Hcs Hcu Hcn Hce Htu es ts wcuts cuts cuts' schedule g u a r Hnd Hcalm d ps seen names Hx D1 D2 Fr.
  destruct (rtaken_beside _ _ _ _ _ _ _ _ seqb cs cu cn ce mn me _ _ Hseq Hcs Hcu Hcn Hce Htu es ts wcuts cuts cuts' schedule _ a r Hnd Hcalm Hx) as (_ & One & s & Es & Hh & Hc).
  rewrite r_feed_merge in Es. eapply (handed_new seqb Hseq cs cu cn ce mn me schedule ps d ts s (RMerge s)); eauto. constructor.
Qed.
Lemma rextend_live_mem : forall S NP EP SE BE E (seqb : S -> S -> bool)
  (cs : codec BE S) (cu : codec BE (Id KUlid)) (cn : codec BE NP) (ce : codec BE EP) mn me,
  (forall a b, seqb a b = true <-> a = b) ->
  codec_ok cs -> codec_ok cu -> codec_ok cn -> codec_ok ce -> codec_total cu ->
  forall (es : list (repoch (S := S) (NP := NP) (EP := EP) (SE := SE) (E := E))) (ts : list (rhandle * list (rop S NP EP E)))
    (wcuts : nat -> nat -> cutting) (cuts cuts' : list bytes) (schedule : list (nat * option SE)) a (r r' : rdf S NP EP),
  NoDup (flat_map epoch_keys es ++ callers_keys ts) -> Forall RdfSledSpec.calm es ->
  let d := rs_epochs cs cu cn ce mn me es rdb_new in
  let ps := beside (m_rextend_live cs cu cn ce seqb cuts cuts' r) (rl_callers cs cu cn ce mn me wcuts 0 ts) in
  has_read (a, r') (fst (interleave schedule ps d)) ->
  exists s, rdf_extend seqb s r = (a, r') /\ r_handed cs cu cn ce schedule ps d ts s /\
    (a = Ok tt -> r_complete cs cu cn ce schedule ps d s).
Proof.
  intros S NP EP SE BE E seqb cs cu cn ce mn me Hseq Hcs Hcu Hcn Hce Htu es ts wcuts cuts cuts' schedule a r r' Hnd Hcalm d ps Hx.
  destruct (rtaken_beside _ _ _ _ _ _ _ _ seqb cs cu cn ce mn me _ _ Hseq Hcs Hcu Hcn Hce Htu es ts wcuts cuts cuts' schedule r a r' Hnd Hcalm Hx) as (_ & _ & s & Es & Hh & Hc).
  exists s. rewrite r_feed_extend in Es. auto.
Qed.
Lemma rmerge_live_mem : forall S NP EP SE BE E (seqb : S -> S -> bool)
  (cs : codec BE S) (cu : codec BE (Id KUlid)) (cn : codec BE NP) (ce : codec BE EP) mn me,
  (forall a b, seqb a b = true <-> a = b) ->
  codec_ok cs -> codec_ok cu -> codec_ok cn -> codec_ok ce -> codec_total cu ->
  forall (es : list (repoch (S := S) (NP := NP) (EP := EP) (SE := SE) (E := E))) (ts : list (rhandle * list (rop S NP EP E)))
    (wcuts : nat -> nat -> cutting) (cuts cuts' : list bytes) (schedule : list (nat * option SE)) a (r r' : rdf S NP EP),
  NoDup (flat_map epoch_keys es ++ callers_keys ts) -> Forall RdfSledSpec.calm es ->
  let d := rs_epochs cs cu cn ce mn me es rdb_new in
  let ps := beside (m_rmerge_live cs cu cn ce seqb mn me cuts cuts' r) (rl_callers cs cu cn ce mn me wcuts 0 ts) in
  has_read (a, r') (fst (interleave schedule ps d)) ->
  exists s, rdf_merge seqb mn me s r = (a, r') /\ r_handed cs cu cn ce schedule ps d ts s /\
    (a = Ok tt -> r_complete cs cu cn ce schedule ps d s).
Proof.
  intros S NP EP SE BE E seqb cs cu cn ce mn me Hseq Hcs Hcu Hcn Hce Htu es ts wcuts cuts cuts' schedule a r r' Hnd Hcalm d ps Hx.
  destruct (rtaken_beside _ _ _ _ _ _ _ _ seqb cs cu cn ce mn me _ _ Hseq Hcs Hcu Hcn Hce Htu es ts wcuts cuts cuts' schedule r a r' Hnd Hcalm Hx) as (_ & _ & s & Es & Hh & Hc).
  exists s. rewrite r_feed_merge in Es. auto.
Qed.
Lemma rextend_live_sled : forall S NP EP SE BE SE' BE' E (seqb : S -> S -> bool)
  (cs : codec BE S) (cu : codec BE (Id KUlid)) (cn : codec BE NP) (ce : codec BE EP)
  (cs' : codec BE' S) (cu' : codec BE' (Id KUlid)) (cn' : codec BE' NP) (ce' : codec BE' EP) mn me,
  (forall a b, seqb a b = true <-> a = b) ->
  codec_ok cs -> codec_ok cu -> codec_ok cn -> codec_ok ce -> codec_total cu ->
  forall (es : list (repoch (S := S) (NP := NP) (EP := EP) (SE := SE) (E := E))) (ts : list (rhandle * list (rop S NP EP E)))
    (wcuts : nat -> nat -> cutting) (cuts cuts' : list bytes) (schedule : list (nat * option SE)) a (h h' : rhandle) (x x' : rdb) (fs fs' : list (option SE')),
  NoDup (flat_map epoch_keys es ++ callers_keys ts) -> Forall RdfSledSpec.calm es ->
  let d := rs_epochs cs cu cn ce mn me es rdb_new in
  let ps := beside (s_rextend_live cs cu cn ce cs' cu' cn' ce' cuts cuts' (h, x, fs)) (rl_callers cs cu cn ce mn me wcuts 0 ts) in
  has_read (a, (h', x', fs')) (fst (interleave schedule ps d)) ->
  exists s, exec (rs_extend cs' cu' cn' ce' s h) fs x = (a, h', x', fs') /\ r_handed cs cu cn ce schedule ps d ts s /\
    (a = Ok tt -> r_complete cs cu cn ce schedule ps d s).
Proof.
  intros S NP EP SE BE SE' BE' E seqb cs cu cn ce cs' cu' cn' ce' mn me Hseq Hcs Hcu Hcn Hce Htu es ts wcuts cuts cuts' schedule a h h' x x' fs fs' Hnd Hcalm d ps Hx.
  destruct (rtaken_beside _ _ _ _ _ _ _ _ seqb cs cu cn ce mn me _ _ Hseq Hcs Hcu Hcn Hce Htu es ts wcuts cuts cuts' schedule (h, x, fs) a (h', x', fs') Hnd Hcalm Hx) as (_ & _ & s & Es & Hh & Hc).
  exists s. split; auto. rewrite (r_feed_sled (rs_insert_node cs' cu' cn') (rs_insert_edge cs' cu' ce')) in Es.
  unfold rs_extend. destruct (exec _ fs x) as [[[r h1] d1] fs1]. now inversion Es.
Qed.
Lemma rmerge_live_sled : forall S NP EP SE BE SE' BE' E (seqb : S -> S -> bool)
  (cs : codec BE S) (cu : codec BE (Id KUlid)) (cn : codec BE NP) (ce : codec BE EP)
  (cs' : codec BE' S) (cu' : codec BE' (Id KUlid)) (cn' : codec BE' NP) (ce' : codec BE' EP) mn me,
  (forall a b, seqb a b = true <-> a = b) ->
  codec_ok cs -> codec_ok cu -> codec_ok cn -> codec_ok ce -> codec_total cu ->
  forall (es : list (repoch (S := S) (NP := NP) (EP := EP) (SE := SE) (E := E))) (ts : list (rhandle * list (rop S NP EP E)))
    (wcuts : nat -> nat -> cutting) (cuts cuts' : list bytes) (schedule : list (nat * option SE)) a (h h' : rhandle) (x x' : rdb) (fs fs' : list (option SE')),
  NoDup (flat_map epoch_keys es ++ callers_keys ts) -> Forall RdfSledSpec.calm es ->
  let d := rs_epochs cs cu cn ce mn me es rdb_new in
  let ps := beside (s_rmerge_live cs cu cn ce cs' cu' cn' ce' mn me cuts cuts' (h, x, fs)) (rl_callers cs cu cn ce mn me wcuts 0 ts) in
  has_read (a, (h', x', fs')) (fst (interleave schedule ps d)) ->
  exists s, exec (rs_merge cs' cu' cn' ce' mn me s h) fs x = (a, h', x', fs') /\ r_handed cs cu cn ce schedule ps d ts s /\
    (a = Ok tt -> r_complete cs cu cn ce schedule ps d s).
Proof.
  intros S NP EP SE BE SE' BE' E seqb cs cu cn ce cs' cu' cn' ce' mn me Hseq Hcs Hcu Hcn Hce Htu es ts wcuts cuts cuts' schedule a h h' x x' fs fs' Hnd Hcalm d ps Hx.
  destruct (rtaken_beside _ _ _ _ _ _ _ _ seqb cs cu cn ce mn me _ _ Hseq Hcs Hcu Hcn Hce Htu es ts wcuts cuts cuts' schedule (h, x, fs) a (h', x', fs') Hnd Hcalm Hx) as (_ & _ & s & Es & Hh & Hc).
  exists s. split; auto. rewrite (r_feed_sled (rs_merge_node cs' cu' cn' mn) (rs_merge_edge cs' cu' ce' me)) in Es.
  unfold rs_merge. destruct (exec _ fs x) as [[[r h1] d1] fs1]. now inversion Es.
Qed.
