(** What the query of RdfSledQuery.v returns, said about the executions. *)
From Coq Require Import Arith NArith List Bool Sorted Lia Permutation.
From Verif Require Import Bytes BytesFacts OMap OMapFacts Core IdType IdTypeFacts Store Mem MemIndex Spec GenSpec
  CodecFacts ListFacts MemFacts MemSim IdGenFacts History MemTop Prog ProgFacts Sled SledHistory SledSched SledDb SledOps SledBulk SledRead SledTables
  SledAny SledRun SledTop SledMain SledLeaf SledLeafFacts SledBeside SledRely SledOwn SledOwnOps SledBesideTop SledReaders
  SledIndex SledIndexFacts Rdf RdfSpec RdfTop RdfQuery RdfSled RdfSledSpec RdfSledSafe RdfSledConc RdfSledTop RdfSledRead RdfSledMain RdfSledLeaf RdfSledOwn
  RdfSledReaders SledReadTop RdfSledReadTop RdfSledExact RdfSledExactTop RdfSledQuery.
Import ListNotations.

Lemma drawn_list {k} (g : gen k) : drawn_distinct g <-> NoDup (map (g_seq g) (seq 0 (g_pos g))).
Proof.
  rewrite (NoDup_nth _ (g_seq g 0)), map_length, seq_length. split.
  - intros H i j Hi Hj E. apply H; auto.
    rewrite (map_nth (g_seq g) (seq 0 (g_pos g)) 0 i), (map_nth (g_seq g) (seq 0 (g_pos g)) 0 j) in E. now rewrite !seq_nth in E.
  - intros H i j Hi Hj E. apply H; auto.
    rewrite (map_nth (g_seq g) (seq 0 (g_pos g)) 0 i), (map_nth (g_seq g) (seq 0 (g_pos g)) 0 j). now rewrite !seq_nth.
Qed.
Lemma drawn_dec {k} (g : gen k) : drawn_distinct g \/ ~ drawn_distinct g.
Proof.
  rewrite drawn_list. induction (map (g_seq g) (seq 0 (g_pos g))) as [|a l IH]; [left; constructor|].
  destruct IH as [IH|IH]; [|right; intros H; inversion H; auto].
  destruct (existsb (id_eqb a) l) eqn:X.
  - apply existsb_exists in X. destruct X as (b & Hb & E). apply id_eqb_eq in E. subst b. right. intros H. inversion H; auto.
  - left. constructor; auto. intros Hin. assert (existsb (id_eqb a) l = true); [|congruence].
    apply existsb_exists. exists a. split; auto. now apply id_eqb_eq.
Qed.

Lemma again_before (l l' : list (Id KUlid)) i : again l i -> again (l' ++ l) i.
Proof. intros (l1 & l2 & -> & H). exists (l' ++ l1), l2. rewrite <- app_assoc. split; auto. apply in_app_iff. auto. Qed.
Lemma named_again {S} (seqb : S -> S -> bool) (seqb_eq : forall a b, seqb a b = true <-> a = b) (f : Id KUlid -> option S) :
  (forall i j s, f i = Some s -> f j = Some s -> i = j) ->
  forall l, NoDup (filter_map f l) \/ exists i s, again l i /\ f i = Some s.
Proof.
  intros Inj l. induction l as [|x l IH] using rev_ind; [left; constructor|].
  destruct IH as [N|(i & s & Ha & Hi)]; [|right; exists i, s; split; auto; now apply again_more].
  rewrite filter_map_app. simpl. destruct (f x) as [s|] eqn:Fx; [|left; now rewrite app_nil_r].
  destruct (existsb (seqb s) (filter_map f l)) eqn:X.
  - apply existsb_exists in X. destruct X as (s' & Hs & Q). apply seqb_eq in Q. subst s'. apply filter_map_in in Hs.
    destruct Hs as (j & Hj & Fj). right. exists x, s. split; auto. exists l, []. split; auto. now rewrite (Inj x j s Fx Fj).
  - left. apply NoDup_app_iff. split; auto. split; [constructor; [intros []|constructor]|]. intros a Ha [<-|[]].
    assert (existsb (seqb s) (filter_map f l) = true); [|congruence]. apply existsb_exists. exists s. split; auto. now apply seqb_eq.
Qed.

Section Top.
Context {S NP EP SE BE E : Type} (seqb : S -> S -> bool) (seqb_eq : forall a b, seqb a b = true <-> a = b).
Context (cs : codec BE S) (cu : codec BE (Id KUlid)) (cn : codec BE NP) (ce : codec BE EP).
Context (Hcs : codec_ok cs) (Hcu : codec_ok cu) (Hcn : codec_ok cn) (Hce : codec_ok ce) (Htu : codec_total cu).
Context (mn : NP -> NP -> NP) (me : EP -> EP -> EP) (keep : triple (Id KUlid) -> Prop).
Context (Fin : rdb -> Prop) (den : entity S -> Id KUlid -> Prop).
Context (Hulid : forall i, den (EUlid i) i) (Hname : forall d n i, Fin d -> name_now (SE := SE) cs cu d n = Some i -> den (EString n) i).
Notation I := (Id KUlid).
Notation ent := (entity S).
Notation rop := (rop S NP EP E).
Notation repoch := (repoch (S := S) (NP := NP) (EP := EP) (SE := SE) (E := E)).
Notation nu := (name_now (SE := SE) cs cu).
Notation rho := (id_now (SE := SE) cs cu).
Notation rst := (rst (S := S) (SE := SE) cs cu cn ce keep).
Notation u_now := (u_now cs cu cn ce keep).
Notation u_past := (u_past cs cu cn ce keep).
Notation gst := (gst cs cu cn ce keep).
Notation rext := (rext cs cu cn ce keep).
Notation found := (found cs cu cn ce keep).
Notation callers := (rl_callers cs cu cn ce mn me).
Implicit Types d : rdb.
Implicit Types w : rst.

Lemma found_now w e i : found w e i -> by_name (rho (u_now w)) e = shown (rho (u_now w)) i.
Proof.
  destruct e as [s|j]; simpl; [|now intros ->]. intros (d & Hd & Hs).
  apply (past_one cs cu cn ce Hcs Hcu keep w d Hd), (past_now cs cu cn ce Hcs Hcu keep w d _ _ Hd) in Hs. unfold shown. now rewrite Hs.
Qed.
Lemma found_query w q qi : query_rel (found w) q qi -> query_map (by_name (rho (u_now w))) q = query_map (shown (rho (u_now w))) qi.
Proof. apply query_rel_map. intros e i. apply found_now. Qed.
Lemma inj_now w i j : shown (rho (u_now w)) i = shown (rho (u_now w)) j -> i = j.
Proof. apply (shown_inj _ _ (past_one cs cu cn ce Hcs Hcu keep w _ (u_in cs cu cn ce keep w))). Qed.

Context (es : list repoch) (ts : list (rhandle * list rop)) (wcuts : nat -> nat -> cutting) (schedule : list (nat * option SE)).
Context (Hnd : NoDup (flat_map epoch_keys es ++ callers_keys ts)) (Hcalm : Forall RdfSledSpec.calm es).
Context (Ho : Forall (fun hl => Forall (fun o => forall t, keep t -> ~ r_rewrites den o t) (snd hl)) ts).
Notation d0 := (rs_epochs cs cu cn ce mn me es rdb_new).

Lemma run_rbeside rcuts g u q r :
  let ps := beside (rl_run (NP := NP) (EP := EP) (SE := SE) cs cu cn ce rcuts seqb g u q) (callers wcuts 0 ts) in
  let seen := during schedule ps d0 in
  let r2l := rho (snd (interleave schedule ps d0)) in
  let q' := query_map (by_name r2l) q in
  (forall d1, seen d1 -> Fin d1) ->
  has_read r (fst (interleave schedule ps d0)) ->
  (forall d1, seen d1 -> below (nu d1) (nu (snd (interleave schedule ps d0)))) /\
  (forall d1 i s, seen d1 -> rho d1 i = Some s -> r2l i = Some s) /\
  match r with
  | Err (LeftE x) => is_fault (met schedule) x \/
      exists s, In (EString s) (mentioned q) /\
        ((x = NameNotFound s /\ exists d1, seen d1 /\ nu d1 s = None) \/
         exists b, ser cs s = Err b /\ x = NameIndexStorageError (ISerializationError b))
  | Err (RightE x) =>
      (exists s i us l1 l2, x = NameIndexStorageError (DuplicateRight s i i) /\ r2l i = Some s /\ NoDup us /\
         (forall t, In t us -> selects q' (triple_map (shown r2l) t) /\
            exists d1 p, seen d1 /\ r_lists_edge SE cs cu ce (order_of q) d1 (triple_map (shown (rho d1)) t) p) /\
         flat_map (fun t => [sub t; pred t; obj t]) us = l1 ++ i :: l2 /\ In i l1) \/
      exists n, ~ drawn_distinct (Gen (g_seq g) n)
  | Ok r' =>
      (forall s, In (EString s) (mentioned q) -> exists d1 i, seen d1 /\ nu d1 s = Some i) /\
      (drawn_distinct (id_generator (r_graph r')) -> exists eg', rdf_shows r' eg' /\
        (forall e p, e_node eg' e = Some p -> selects_node q' (by_name r2l e) /\ exists i d1, seen d1 /\
           r_lists_node SE cs cu cn d1 (shown (rho d1) i) p /\ called SE cs cu (knowing SE cs cu seen d1) i e) /\
        (forall t p, e_edge eg' t = Some p -> selects q' (triple_map (by_name r2l) t) /\ exists v d1, seen d1 /\
           r_lists_edge SE cs cu ce (order_of q) d1 (triple_map (shown (rho d1)) v) p /\ called3 SE cs cu (knowing SE cs cu seen d1) v t) /\
        (forall s i, left_to_right seqb (name_index r') s = Some i -> r2l i = Some s) /\
        (forall vs, NoDup vs -> (forall t, In t vs <-> e_edge eg' t <> None) -> NoDup (flat_map names_of vs) \/
           exists v i s d1 d2 p, seen d1 /\ r_lists_edge SE cs cu ce (order_of q) d1 (triple_map (shown (rho d1)) v) p /\
             (i = sub v \/ i = pred v \/ i = obj v) /\ knowing SE cs cu seen d1 d2 /\ rho d2 i = None /\ r2l i = Some s) /\
        (forall e, selects_node q' (by_name r2l e) ->
           (forall d1, seen d1 -> exists e1 p, by_name r2l e1 = by_name r2l e /\ r_lists_node SE cs cu cn d1 e1 p) ->
           exists e2, by_name r2l e2 = by_name r2l e /\ e_node eg' e2 <> None) /\
        (forall t, (forall u, triple_map (by_name r2l) t = triple_map (shown r2l) u -> keep u) -> selects q' (triple_map (by_name r2l) t) ->
           (forall d1, seen d1 -> exists t1 p, triple_map (by_name r2l) t1 = triple_map (by_name r2l) t /\ r_lists_edge SE cs cu ce (order_of q) d1 t1 p) ->
           exists t2, triple_map (by_name r2l) t2 = triple_map (by_name r2l) t /\ e_edge eg' t2 <> None))
  end.
Proof.
  intros ps seen r2l q' HN Hx.
  destruct (rbeside_reads seqb seqb_eq cs cu cn ce Hcs Hcu Hcn Hce mn me keep Fin den Hulid Hname _ (fun F => answered seqb cs cu cn ce keep F g u q) es ts wcuts schedule Hnd Hcalm Ho
    (fun F a w1 w2 => answered_later seqb cs cu cn ce keep F g u q a w1 w2)
    (fun F w => rg_rl_run seqb seqb_eq cs cu cn ce Hcs Hcu Htu keep F rcuts g u q w) HN _ Hx) as (w & Hr & Hn & Hp & Hp').
  fold ps in Hn, Hp, Hp'. fold (during schedule ps d0) seen in Hp, Hp'.
  assert (r2l = rho (u_now w)) as Er by (unfold r2l; now rewrite Hn).
  assert (forall d1, In d1 (u_past w) -> index_ok cs cu (r_names d1)) as Hok by apply u_ok.
  split; [intros d1 Hd1; rewrite <- Hn; apply (u_grew cs cu cn ce keep w d1); auto|].
  split; [intros d1 i s Hd1 Hs; rewrite Er; apply (past_now cs cu cn ce Hcs Hcu keep w d1); auto|].
  assert (forall qi, query_rel (found w) q qi -> q' = query_map (shown r2l) qi) as Hq' by (intros qi Hq; unfold q'; rewrite Er; now apply found_query).
  assert (forall a b, shown r2l a = shown r2l b -> a = b) as Inj by (rewrite Er; apply inj_now).
  destruct r as [r'|[x|x]]; cbn [answered] in Hr.
  - destruct Hr as (qi & w1 & Hq & Hw & [Hrun _] & [F1 F2 F3 F4] & _).
    assert (forall d1, In d1 (u_past w1) -> In d1 (u_past w)) as Hin by apply Hw.
    split.
    { intros s Hs. destruct (query_rel_mentioned _ _ _ _ Hq Hs) as (i & d1 & Hd & Hi). eauto. }
    intros D. destruct (Hrun D) as (gq & Sq & R1 & R2 & R3 & R4). clear Hrun.
    destruct (result_items (r_graph r') gq Sq) as (items & Hi & Nd & Ii & Nv & Iv).
    assert (forall i, g_node gq i <> None -> In i (ids_all (r_graph r'))) as Dn.
    { intros i H. apply in_app_iff. left. now apply Iv. }
    assert (forall t i, g_edge gq t <> None -> In i (ids3 t) -> In i (ids_all (r_graph r'))) as De.
    { intros t i H Ht. destruct (g_edge gq t) as [p|] eqn:Q; [|congruence]. apply Ii in Q. apply in_app_iff. right. rewrite Hi.
      apply in_flat_map. exists (Ok (t, p)). split; [now apply in_map|exact Ht]. }
    rewrite (query_rel_order _ _ _ Hq) in R2, R4. rewrite (Hq' _ Hq). set (sh := shown (right_to_left id_eqb (name_index r'))) in *.
    destruct (view_lift _ _ F1 gq) as [Ln Le]. fold sh in Ln, Le.
    assert (forall i, In i (ids_all (r_graph r')) -> by_name r2l (sh i) = shown r2l i) as Hnm.
    { intros i H. rewrite Er. eapply called_now; eauto. }
    assert (forall t, g_edge gq t <> None -> triple_map (by_name r2l) (triple_map sh t) = triple_map (shown r2l) t) as Hnm3.
    { intros t H. unfold triple_map. cbn [sub pred obj]. now rewrite !Hnm by (eapply De; [exact H|unfold ids3; simpl; auto]). }
    assert (forall i d1, In i (ids_all (r_graph r')) -> In d1 (u_past w1) -> called SE cs cu (knowing SE cs cu seen d1) i (sh i)) as Hc.
    { intros i d1 H Hd. eapply (called_since cs cu cn ce Hcs Hcu keep w); auto. destruct (F2 i H) as (d2 & Hd2 & K & He).
      exists d2. split; auto. }
    exists (RdfTop.lift (left_to_right seqb (name_index r')) (right_to_left id_eqb (name_index r')) gq).
    split; [eapply rdf_shows_view; [exact F1|exact Sq|apply view_lift; exact F1]|].
    split; [|split; [|split; [|split; [|split]]]].
    + intros e p He. apply Ln in He. destruct He as (i & -> & Hg). assert (g_node gq i <> None) as Hne by congruence.
      destruct (R1 i p Hg) as [Sel (dg & Hd & Hl)]. simpl in Hd. apply in_map_iff in Hd. destruct Hd as (d1 & <- & Hd1).
      split; [rewrite (Hnm i (Dn i Hne)); now apply selects_node_rename|].
      exists i, d1. split; auto. split; [apply node_listed; auto; exists i; auto|]. apply Hc; auto.
    + intros t p He. apply Le in He. destruct He as (v & -> & Hg). assert (g_edge gq v <> None) as Hne by congruence.
      destruct (R2 v p Hg) as [Sel (dg & Hd & Hl)]. simpl in Hd. apply in_map_iff in Hd. destruct Hd as (d1 & <- & Hd1).
      split; [rewrite (Hnm3 v Hne); now apply selects_rename|].
      exists v, d1. split; auto. split; [apply edge_listed; auto; exists v; auto|].
      repeat split; cbn [sub pred obj triple_map]; apply Hc; auto; eapply De; eauto; unfold ids3; simpl; auto.
    + intros s i Hs. apply F1 in Hs. destruct (F2 i (F3 i s Hs)) as (d1 & Hd1 & _ & He).
      unfold sh in He; unfold shown at 1 in He. rewrite Hs in He. symmetry in He. apply shown_name in He. rewrite Er. eapply past_now; eauto.
    + intros vs Nvs Ivs.
      assert (ids_of (iter_edges SPO (r_graph r')) = flat_map ids3 (map fst items)) as Ei.
      { rewrite Hi. clear. induction items as [|[t p] items IH]; [reflexivity|]. unfold ids_of in *. simpl. now rewrite IH. }
      assert (Permutation vs (map (triple_map sh) (map fst items))) as P.
      { apply NoDup_Permutation; auto.
        - apply FinFun.Injective_map_NoDup; auto. intros a b. apply (shown3_inj _ _ F1).
        - intros t. rewrite Ivs, in_map_iff. split.
          + intros H. destruct (e_edge _ t) as [p|] eqn:Q; [|congruence]. apply Le in Q. destruct Q as (v & -> & Q).
            exists v. split; auto. apply in_map_iff. exists (v, p). split; auto. now apply Ii.
          + intros (v & <- & H). apply in_map_iff in H. destruct H as ([v' p] & <- & H). apply Ii in H. cbn [fst].
            rewrite (proj2 (Le (triple_map sh v') p)); [discriminate|eauto]. }
      assert (flat_map names_of (map (triple_map sh) (map fst items)) = filter_map (right_to_left id_eqb (name_index r')) (flat_map ids3 (map fst items))) as Z.
      { rewrite filter_map_flat, !flat_map_concat_map, !map_map. f_equal. apply map_ext. intros a. apply names_shown. }
      destruct (named_again seqb seqb_eq (right_to_left id_eqb (name_index r'))) with (l := flat_map ids3 (map fst items)) as [N|(i & s & Ha & Hs)].
      { intros i j s H1 H2. apply F1 in H1. apply F1 in H2. congruence. }
      * left. rewrite <- Z in N. eapply Permutation_NoDup; [|exact N]. apply Permutation_flat_map. now symmetry.
      * right. assert (In i (flat_map ids3 (map fst items))) as Hini.
        { destruct Ha as (l1 & l2 & -> & H). apply in_app_iff. auto. }
        apply in_flat_map in Hini. destruct Hini as (v & Hv & Hiv). apply in_map_iff in Hv. destruct Hv as ([v' p] & <- & Hv). apply Ii in Hv.
        cbn [fst] in Hiv. destruct (R2 v' p Hv) as [_ (dg & Hd & Hl)]. simpl in Hd. apply in_map_iff in Hd. destruct Hd as (d1 & <- & Hd1).
        destruct (F4 i) as (d2 & Hd2 & K & Hnone). { apply again_before. rewrite Ei. exact Ha. }
        exists v', i, s, d1, d2, p. split; auto. split; [apply edge_listed; auto; exists v'; auto|].
        split; [destruct Hiv as [<-|[<-|[<-|[]]]]; auto|]. split; [|split; auto].
        -- split; auto. intros j s' Hj. apply (past_one cs cu cn ce Hcs Hcu keep w d2 Hd2). apply (K d1 Hd1).
           apply (past_one cs cu cn ce Hcs Hcu keep w d1 (Hin _ Hd1)). exact Hj.
        -- destruct (F2 i (F3 i s Hs)) as (d3 & Hd3 & _ & He).
           unfold sh in He. unfold shown at 1 in He. rewrite Hs in He. symmetry in He. apply shown_name in He. rewrite Er. eapply past_now; eauto.
    + intros e Sel He. destruct (He _ (Hp _ (u_in cs cu cn ce keep w))) as (e0 & p0 & E0 & L0).
      apply node_listed in L0; auto; [|apply Hok, u_in]. destruct L0 as (i & -> & _).
      assert (by_name r2l e = shown r2l i) as Ei.
      { rewrite <- E0, Er. eapply called_now; auto. eapply shown_was, u_in. }
      rewrite Ei in Sel. apply selects_node_rename in Sel; auto.
      assert (g_node gq i <> None) as Hg.
      { apply R3; auto. intros dg Hd. simpl in Hd. apply in_map_iff in Hd. destruct Hd as (d1 & <- & Hd1).
        destruct (He d1 (Hp _ (Hin _ Hd1))) as (e1 & p1 & E1 & L1). apply node_listed in L1; auto. destruct L1 as (j & -> & L1).
        assert (j = i) as ->; [|eauto]. apply Inj. rewrite <- Ei, <- E1, Er. symmetry. eapply called_now; auto. now apply shown_was, Hin. }
      exists (sh i). split; [rewrite Ei; auto|]. destruct (g_node gq i) as [p|] eqn:Q; [|congruence].
      assert (e_node (RdfTop.lift (left_to_right seqb (name_index r')) (right_to_left id_eqb (name_index r')) gq) (sh i) = Some p) as ->; [|discriminate].
      apply Ln. eauto.
    + intros t Kp Sel He. destruct (He _ (Hp _ (u_in cs cu cn ce keep w))) as (t0 & p0 & E0 & L0).
      apply edge_listed in L0; auto; [|apply Hok, u_in]. destruct L0 as (v & -> & _).
      assert (triple_map (by_name r2l) t = triple_map (shown r2l) v) as Ei.
      { rewrite <- E0, Er. eapply called3_now; auto. eapply triple_was, u_in. }
      rewrite Ei in Sel. apply selects_rename in Sel; auto.
      assert (g_edge gq v <> None) as Hg.
      { apply R4; auto. intros dg Hd. simpl in Hd. apply in_map_iff in Hd. destruct Hd as (d1 & <- & Hd1).
        destruct (He d1 (Hp _ (Hin _ Hd1))) as (t1 & p1 & E1 & L1). apply edge_listed in L1; auto. destruct L1 as (j & -> & L1).
        assert (j = v) as ->; [|eauto].
        apply (shown3_inj _ _ (past_one cs cu cn ce Hcs Hcu keep w _ (u_in cs cu cn ce keep w))). rewrite <- Er, <- Ei, <- E1, Er.
        symmetry. eapply called3_now; auto. now apply triple_was, Hin. }
      exists (triple_map sh v). split; [rewrite Ei; auto|]. destruct (g_edge gq v) as [p|] eqn:Q; [|congruence].
      assert (e_edge (RdfTop.lift (left_to_right seqb (name_index r')) (right_to_left id_eqb (name_index r')) gq) (triple_map sh v) = Some p) as ->; [|discriminate].
      apply Le. eauto.
  - destruct Hr as [Hf|(s & Hs & [(-> & d1 & Hd & Hnone)|Hb])]; [now left| |]; right; exists s; split; auto. left. eauto.
  - destruct Hr as (qi & m & Hq & [Hrun Hg] & Hx').
    destruct (drawn_dec (id_generator m)) as [D|D].
    2: { right. exists (g_pos (id_generator m)). rewrite <- Hg. destruct (id_generator m); exact D. }
    left. destruct (Hrun D) as (gq & Sq & R1 & R2 & _). rewrite (query_rel_order _ _ _ Hq) in R2.
    destruct (result_items m gq Sq) as (items & Hi & Nd & Ii & Nv & Iv).
    destruct Hx' as [(s & i & -> & (l1 & l2 & Ha & Hl1) & d1 & Hd1 & Hs)|(e & He & _)].
    2: { rewrite Hi in He. apply in_map_iff in He. destruct He as (? & ? & _). discriminate. }
    unfold ids_all in Ha. rewrite Hi in Ha.
    assert (ids_of (map Ok items) = flat_map (fun t : triple I => [sub t; pred t; obj t]) (map fst items)) as Ei.
    { clear. induction items as [|[t p] items IH]; [reflexivity|]. unfold ids_of, ids3 in *. simpl. now rewrite IH. }
    rewrite Ei in Ha.
    assert (exists l1 l2, flat_map (fun t : triple I => [sub t; pred t; obj t]) (map fst items) = l1 ++ i :: l2 /\ In i l1) as (l3 & l4 & Hl & Hl3).
    { destruct items as [|[t p] items'].
      - exfalso. simpl in Ha. rewrite app_nil_r in Ha. rewrite Ha in Nv. apply NoDup_remove_2 in Nv. apply Nv, in_app_iff. auto.
      - assert (vertices m = []) as Hv.
        { destruct (vertices m) as [|j vs] eqn:V; auto. exfalso. assert (g_node gq j <> None) as Hj by (apply Iv; simpl; auto).
          destruct (g_node gq j) as [pj|] eqn:Gj; [|congruence]. apply R1 in Gj.
          assert (g_edge gq t = Some p) as Gt by (apply Ii; simpl; auto). apply R2 in Gt. destruct Gj as [Gj _], Gt as [Gt _].
          destruct qi; simpl in Gj, Gt; tauto. }
        rewrite Hv in Ha. exists l1, l2. auto. }
    exists s, i, (map fst items), l3, l4. split; auto. split; [rewrite Er; eapply past_now; eauto|]. split; auto. split; auto.
    intros t Ht. apply in_map_iff in Ht. destruct Ht as ([t' p] & <- & Ht). apply Ii in Ht. destruct (R2 _ _ Ht) as [Sel (dg & Hd & Hl')].
    simpl in Hd. apply in_map_iff in Hd. destruct Hd as (d2 & <- & Hd2). cbn [fst].
    split; [rewrite (Hq' _ Hq); now apply selects_rename|]. exists d2, p. split; auto. apply edge_listed; auto. exists t'. auto.
Qed.
End Top.

(** ** The query writes nothing *)
Section Ro.
Context {S NP EP SE BE : Type} (seqb : S -> S -> bool) (cs : codec BE S) (cu : codec BE (Id KUlid)) (cn : codec BE NP) (ce : codec BE EP).
Notation ent := (entity S).
Notation err := (rdf_error S (sled_index_error S (Id KUlid) SE BE) (sled_error SE BE)).
Notation PR A := (prog rdb SE (result err A)).
Lemma ro_on_left {A} (p : PR A) : readonly p -> readonly (on_left p).
Proof. intros H. apply readonly_bind; auto. intros. constructor. Qed.
Lemma ro_query (q : query ent) : readonly (query_try_prog (rs_lookup_entity (SE := SE) cs cu) q).
Proof.
  pose proof (ro_lookup_entity (SE := SE) cs cu) as H.
  assert (forall ab, readonly (pair_prog (rs_lookup_entity (SE := SE) cs cu) ab)) as H2.
  { intros ab. unfold pair_prog. repeat (apply readonly_bind_ok; [apply H|intros]). constructor. }
  assert (forall t, readonly (triple_prog (rs_lookup_entity (SE := SE) cs cu) t)) as H3.
  { intros [[a b] c]. unfold triple_prog. repeat (apply readonly_bind_ok; [apply H|intros]). constructor. }
  destruct q; cbn [query_try_prog]; (apply readonly_bind_ok; [apply ro_collect; auto|intros; constructor]).
Qed.
Lemma ro_set_names ids : forall new, readonly (rs_set_names (SE := SE) cs cu seqb ids new).
Proof.
  induction ids as [|id ids IH]; intros new; simpl; [constructor|]. apply readonly_bind_ok; [apply ro_on_left, ro_lookup_id|].
  intros [s|j]; auto. destruct (index_set seqb id_eqb s id new) as [[[]|x] new1]; auto. constructor.
Qed.
Lemma ro_set_edge_names xs : forall new, readonly (rs_set_edge_names (EP := EP) (SE := SE) cs cu seqb xs new).
Proof.
  induction xs as [|[[t p]|e] xs IH]; intros new; cbn [rs_set_edge_names]; try constructor. apply readonly_bind_ok; [apply ro_set_names|auto].
Qed.
End Ro.
Lemma ro_l_run {k NP EP SE BE} (cn : codec BE NP) (ce : codec BE EP) cuts (g : gen k) q :
  readonly (l_run cn ce cuts g q : prog db SE (result (sled_error SE BE) (mem k NP EP))).
Proof.
  assert (forall dec tr b r, readonly (l_query_range ce cuts dec tr b r : prog db SE (result (sled_error SE BE) (mem k NP EP)))) as Hr.
  { intros. apply readonly_for_from. intros. apply ro_query_entry. }
  destruct q; cbn [l_run]; apply readonly_for_ok; intros; try apply Hr.
  - unfold query_node, tree_get, bincode. ro.
  - unfold query_spo, tree_get, bincode. ro.
Qed.
Lemma ro_rl_run {S NP EP SE BE} (seqb : S -> S -> bool) (cs : codec BE S) (cu : codec BE (Id KUlid)) (cn : codec BE NP) (ce : codec BE EP) cuts g u q :
  readonly (rl_run (NP := NP) (EP := EP) (SE := SE) cs cu cn ce cuts seqb g u q).
Proof.
  unfold rl_run. apply readonly_bind_ok; [apply ro_on_left, ro_query|]. intros qi.
  apply readonly_bind_ok; [apply ro_on_left; apply readonly_bind; [apply ro_graph, ro_l_run|intros; constructor]|]. intros m.
  apply readonly_bind_ok; [apply ro_set_names|]. intros ix. apply readonly_bind_ok; [apply ro_set_edge_names|]. intros. constructor.
Qed.

(** ** The theorems *)
Lemma run_next_to : forall S NP EP SE BE E (seqb : S -> S -> bool)
  (cs : codec BE S) (cu : codec BE (Id KUlid)) (cn : codec BE NP) (ce : codec BE EP) mn me,
  (forall a b, seqb a b = true <-> a = b) ->
  codec_ok cs -> codec_ok cu -> codec_ok cn -> codec_ok ce -> codec_total cu ->
  forall (es : list (repoch (S := S) (NP := NP) (EP := EP) (SE := SE) (E := E))) (ts : list (rhandle * list (rop S NP EP E)))
    (wcuts : nat -> nat -> cutting) (rcuts : bytes * bytes -> list bytes) (g u : gen KUlid) (q : query (entity S))
    (schedule : list (nat * option SE)) r,
  NoDup (flat_map epoch_keys es ++ callers_keys ts) -> Forall RdfSledSpec.calm es ->
  let d := rs_epochs cs cu cn ce mn me es rdb_new in
  let ps := beside (rl_run (NP := NP) (EP := EP) (SE := SE) cs cu cn ce rcuts seqb g u q) (rl_callers cs cu cn ce mn me wcuts 0 ts) in
  let seen := during schedule ps d in
  let names := id_now (SE := SE) cs cu (snd (interleave schedule ps d)) in
  let q' := query_map (by_name names) q in
  has_read r (fst (interleave schedule ps d)) ->
  (forall d1 i s, seen d1 -> id_now (SE := SE) cs cu d1 i = Some s -> names i = Some s) /\
  match r with
  | Err (LeftE x) => is_fault (met schedule) x \/
      exists s, In (EString s) (mentioned q) /\
        ((x = NameNotFound s /\ exists d1, seen d1 /\ name_now (SE := SE) cs cu d1 s = None) \/
         exists b, ser cs s = Err b /\ x = NameIndexStorageError (ISerializationError b))
  | Err (RightE x) =>
      (exists s i us l1 l2, x = NameIndexStorageError (DuplicateRight s i i) /\ names i = Some s /\ NoDup us /\
         (forall t, In t us -> selects q' (triple_map (shown names) t) /\
            exists d1 p, seen d1 /\ r_lists_edge SE cs cu ce (order_of q) d1 (triple_map (shown (id_now (SE := SE) cs cu d1)) t) p) /\
         flat_map (fun t => [sub t; pred t; obj t]) us = l1 ++ i :: l2 /\ In i l1) \/
      exists n, ~ drawn_distinct (Gen (g_seq g) n)
  | Ok r' =>
      (forall s, In (EString s) (mentioned q) -> exists d1 i, seen d1 /\ name_now (SE := SE) cs cu d1 s = Some i) /\
      (drawn_distinct (id_generator (r_graph r')) -> exists eg', rdf_shows r' eg' /\
        (forall e p, e_node eg' e = Some p -> selects_node q' (by_name names e) /\ exists i d1, seen d1 /\
           r_lists_node SE cs cu cn d1 (shown (id_now (SE := SE) cs cu d1) i) p /\ called SE cs cu (knowing SE cs cu seen d1) i e) /\
        (forall t p, e_edge eg' t = Some p -> selects q' (triple_map (by_name names) t) /\ exists v d1, seen d1 /\
           r_lists_edge SE cs cu ce (order_of q) d1 (triple_map (shown (id_now (SE := SE) cs cu d1)) v) p /\
           called3 SE cs cu (knowing SE cs cu seen d1) v t) /\
        (forall s i, left_to_right seqb (name_index r') s = Some i -> names i = Some s) /\
        (forall vs, NoDup vs -> (forall t, In t vs <-> e_edge eg' t <> None) -> NoDup (flat_map names_of vs) \/
           exists v i s d1 d2 p, seen d1 /\ r_lists_edge SE cs cu ce (order_of q) d1 (triple_map (shown (id_now (SE := SE) cs cu d1)) v) p /\
             (i = sub v \/ i = pred v \/ i = obj v) /\ knowing SE cs cu seen d1 d2 /\
             id_now (SE := SE) cs cu d2 i = None /\ names i = Some s) /\
        (forall e, selects_node q' (by_name names e) ->
           (forall d1, seen d1 -> exists e1 p, by_name names e1 = by_name names e /\ r_lists_node SE cs cu cn d1 e1 p) ->
           exists e2, by_name names e2 = by_name names e /\ e_node eg' e2 <> None))
  end.
Proof.
  intros S NP EP SE BE E seqb cs cu cn ce mn me Hseq Hcs Hcu Hcn Hce Htu es ts wcuts rcuts g u q schedule r Hnd Hcalm d ps seen names q' Hx.
  destruct (run_rbeside seqb Hseq cs cu cn ce Hcs Hcu Hcn Hce Htu mn me none every anyhow (fun _ => Logic.I) (fun _ _ _ _ _ => Logic.I) es ts wcuts schedule Hnd Hcalm (radds_none _ _) rcuts g u q r (fun _ _ => Logic.I) Hx) as (_ & H0 & H1).
  fold d ps seen names q' in H0, H1. split; auto. destruct r as [r'|[x|x]]; auto. destruct H1 as [H1 H2]. split; auto. intros D.
  destruct (H2 D) as (eg' & A1 & A2 & A3 & A4 & A5 & A6 & _). exists eg'. repeat (split; auto).
Qed.
Lemma run_adding_next_to : forall S NP EP SE BE E (seqb : S -> S -> bool)
  (cs : codec BE S) (cu : codec BE (Id KUlid)) (cn : codec BE NP) (ce : codec BE EP) mn me,
  (forall a b, seqb a b = true <-> a = b) ->
  codec_ok cs -> codec_ok cu -> codec_ok cn -> codec_ok ce -> codec_total cu ->
  forall (es : list (repoch (S := S) (NP := NP) (EP := EP) (SE := SE) (E := E))) (ts : list (rhandle * list (rop S NP EP E)))
    (wcuts : nat -> nat -> cutting) (rcuts : bytes * bytes -> list bytes) (g u : gen KUlid) (q : query (entity S))
    (schedule : list (nat * option SE)) r,
  NoDup (flat_map epoch_keys es ++ callers_keys ts) -> Forall RdfSledSpec.calm es ->
  Forall (fun hl => Forall r_adds_only (snd hl)) ts ->
  let d := rs_epochs cs cu cn ce mn me es rdb_new in
  let ps := beside (rl_run (NP := NP) (EP := EP) (SE := SE) cs cu cn ce rcuts seqb g u q) (rl_callers cs cu cn ce mn me wcuts 0 ts) in
  let seen := during schedule ps d in
  let names := id_now (SE := SE) cs cu (snd (interleave schedule ps d)) in
  let q' := query_map (by_name names) q in
  has_read r (fst (interleave schedule ps d)) ->
  (forall d1 i s, seen d1 -> id_now (SE := SE) cs cu d1 i = Some s -> names i = Some s) /\
  match r with
  | Err (LeftE x) => is_fault (met schedule) x \/
      exists s, In (EString s) (mentioned q) /\
        ((x = NameNotFound s /\ exists d1, seen d1 /\ name_now (SE := SE) cs cu d1 s = None) \/
         exists b, ser cs s = Err b /\ x = NameIndexStorageError (ISerializationError b))
  | Err (RightE x) =>
      (exists s i us l1 l2, x = NameIndexStorageError (DuplicateRight s i i) /\ names i = Some s /\ NoDup us /\
         (forall t, In t us -> selects q' (triple_map (shown names) t) /\
            exists d1 p, seen d1 /\ r_lists_edge SE cs cu ce (order_of q) d1 (triple_map (shown (id_now (SE := SE) cs cu d1)) t) p) /\
         flat_map (fun t => [sub t; pred t; obj t]) us = l1 ++ i :: l2 /\ In i l1) \/
      exists n, ~ drawn_distinct (Gen (g_seq g) n)
  | Ok r' =>
      (forall s, In (EString s) (mentioned q) -> exists d1 i, seen d1 /\ name_now (SE := SE) cs cu d1 s = Some i) /\
      (drawn_distinct (id_generator (r_graph r')) -> exists eg', rdf_shows r' eg' /\
        (forall e p, e_node eg' e = Some p -> selects_node q' (by_name names e) /\ exists i d1, seen d1 /\
           r_lists_node SE cs cu cn d1 (shown (id_now (SE := SE) cs cu d1) i) p /\ called SE cs cu (knowing SE cs cu seen d1) i e) /\
        (forall t p, e_edge eg' t = Some p -> selects q' (triple_map (by_name names) t) /\ exists v d1, seen d1 /\
           r_lists_edge SE cs cu ce (order_of q) d1 (triple_map (shown (id_now (SE := SE) cs cu d1)) v) p /\
           called3 SE cs cu (knowing SE cs cu seen d1) v t) /\
        (forall s i, left_to_right seqb (name_index r') s = Some i -> names i = Some s) /\
        (forall vs, NoDup vs -> (forall t, In t vs <-> e_edge eg' t <> None) -> NoDup (flat_map names_of vs) \/
           exists v i s d1 d2 p, seen d1 /\ r_lists_edge SE cs cu ce (order_of q) d1 (triple_map (shown (id_now (SE := SE) cs cu d1)) v) p /\
             (i = sub v \/ i = pred v \/ i = obj v) /\ knowing SE cs cu seen d1 d2 /\
             id_now (SE := SE) cs cu d2 i = None /\ names i = Some s) /\
        (forall e, selects_node q' (by_name names e) ->
           (forall d1, seen d1 -> exists e1 p, by_name names e1 = by_name names e /\ r_lists_node SE cs cu cn d1 e1 p) ->
           exists e2, by_name names e2 = by_name names e /\ e_node eg' e2 <> None) /\
        (forall t, selects q' (triple_map (by_name names) t) ->
           (forall d1, seen d1 -> exists t1 p, triple_map (by_name names) t1 = triple_map (by_name names) t /\
              r_lists_edge SE cs cu ce (order_of q) d1 t1 p) ->
           exists t2, triple_map (by_name names) t2 = triple_map (by_name names) t /\ e_edge eg' t2 <> None))
  end.
Proof.
  intros S NP EP SE BE E seqb cs cu cn ce mn me Hseq Hcs Hcu Hcn Hce Htu es ts wcuts rcuts g u q schedule r Hnd Hcalm Hadd d ps seen names q' Hx.
  destruct (run_rbeside seqb Hseq cs cu cn ce Hcs Hcu Hcn Hce Htu mn me every every anyhow (fun _ => Logic.I) (fun _ _ _ _ _ => Logic.I) es ts wcuts schedule Hnd Hcalm (radds_every _ _ Hadd) rcuts g u q r (fun _ _ => Logic.I) Hx) as (_ & H0 & H1).
  fold d ps seen names q' in H0, H1. split; auto. destruct r as [r'|[x|x]]; auto. destruct H1 as [H1 H2]. split; auto. intros D.
  destruct (H2 D) as (eg' & A1 & A2 & A3 & A4 & A5 & A6 & A7). exists eg'. repeat (split; auto). intros t. apply A7. intros v _. exact Logic.I.
Qed.

Lemma run_exactly : forall S NP EP SE BE E (seqb : S -> S -> bool)
  (cs : codec BE S) (cu : codec BE (Id KUlid)) (cn : codec BE NP) (ce : codec BE EP) mn me,
  (forall a b, seqb a b = true <-> a = b) ->
  codec_ok cs -> codec_ok cu -> codec_ok cn -> codec_ok ce -> codec_total cu ->
  forall (es : list (repoch (S := S) (NP := NP) (EP := EP) (SE := SE) (E := E))) (ts : list (rhandle * list (rop S NP EP E)))
    (wcuts : nat -> nat -> cutting) (rcuts : bytes * bytes -> list bytes) (g u : gen KUlid) (q : query (entity S))
    (schedule : list (nat * option SE)) r,
  NoDup (flat_map epoch_keys es ++ callers_keys ts) -> Forall RdfSledSpec.calm es ->
  let d := rs_epochs cs cu cn ce mn me es rdb_new in
  apart_from_names SE cs cu cn ce d ts ->
  let ps := beside (rl_run (NP := NP) (EP := EP) (SE := SE) cs cu cn ce rcuts seqb g u q) (rl_callers cs cu cn ce mn me wcuts 0 ts) in
  let seen := during schedule ps d in
  let names := id_now (SE := SE) cs cu (snd (interleave schedule ps d)) in
  let q' := query_map (by_name names) q in
  has_read r (fst (interleave schedule ps d)) ->
  match r with
  | Err (LeftE x) => is_fault (met schedule) x \/
      exists s, In (EString s) (mentioned q) /\
        ((x = NameNotFound s /\ exists d1, seen d1 /\ name_now (SE := SE) cs cu d1 s = None) \/
         exists b, ser cs s = Err b /\ x = NameIndexStorageError (ISerializationError b))
  | Err (RightE x) =>
      (exists s i vs l1 l2, x = NameIndexStorageError (DuplicateRight s i i) /\ names i = Some s /\ NoDup vs /\
         (forall t, In t vs -> selects q' t /\ exists d1 p, seen d1 /\ r_lists_edge SE cs cu ce (order_of q) d1 t p) /\
         flat_map names_of vs = l1 ++ s :: l2 /\ In s l1) \/
      exists n, ~ drawn_distinct (Gen (g_seq g) n)
  | Ok r' =>
      drawn_distinct (id_generator (r_graph r')) -> exists eg', rdf_shows r' eg' /\
        (forall e p, e_node eg' e = Some p -> selects_node q' e /\ exists d1, seen d1 /\ r_lists_node SE cs cu cn d1 e p) /\
        (forall t p, e_edge eg' t = Some p -> selects q' t /\ exists d1, seen d1 /\ r_lists_edge SE cs cu ce (order_of q) d1 t p) /\
        (forall vs, NoDup vs -> (forall t, In t vs <-> e_edge eg' t <> None) -> NoDup (flat_map names_of vs)) /\
        (forall e, selects_node q' e -> (forall d1, seen d1 -> exists p, r_lists_node SE cs cu cn d1 e p) -> e_node eg' e <> None)
  end.
Proof.
  intros S NP EP SE BE E seqb cs cu cn ce mn me Hseq Hcs Hcu Hcn Hce Htu es ts wcuts rcuts g u q schedule r Hnd Hcalm d Hap ps seen names q' Hx.
  destruct (run_next_to S NP EP SE BE E seqb cs cu cn ce mn me Hseq Hcs Hcu Hcn Hce Htu es ts wcuts rcuts g u q schedule r Hnd Hcalm Hx) as (H0 & H1).
  fold d ps seen names q' in H0, H1. apply NoDup_app_iff in Hnd. destruct Hnd as (N1 & _ & _).
  pose proof (ro_rl_run (SE := SE) seqb cs cu cn ce rcuts g u q) as Hro.
  pose proof (node_exact seqb Hseq cs cu cn ce Hcs Hcu Hcn Hce Htu mn me es ts N1 Hcalm _ Hro wcuts schedule) as Xn.
  pose proof (edge_exact seqb Hseq cs cu cn ce Hcs Hcu Hcn Hce Htu mn me es ts N1 Hcalm _ Hro wcuts schedule) as Xe.
  pose proof (called_exact seqb Hseq cs cu cn ce Hcs Hcu Hcn Hce Htu mn me es ts N1 Hcalm Hap _ Hro wcuts schedule) as Cn.
  pose proof (called3_exact seqb Hseq cs cu cn ce Hcs Hcu Hcn Hce Htu mn me es ts N1 Hcalm Hap _ Hro wcuts schedule) as Ce.
  pose proof (node_fixed seqb Hseq cs cu cn ce Hcs Hcu Hcn Hce Htu mn me es ts N1 Hcalm Hap _ Hro wcuts schedule H0) as Fn.
  pose proof (edge_fixed seqb Hseq cs cu cn ce Hcs Hcu Hcn Hce Htu mn me es ts N1 Hcalm Hap _ Hro wcuts schedule H0) as Fe.
  pose proof (final_seen cs cu cn ce mn me es ts _ wcuts schedule : seen _) as Fs.
  fold d ps in Xn, Xe, Cn, Ce, Fn, Fe. fold seen in Xn, Xe, Cn, Ce, Fn, Fe. fold names in Fn, Fe.
  assert (forall d1 i, seen d1 -> by_name names (shown (id_now (SE := SE) cs cu d1) i) = shown names i) as Hby.
  { intros d1 i Hs. unfold shown at 1. destruct (id_now cs cu d1 i) as [s|] eqn:Hi; simpl; auto. unfold shown. now rewrite (H0 d1 i s Hs Hi). }
  destruct r as [r'|[x|x]]; auto.
  - destruct H1 as [_ H1]. intros D. destruct (H1 D) as (eg' & A1 & A2 & A3 & A4 & A5 & A6). clear H1.
    assert (forall e p, e_node eg' e = Some p -> selects_node q' (by_name names e) /\ exists d1, seen d1 /\ r_lists_node SE cs cu cn d1 e p) as B2.
    { intros e p He. destruct (A2 e p He) as (Sel & i & d1 & Hs & Hl & Hc). split; auto. exists d1. split; auto.
      rewrite (Cn d1 i e Hs (Xn d1 i p Hs Hl) Hc). exact Hl. }
    assert (forall t p, e_edge eg' t = Some p -> selects q' (triple_map (by_name names) t) /\ exists d1, seen d1 /\ r_lists_edge SE cs cu ce (order_of q) d1 t p) as B3.
    { intros t p He. destruct (A3 t p He) as (Sel & v & d1 & Hs & Hl & Hc). split; auto. exists d1. split; auto.
      rewrite (Ce d1 v t Hs (Xe d1 _ v p Hs Hl) Hc). exact Hl. }
    exists eg'. split; auto. split; [|split; [|split; [|]]].
    + intros e p He. destruct (B2 e p He) as (Sel & d1 & Hs & Hl). rewrite (Fn d1 e p Hs Hl) in Sel. eauto.
    + intros t p He. destruct (B3 t p He) as (Sel & d1 & Hs & Hl). rewrite (Fe d1 _ t p Hs Hl) in Sel. eauto.
    + intros vs Nvs Ivs. destruct (A5 vs Nvs Ivs) as [N|(v & i & s & d1 & d2 & p & Hs & Hl & Hi & Hk & Hnone & Hs')]; auto. exfalso.
      assert (mentions (r_trees d1) i) as Hm by (apply (Xe d1 _ v p Hs Hl); unfold RdfSledExact.part; tauto).
      assert (EUlid i = shown (id_now (SE := SE) cs cu d1) i) as Hsh.
      { apply Cn; auto. exists d2. split; auto. unfold shown. now rewrite Hnone. }
      pose proof (Fe d1 _ _ _ Hs Hl) as Hfix. injection Hfix as E1 E2 E3.
      assert (by_name names (shown (id_now (SE := SE) cs cu d1) i) = shown (id_now (SE := SE) cs cu d1) i) as Hf
        by (destruct Hi as [->|[->| ->]]; auto).
      rewrite (Hby d1 i Hs), <- Hsh in Hf. unfold shown in Hf. rewrite Hs' in Hf. discriminate.
    + intros e Sel He. destruct (He _ Fs) as (p0 & L0). pose proof (Fn _ _ _ Fs L0) as Ee. destruct (A6 e) as (e2 & E2 & Hne).
      * now rewrite Ee.
      * intros d1 Hd. destruct (He d1 Hd) as (p1 & L1). eauto.
      * destruct (e_node eg' e2) as [p2|] eqn:Q; [|congruence]. destruct (B2 e2 p2 Q) as (_ & d1 & Hs & Hl).
        rewrite (Fn d1 e2 p2 Hs Hl), Ee in E2. subst e2. congruence.
  - destruct H1 as [(s & i & us & l1 & l2 & -> & Hi & Nus & Hus & El & Hin)|H1]; [|now right]. left.
    assert (forall t, In t us -> exists d1 p, seen d1 /\ r_lists_edge SE cs cu ce (order_of q) d1 (triple_map (shown names) t) p) as Hl.
    { intros t Ht. destruct (Hus t Ht) as (_ & d1 & p & Hs & Hl). exists d1, p. split; auto.
      pose proof (Fe d1 _ _ _ Hs Hl) as Hfix. unfold triple_map in Hfix at 1. cbn [sub pred obj triple_map] in Hfix. rewrite !(Hby d1 _ Hs) in Hfix.
      unfold triple_map at 1. rewrite Hfix. exact Hl. }
    exists s, i, (map (triple_map (shown names)) us), (filter_map names l1), (filter_map names l2).
    split; auto. split; auto. split; [|split; [|split]].
    + apply FinFun.Injective_map_NoDup; auto. intros a b Hab.
      assert (one_to_one (name_now (SE := SE) cs cu (snd (interleave schedule ps d))) names) as One.
      { apply (one_now (SE := SE) cs cu Hcs Hcu).
        exact (iv_ok _ _ _ _ _ _ (inv_during seqb Hseq cs cu cn ce Hcs Hcu Hcn Hce mn me es ts N1 Hcalm _ wcuts schedule Hro _ Fs)). }
      eapply shown3_inj; eauto.
    + intros t Ht. apply in_map_iff in Ht. destruct Ht as (v & <- & Hv). destruct (Hus v Hv) as [Sel _]. split; auto.
    + rewrite flat_map_concat_map, map_map. rewrite (map_ext _ (fun t => filter_map names (ids3 t))) by (intros; apply names_shown).
      rewrite <- flat_map_concat_map, <- filter_map_flat. change (flat_map ids3 us) with (flat_map (fun t => [sub t; pred t; obj t]) us).
      rewrite El, filter_map_app. simpl. now rewrite Hi.
    + apply filter_map_in. eauto.
Qed.
Lemma run_adding_exactly : forall S NP EP SE BE E (seqb : S -> S -> bool)
  (cs : codec BE S) (cu : codec BE (Id KUlid)) (cn : codec BE NP) (ce : codec BE EP) mn me,
  (forall a b, seqb a b = true <-> a = b) ->
  codec_ok cs -> codec_ok cu -> codec_ok cn -> codec_ok ce -> codec_total cu ->
  forall (es : list (repoch (S := S) (NP := NP) (EP := EP) (SE := SE) (E := E))) (ts : list (rhandle * list (rop S NP EP E)))
    (wcuts : nat -> nat -> cutting) (rcuts : bytes * bytes -> list bytes) (g u : gen KUlid) (q : query (entity S))
    (schedule : list (nat * option SE)) r,
  NoDup (flat_map epoch_keys es ++ callers_keys ts) -> Forall RdfSledSpec.calm es ->
  Forall (fun hl => Forall r_adds_only (snd hl)) ts ->
  let d := rs_epochs cs cu cn ce mn me es rdb_new in
  apart_from_names SE cs cu cn ce d ts ->
  let ps := beside (rl_run (NP := NP) (EP := EP) (SE := SE) cs cu cn ce rcuts seqb g u q) (rl_callers cs cu cn ce mn me wcuts 0 ts) in
  let seen := during schedule ps d in
  let names := id_now (SE := SE) cs cu (snd (interleave schedule ps d)) in
  let q' := query_map (by_name names) q in
  has_read r (fst (interleave schedule ps d)) ->
  match r with
  | Err (LeftE x) => is_fault (met schedule) x \/
      exists s, In (EString s) (mentioned q) /\
        ((x = NameNotFound s /\ exists d1, seen d1 /\ name_now (SE := SE) cs cu d1 s = None) \/
         exists b, ser cs s = Err b /\ x = NameIndexStorageError (ISerializationError b))
  | Err (RightE x) =>
      (exists s i vs l1 l2, x = NameIndexStorageError (DuplicateRight s i i) /\ names i = Some s /\ NoDup vs /\
         (forall t, In t vs -> selects q' t /\ exists d1 p, seen d1 /\ r_lists_edge SE cs cu ce (order_of q) d1 t p) /\
         flat_map names_of vs = l1 ++ s :: l2 /\ In s l1) \/
      exists n, ~ drawn_distinct (Gen (g_seq g) n)
  | Ok r' =>
      drawn_distinct (id_generator (r_graph r')) -> exists eg', rdf_shows r' eg' /\
        (forall e p, e_node eg' e = Some p -> selects_node q' e /\ exists d1, seen d1 /\ r_lists_node SE cs cu cn d1 e p) /\
        (forall t p, e_edge eg' t = Some p -> selects q' t /\ exists d1, seen d1 /\ r_lists_edge SE cs cu ce (order_of q) d1 t p) /\
        (forall vs, NoDup vs -> (forall t, In t vs <-> e_edge eg' t <> None) -> NoDup (flat_map names_of vs)) /\
        (forall e, selects_node q' e -> (forall d1, seen d1 -> exists p, r_lists_node SE cs cu cn d1 e p) -> e_node eg' e <> None) /\
        (forall t, selects q' t -> (forall d1, seen d1 -> exists p, r_lists_edge SE cs cu ce (order_of q) d1 t p) -> e_edge eg' t <> None)
  end.
Proof.
  intros S NP EP SE BE E seqb cs cu cn ce mn me Hseq Hcs Hcu Hcn Hce Htu es ts wcuts rcuts g u q schedule r Hnd Hcalm Hadd d Hap ps seen names q' Hx.
  destruct (run_adding_next_to S NP EP SE BE E seqb cs cu cn ce mn me Hseq Hcs Hcu Hcn Hce Htu es ts wcuts rcuts g u q schedule r Hnd Hcalm Hadd Hx) as (H0 & H1).
  fold d ps seen names q' in H0, H1. apply NoDup_app_iff in Hnd. destruct Hnd as (N1 & _ & _).
  pose proof (ro_rl_run (SE := SE) seqb cs cu cn ce rcuts g u q) as Hro.
  pose proof (node_exact seqb Hseq cs cu cn ce Hcs Hcu Hcn Hce Htu mn me es ts N1 Hcalm _ Hro wcuts schedule) as Xn.
  pose proof (edge_exact seqb Hseq cs cu cn ce Hcs Hcu Hcn Hce Htu mn me es ts N1 Hcalm _ Hro wcuts schedule) as Xe.
  pose proof (called_exact seqb Hseq cs cu cn ce Hcs Hcu Hcn Hce Htu mn me es ts N1 Hcalm Hap _ Hro wcuts schedule) as Cn.
  pose proof (called3_exact seqb Hseq cs cu cn ce Hcs Hcu Hcn Hce Htu mn me es ts N1 Hcalm Hap _ Hro wcuts schedule) as Ce.
  pose proof (node_fixed seqb Hseq cs cu cn ce Hcs Hcu Hcn Hce Htu mn me es ts N1 Hcalm Hap _ Hro wcuts schedule H0) as Fn.
  pose proof (edge_fixed seqb Hseq cs cu cn ce Hcs Hcu Hcn Hce Htu mn me es ts N1 Hcalm Hap _ Hro wcuts schedule H0) as Fe.
  pose proof (final_seen cs cu cn ce mn me es ts _ wcuts schedule : seen _) as Fs.
  fold d ps in Xn, Xe, Cn, Ce, Fn, Fe. fold seen in Xn, Xe, Cn, Ce, Fn, Fe. fold names in Fn, Fe.
  assert (forall d1 i, seen d1 -> by_name names (shown (id_now (SE := SE) cs cu d1) i) = shown names i) as Hby.
  { intros d1 i Hs. unfold shown at 1. destruct (id_now cs cu d1 i) as [s|] eqn:Hi; simpl; auto. unfold shown. now rewrite (H0 d1 i s Hs Hi). }
  destruct r as [r'|[x|x]]; auto.
  - destruct H1 as [_ H1]. intros D. destruct (H1 D) as (eg' & A1 & A2 & A3 & A4 & A5 & A6 & A7). clear H1.
    assert (forall e p, e_node eg' e = Some p -> selects_node q' (by_name names e) /\ exists d1, seen d1 /\ r_lists_node SE cs cu cn d1 e p) as B2.
    { intros e p He. destruct (A2 e p He) as (Sel & i & d1 & Hs & Hl & Hc). split; auto. exists d1. split; auto.
      rewrite (Cn d1 i e Hs (Xn d1 i p Hs Hl) Hc). exact Hl. }
    assert (forall t p, e_edge eg' t = Some p -> selects q' (triple_map (by_name names) t) /\ exists d1, seen d1 /\ r_lists_edge SE cs cu ce (order_of q) d1 t p) as B3.
    { intros t p He. destruct (A3 t p He) as (Sel & v & d1 & Hs & Hl & Hc). split; auto. exists d1. split; auto.
      rewrite (Ce d1 v t Hs (Xe d1 _ v p Hs Hl) Hc). exact Hl. }
    exists eg'. split; auto. split; [|split; [|split; [|split]]].
    + intros e p He. destruct (B2 e p He) as (Sel & d1 & Hs & Hl). rewrite (Fn d1 e p Hs Hl) in Sel. eauto.
    + intros t p He. destruct (B3 t p He) as (Sel & d1 & Hs & Hl). rewrite (Fe d1 _ t p Hs Hl) in Sel. eauto.
    + intros vs Nvs Ivs. destruct (A5 vs Nvs Ivs) as [N|(v & i & s & d1 & d2 & p & Hs & Hl & Hi & Hk & Hnone & Hs')]; auto. exfalso.
      assert (mentions (r_trees d1) i) as Hm by (apply (Xe d1 _ v p Hs Hl); unfold RdfSledExact.part; tauto).
      assert (EUlid i = shown (id_now (SE := SE) cs cu d1) i) as Hsh.
      { apply Cn; auto. exists d2. split; auto. unfold shown. now rewrite Hnone. }
      pose proof (Fe d1 _ _ _ Hs Hl) as Hfix. injection Hfix as E1 E2 E3.
      assert (by_name names (shown (id_now (SE := SE) cs cu d1) i) = shown (id_now (SE := SE) cs cu d1) i) as Hf
        by (destruct Hi as [->|[->| ->]]; auto).
      rewrite (Hby d1 i Hs), <- Hsh in Hf. unfold shown in Hf. rewrite Hs' in Hf. discriminate.
    + intros e Sel He. destruct (He _ Fs) as (p0 & L0). pose proof (Fn _ _ _ Fs L0) as Ee. destruct (A6 e) as (e2 & E2 & Hne).
      * now rewrite Ee.
      * intros d1 Hd. destruct (He d1 Hd) as (p1 & L1). eauto.
      * destruct (e_node eg' e2) as [p2|] eqn:Q; [|congruence]. destruct (B2 e2 p2 Q) as (_ & d1 & Hs & Hl).
        rewrite (Fn d1 e2 p2 Hs Hl), Ee in E2. subst e2. congruence.
    + intros t Sel He. destruct (He _ Fs) as (p0 & L0). pose proof (Fe _ _ _ _ Fs L0) as Ee. destruct (A7 t) as (t2 & E2 & Hne).
      * now rewrite Ee.
      * intros d1 Hd. destruct (He d1 Hd) as (p1 & L1). eauto.
      * destruct (e_edge eg' t2) as [p2|] eqn:Q; [|congruence]. destruct (B3 t2 p2 Q) as (_ & d1 & Hs & Hl).
        rewrite (Fe d1 _ t2 p2 Hs Hl), Ee in E2. subst t2. congruence.
  - destruct H1 as [(s & i & us & l1 & l2 & -> & Hi & Nus & Hus & El & Hin)|H1]; [|now right]. left.
    assert (forall t, In t us -> exists d1 p, seen d1 /\ r_lists_edge SE cs cu ce (order_of q) d1 (triple_map (shown names) t) p) as Hl.
    { intros t Ht. destruct (Hus t Ht) as (_ & d1 & p & Hs & Hl). exists d1, p. split; auto.
      pose proof (Fe d1 _ _ _ Hs Hl) as Hfix. unfold triple_map in Hfix at 1. cbn [sub pred obj triple_map] in Hfix. rewrite !(Hby d1 _ Hs) in Hfix.
      unfold triple_map at 1. rewrite Hfix. exact Hl. }
    exists s, i, (map (triple_map (shown names)) us), (filter_map names l1), (filter_map names l2).
    split; auto. split; auto. split; [|split; [|split]].
    + apply FinFun.Injective_map_NoDup; auto. intros a b Hab.
      assert (one_to_one (name_now (SE := SE) cs cu (snd (interleave schedule ps d))) names) as One.
      { apply (one_now (SE := SE) cs cu Hcs Hcu).
        exact (iv_ok _ _ _ _ _ _ (inv_during seqb Hseq cs cu cn ce Hcs Hcu Hcn Hce mn me es ts N1 Hcalm _ wcuts schedule Hro _ Fs)). }
      eapply shown3_inj; eauto.
    + intros t Ht. apply in_map_iff in Ht. destruct Ht as (v & <- & Hv). destruct (Hus v Hv) as [Sel _]. split; auto.
    + rewrite flat_map_concat_map, map_map. rewrite (map_ext _ (fun t => filter_map names (ids3 t))) by (intros; apply names_shown).
      rewrite <- flat_map_concat_map, <- filter_map_flat. change (flat_map ids3 us) with (flat_map (fun t => [sub t; pred t; obj t]) us).
      rewrite El, filter_map_app. simpl. now rewrite Hi.
    + apply filter_map_in. eauto.
Qed.

(** Next to any calls, said about the edges that are rewritten. *)
Lemma run_spared_next_to : forall S NP EP SE BE E (seqb : S -> S -> bool)
  (cs : codec BE S) (cu : codec BE (Id KUlid)) (cn : codec BE NP) (ce : codec BE EP) mn me,
  (forall a b, seqb a b = true <-> a = b) ->
  codec_ok cs -> codec_ok cu -> codec_ok cn -> codec_ok ce -> codec_total cu ->
  forall (es : list (repoch (S := S) (NP := NP) (EP := EP) (SE := SE) (E := E))) (ts : list (rhandle * list (rop S NP EP E)))
    (wcuts : nat -> nat -> cutting) (rcuts : bytes * bytes -> list bytes) (g u : gen KUlid) (q : query (entity S))
    (schedule : list (nat * option SE)) r',
  NoDup (flat_map epoch_keys es ++ callers_keys ts) -> Forall RdfSledSpec.calm es ->
  let d := rs_epochs cs cu cn ce mn me es rdb_new in
  let ps := beside (rl_run (NP := NP) (EP := EP) (SE := SE) cs cu cn ce rcuts seqb g u q) (rl_callers cs cu cn ce mn me wcuts 0 ts) in
  let seen := during schedule ps d in
  let names := id_now (SE := SE) cs cu (snd (interleave schedule ps d)) in
  let q' := query_map (by_name names) q in
  let rewritten := r_rewritten (r_denotes SE cs cu (snd (interleave schedule ps d))) ts in
  has_read (Ok r') (fst (interleave schedule ps d)) ->
  drawn_distinct (id_generator (r_graph r')) -> exists eg', rdf_shows r' eg' /\
  (forall t, (forall u, triple_map (by_name names) t = triple_map (shown names) u -> ~ rewritten u) ->
     selects q' (triple_map (by_name names) t) ->
     (forall d1, seen d1 -> exists t1 p, triple_map (by_name names) t1 = triple_map (by_name names) t /\
        r_lists_edge SE cs cu ce (order_of q) d1 t1 p) ->
     exists t2, triple_map (by_name names) t2 = triple_map (by_name names) t /\ e_edge eg' t2 <> None).
Proof.
  intros S NP EP SE BE E seqb cs cu cn ce mn me Hseq Hcs Hcu Hcn Hce Htu es ts wcuts rcuts g u q schedule r' Hnd Hcalm d ps seen names q' rewritten Hx D.
  destruct (run_rbeside seqb Hseq cs cu cn ce Hcs Hcu Hcn Hce Htu mn me none every anyhow (fun _ => Logic.I) (fun _ _ _ _ _ => Logic.I) es ts wcuts schedule Hnd Hcalm (radds_none _ _) rcuts g u q _ (fun _ _ => Logic.I) Hx) as (G & _).
  fold d ps seen in G. set (d_end := snd (interleave schedule ps d)) in *.
  destruct (run_rbeside seqb Hseq cs cu cn ce Hcs Hcu Hcn Hce Htu mn me (fun t => ~ rewritten t) (fun d1 => below (name_now (SE := SE) cs cu d1) (name_now (SE := SE) cs cu d_end))
    (r_denotes SE cs cu d_end) (fun i => eq_refl) (fun d1 n i H => H n i) es ts wcuts schedule Hnd Hcalm (radds_spared _ _) rcuts g u q _ G Hx) as (_ & H0 & _ & H2).
  fold d ps seen names q' in H0, H2. destruct (H2 D) as (eg' & A1 & _ & _ & _ & _ & _ & A7). exists eg'. auto.
Qed.
