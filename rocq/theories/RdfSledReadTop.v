(** What the readers of RdfSledReaders.v return, said about the executions. *)
From Coq Require Import Arith NArith List Bool Sorted Lia.
From Verif Require Import Bytes BytesFacts OMap OMapFacts Core IdType IdTypeFacts Store Mem MemIndex Spec GenSpec
  CodecFacts ListFacts MemFacts MemSim History MemTop Prog ProgFacts Sled SledHistory SledSched SledDb SledOps SledBulk SledRead SledTables
  SledAny SledRun SledTop SledMain SledLeaf SledLeafFacts SledBeside SledRely SledOwn SledOwnOps SledBesideTop SledReaders
  SledIndex SledIndexFacts Rdf RdfSpec RdfTop RdfQuery RdfSled RdfSledSpec RdfSledSafe RdfSledConc RdfSledTop RdfSledRead RdfSledMain RdfSledLeaf RdfSledOwn
  RdfSledReaders SledReadTop.
Import ListNotations.

Section Top.
Context {S NP EP SE BE E : Type} (seqb : S -> S -> bool) (seqb_eq : forall a b, seqb a b = true <-> a = b).
Context (cs : codec BE S) (cu : codec BE (Id KUlid)) (cn : codec BE NP) (ce : codec BE EP).
Context (Hcs : codec_ok cs) (Hcu : codec_ok cu) (Hcn : codec_ok cn) (Hce : codec_ok ce) (Htu : codec_total cu).
Context (mn : NP -> NP -> NP) (me : EP -> EP -> EP) (keep : triple (Id KUlid) -> Prop).
Context (Fin : rdb -> Prop) (den : entity S -> Id KUlid -> Prop).
Context (Hulid : forall i, den (EUlid i) i) (Hname : forall d n i, Fin d -> name_now (SE := SE) cs cu d n = Some i -> den (EString n) i).
Notation I := (Id KUlid).
Notation ent := (entity S).
Notation ierr := (sled_index_error S (Id KUlid) SE BE).
Notation gerr := (sled_error SE BE).
Notation err := (rdf_error S ierr gerr).
Notation P A := (prog rdb SE A).
Notation rop := (rop S NP EP E).
Notation repoch := (repoch (S := S) (NP := NP) (EP := EP) (SE := SE) (E := E)).
Notation nu := (name_now (SE := SE) cs cu).
Notation rho := (id_now (SE := SE) cs cu).
Notation rst := (rst (S := S) (SE := SE) cs cu cn ce keep).
Notation u_now := (u_now cs cu cn ce keep).
Notation u_past := (u_past cs cu cn ce keep).
Notation gst := (gst cs cu cn ce keep).
Notation rext := (rext cs cu cn ce keep).
Notation callers := (rl_callers cs cu cn ce mn me).
Implicit Types d : rdb.
Implicit Types w : rst.

Lemma rcallers_nth cuts (ts : list (rhandle * list rop)) : forall i0 i p,
  nth_error (callers cuts i0 ts) i = Some p ->
  exists hl, nth_error ts i = Some hl /\ p = rl_history cs cu cn ce mn me (cuts (i0 + i)) 0 (snd hl) (fst hl) :> P _.
Proof.
  induction ts as [|hl ts IH]; intros i0 i p; [destruct i; discriminate|]. destruct i as [|i]; simpl.
  - intros [= <-]. exists hl. rewrite Nat.add_0_r. auto.
  - intros H. destruct (IH (Datatypes.S i0) i p H) as (hl' & H1 & ->). exists hl'. split; auto. now rewrite Nat.add_succ_r.
Qed.

Lemma rbeside_reads {X} (p : P X) (Q : (SE -> Prop) -> X -> rst -> Prop) (es : list repoch) (ts : list (rhandle * list rop)) cuts schedule :
  NoDup (flat_map epoch_keys es ++ callers_keys ts) -> Forall RdfSledSpec.calm es ->
  Forall (fun hl => Forall (fun o => forall t, keep t -> ~ r_rewrites den o t) (snd hl)) ts ->
  (forall F a w1 w2, rext w1 w2 -> Q F a w1 -> Q F a w2) -> (forall F w, rg u_now rext F (Q F) p w) ->
  let d := rs_epochs cs cu cn ce mn me es rdb_new in
  let ps := beside p (callers cuts 0 ts) in
  (forall d1, during schedule ps d d1 -> Fin d1) ->
  forall x, has_read x (fst (interleave schedule ps d)) ->
  exists w, Q (met schedule) x w /\ u_now w = snd (interleave schedule ps d) /\
    (forall d1, In d1 (u_past w) -> during schedule ps d d1) /\ (forall d1, during schedule ps d d1 -> In d1 (u_past w)).
Proof.
  intros Hnd Hcalm Ho HQ Hp d ps HN x Hx. apply NoDup_app_iff in Hnd. destruct Hnd as (N1 & N2 & N3).
  destruct (epochs_world seqb cs cu cn ce mn me seqb_eq Hcs Hcu Hcn Hce es N1 Hcalm) as ((Hok & Hf & _) & _).
  fold d in Hf, Hok. pose proof (sane_fair cn ce keep _ _ Hf) as Hs.
  assert (forall d1, In d1 [d] -> index_ok cs cu (r_names d1)) as O1 by (intros d1 [<-|[]]; exact Hok).
  assert (forall d1, In d1 [d] -> below (nu d1) (nu d)) as O2 by (intros d1 [<-|[]]; apply below_refl).
  set (w0 := RSt cs cu cn ce keep (refers (r_trees d)) d [d] (or_introl eq_refl) Hs O1 O2).
  assert (rworld (S := S) cs cu cn ce keep Fin (u_used cs cu cn ce keep w0) (u_now w0) (map (fun q => bind q (fun b => Ret (inr b))) (callers cuts 0 ts)
    : list (P (X + _)))) as Hw.
  { exists (fun _ => nokeys), (fun i r => exists hl, nth_error ts i = Some hl /\ In r (rs_keys (fst hl) (snd hl))).
    split; [|split; [|split]].
    - intros i q Hq. rewrite nth_error_map in Hq. destruct (nth_error (callers _ _ _) i) as [q'|] eqn:Ei; [|discriminate].
      injection Hq as <-. destruct (rcallers_nth _ _ _ _ _ Ei) as (hl & Hhl & ->). apply rown_bind.
      eapply rown_mono with (R := fun _ _ _ => True); [|apply rown_history with (den := den)]; auto.
      + eapply Forall_forall in Ho; [exact Ho|]. eapply nth_error_In; eauto.
      + apply nth_error_split in Hhl. destruct Hhl as (l1 & l2 & E2 & _). rewrite E2 in N2.
        unfold callers_keys in N2. rewrite flat_map_app in N2. simpl in N2. apply NoDup_app_iff in N2. destruct N2 as (_ & N2 & _).
        apply NoDup_app_iff in N2. tauto.
      + intros r Hr. exists hl. auto.
    - intros i r t [].
    - intros i r (hl & Hi & Hr). assert (In r (callers_keys ts)) as Hin.
      { apply in_flat_map. exists hl. split; auto. eapply nth_error_In; eauto. }
      assert (bget r (t_edge (r_trees d)) = None) as Hb.
      { destruct (bget r (t_edge (r_trees d))) as [b|] eqn:Hb; auto. exfalso.
        assert (plus_keys (fun _ => False) (flat_map epoch_keys es) r) as [[]|Hl]; [|exact (N3 r Hl Hin)].
        apply (fe_used ce _ _ (proj2 Hf)). congruence. }
      split; auto. intros t (o & Hk). assert (rid o (r_trees d) t = Some r) as Hrid by now apply (get_iff_in bytes_cmp_ok _ _ _ (fe_isorted ce _ _ (proj2 Hf) o)).
      destruct (rid_used ce _ _ _ _ _ (proj2 Hf) Hrid) as [[]|Hl]. exact (N3 r Hl Hin).
    - intros i j r Nij (hl & Hi & Hr) (hl' & Hj & Hr'). eapply flat_map_apart; eauto. }
  pose (Q' := fun (a : X + (list (routcome (S := S) (SE := SE) (BE := BE) (E := E)) * rhandle)) w =>
    match a with inl x => Q (met schedule) x w | inr _ => True end).
  edestruct (rrun_beside cs cu cn ce Hcu keep Fin (met schedule) Q' schedule (bind p (fun a => Ret (inl a)))
    (map (fun q => bind q (fun b => Ret (inr b))) (callers cuts 0 ts)) w0)
    as (p' & ws' & w' & H1 & H2 & H3 & H4 & H5); auto.
  - intros [a|b] w1 w2 H; auto. now apply HQ.
  - apply rg_bind. eapply rg_mono; [| | |apply Hp].
    + apply rext_refl.
    + apply rext_trans.
    + simpl. auto.
  - change (u_now w0) with d in H1. unfold has_read in Hx. unfold ps, beside in Hx |- *. rewrite H1 in Hx |- *. simpl in Hx.
    injection Hx as ->. exists w'. split; auto. split; auto. split; [|exact H5].
    intros d1 Hd. destruct (H4 d1 Hd) as [[<-|[]]|Hd']; [apply rduring_nil|exact Hd'].
Qed.

(** ** Names *)
Lemma called_now T w i e : was_shown cs cu cn ce keep T w i e -> by_name (rho (u_now w)) e = shown (rho (u_now w)) i.
Proof.
  intros (d & Hd & _ & ->). pose proof (u_ok cs cu cn ce keep w) as Hok. pose proof (u_grew cs cu cn ce keep w d Hd) as Hb.
  pose proof (one_now (SE := SE) cs cu Hcs Hcu _ (Hok d Hd)) as O1.
  pose proof (one_now (SE := SE) cs cu Hcs Hcu _ (Hok _ (u_in cs cu cn ce keep w))) as O2.
  unfold shown at 1. destruct (rho d i) as [s|] eqn:Hi; simpl; auto.
  apply O1, Hb, O2 in Hi. unfold shown. now rewrite Hi.
Qed.
Lemma called3_now T w t t' : triple_shown cs cu cn ce keep T t t' w ->
  triple_map (by_name (rho (u_now w))) t' = triple_map (shown (rho (u_now w))) t.
Proof. intros (H1 & H2 & H3). unfold triple_map. now rewrite !(called_now _ _ _ _ H1), (called_now _ _ _ _ H2), (called_now _ _ _ _ H3). Qed.
Lemma shown_was w d i : In d (u_past w) -> was_shown cs cu cn ce keep (fun _ => True) w i (shown (rho d) i).
Proof. intros H. exists d. auto. Qed.
Lemma triple_was w d t : In d (u_past w) -> triple_shown cs cu cn ce keep (fun _ => True) t (triple_map (shown (rho d)) t) w.
Proof. intros H. repeat split; now apply shown_was. Qed.
Lemma one_here w : one_to_one (nu (u_now w)) (rho (u_now w)).
Proof. apply (one_now (SE := SE) cs cu Hcs Hcu). apply (u_ok cs cu cn ce keep w), u_in. Qed.

Lemma name_stays w d i s : In d (u_past w) -> rho d i = Some s -> rho (u_now w) i = Some s.
Proof.
  intros Hd Hi. apply one_here. apply (u_grew cs cu cn ce keep w d Hd).
  apply (one_now (SE := SE) cs cu Hcs Hcu _ (u_ok cs cu cn ce keep w d Hd)). exact Hi.
Qed.

(** What is shown after a moment, in the terms of the property *)
Lemma called_since w (seen : rdb -> Prop) d i e : (forall d1, In d1 (u_past w) -> seen d1) -> In d (u_past w) ->
  was_shown cs cu cn ce keep (since (SE := SE) cs cu d) w i e -> called SE cs cu (knowing SE cs cu seen d) i e.
Proof.
  intros Hp Hd (d2 & Hd2 & Hs & ->). exists d2. split; auto. split; auto. intros j s Hj.
  apply (one_now (SE := SE) cs cu Hcs Hcu _ (u_ok cs cu cn ce keep w d2 Hd2)). apply Hs.
  apply (one_now (SE := SE) cs cu Hcs Hcu _ (u_ok cs cu cn ce keep w d Hd)). exact Hj.
Qed.
Lemma called_since3 w (seen : rdb -> Prop) d d' d'' i e : (forall d1, In d1 (u_past w) -> seen d1) ->
  In d (u_past w) -> In d' (u_past w) -> In d'' (u_past w) ->
  was_shown cs cu cn ce keep (fun x => since (SE := SE) cs cu d x /\ since (SE := SE) cs cu d' x /\ since (SE := SE) cs cu d'' x) w i e ->
  called SE cs cu (knowing SE cs cu (knowing SE cs cu (knowing SE cs cu seen d) d') d'') i e.
Proof.
  intros Hp H1 H2 H3 (x & Hx & (S1 & S2 & S3) & ->). exists x. split; auto.
  assert (forall y, In y (u_past w) -> since (SE := SE) cs cu y x -> forall j s, rho y j = Some s -> rho x j = Some s) as H.
  { intros y Hy Hs j s Hj. apply (one_now (SE := SE) cs cu Hcs Hcu _ (u_ok cs cu cn ce keep w x Hx)). apply Hs.
    apply (one_now (SE := SE) cs cu Hcs Hcu _ (u_ok cs cu cn ce keep w y Hy)). exact Hj. }
  repeat split; eauto.
Qed.

(** ** Listings of the graph and of the store *)
Lemma in_entry {A B} (show : A -> B) (v : bytes * bytes -> result gerr A) l b :
  In (Ok b) (map (entry_val (S := S) show v) l) <-> exists a, b = show a /\ In (Ok a) (map v l).
Proof.
  rewrite in_map_iff. unfold entry_val. split.
  - intros (kv & H & Hin). destruct (v kv) as [a|e] eqn:Hv; simpl in H; [|discriminate]. injection H as <-.
    exists a. split; auto. apply in_map_iff. eauto.
  - intros (a & -> & H). apply in_map_iff in H. destruct H as (kv & Hv & Hin). exists kv. rewrite Hv. auto.
Qed.
Lemma node_listed d e p : index_ok cs cu (r_names d) ->
  (r_lists_node SE cs cu cn d e p <-> exists i, e = shown (rho d) i /\ In (Ok (i, p)) (now SE (s_iter_vertices (BE := BE) cn) (r_trees d))).
Proof.
  intros Hok. unfold r_lists_node. rewrite (rqs_now _ _ _ (rqs_vertices cs cu cn Hcs Htu never d Hok)), in_entry.
  split.
  - intros ([i q] & [= -> ->] & H). exists i. split; auto. now apply shown_node.
  - intros (i & -> & H). exists (i, p). split; auto. now apply shown_node in H.
Qed.
Lemma edge_listed d o t p : index_ok cs cu (r_names d) ->
  (r_lists_edge SE cs cu ce o d t p <-> exists u, t = triple_map (shown (rho d)) u /\ In (Ok (u, p)) (now SE (s_iter_edges (BE := BE) ce o) (r_trees d))).
Proof.
  intros Hok. unfold r_lists_edge. rewrite (rqs_now _ _ _ (rqs_edges cs cu ce Hcs Htu never d o Hok)), in_entry.
  split.
  - intros ([i q] & [= -> ->] & H). exists i. split; auto. now apply shown_edge.
  - intros (i & -> & H). exists (i, p). split; auto. now apply shown_edge in H.
Qed.

(** ** Order *)
Lemma made_sorted {A B KA KB} (ka : A -> KA) (kb : B -> KB) (h : KA -> KB) (lt : KA -> KA -> Prop) (lt' : KB -> KB -> Prop)
    F (Sh : A -> B -> rst -> Prop) w ys xs :
  (forall a b, Sh a b w -> kb b = h (ka a)) -> (forall a b, lt a b -> lt' (h a) (h b)) ->
  StronglySorted lt (map ka (ok_items ys)) -> Forall2 (fun y x => rendered cs cu cn ce keep F Sh y x w) ys xs ->
  StronglySorted lt' (map kb (ok_items xs)).
Proof.
  intros Hk Hlt Hs H. induction H as [|y x ys xs Hx H IH]; [constructor|].
  assert (StronglySorted lt (map ka (ok_items ys))) as Hs'.
  { destruct y as [a|e]; [|exact Hs]. change (StronglySorted lt (ka a :: map ka (ok_items ys))) in Hs. now inversion Hs. }
  specialize (IH Hs'). destruct x as [b|e]; [|exact IH]. destruct Hx as (a & -> & Ha).
  change (StronglySorted lt (ka a :: map ka (ok_items ys))) in Hs. inversion Hs; subst.
  change (StronglySorted lt' (kb b :: map kb (ok_items xs))). constructor; auto.
  apply Forall_forall. intros u Hu. apply in_map_iff in Hu. destruct Hu as (b' & <- & Hb'). apply ok_items_in in Hb'.
  destruct (forall2_in_r _ _ _ _ H Hb') as (y' & Hy' & a' & -> & Ha'). rewrite (Hk _ _ Ha), (Hk _ _ Ha'). apply Hlt.
  eapply Forall_forall in H3; [exact H3|]. apply in_map. now apply ok_items_in.
Qed.
Lemma made_there {A B KA KB} (ka : A -> KA) (kb : B -> KB) (h : KA -> KB) F (Sh : A -> B -> rst -> Prop) w ys xs k :
  (forall a b, Sh a b w -> kb b = h (ka a)) -> Forall2 (fun y x => rendered cs cu cn ce keep F Sh y x w) ys xs ->
  In k (map ka (ok_items ys)) -> In (h k) (map kb (ok_items xs)) \/ exists e, In (Err e) xs /\ is_fault F e.
Proof.
  intros Hk H Hin. apply in_map_iff in Hin. destruct Hin as (a & <- & Ha). apply ok_items_in in Ha.
  destruct (forall2_in_l _ _ _ _ H Ha) as ([b|e] & Hb & Hr).
  - destruct Hr as (a' & [= <-] & Hs). left. apply in_map_iff. exists b. split; [now apply Hk|]. now apply ok_items_in.
  - right. exists e. split; auto. destruct Hr as [(g & [=] & _)|Hr]; auto.
Qed.
Lemma made_error {A B} F (Sh : A -> B -> rst -> Prop) w ys xs g : Forall2 (fun y x => rendered cs cu cn ce keep F Sh y x w) ys xs ->
  In (Err g) ys -> exists e, In (Err e) xs /\ (e = GraphStorageError g \/ is_fault F e).
Proof.
  intros H Hin. destruct (forall2_in_l _ _ _ _ H Hin) as ([b|e] & Hb & Hr).
  - destruct Hr as (a & [=] & _).
  - exists e. split; auto. destruct Hr as [(g' & [= <-] & ->)|Hr]; auto.
Qed.

(** ** The theorems *)
Section Theorems.
Context (es : list repoch) (ts : list (rhandle * list rop)) (wcuts : nat -> nat -> cutting) (schedule : list (nat * option SE)).
Context (Hnd : NoDup (flat_map epoch_keys es ++ callers_keys ts)) (Hcalm : Forall RdfSledSpec.calm es).
Context (Ho : Forall (fun hl => Forall (fun o => forall t, keep t -> ~ r_rewrites den o t) (snd hl)) ts).
Notation d0 := (rs_epochs cs cu cn ce mn me es rdb_new).

Lemma nodes_rbeside rcuts xs :
  let ps := beside (rl_iter_vertices (SE := SE) cs cu cn rcuts) (callers wcuts 0 ts) in
  let seen := during schedule ps d0 in
  let r2l := rho (snd (interleave schedule ps d0)) in
  (forall d1, seen d1 -> Fin d1) ->
  has_read xs (fst (interleave schedule ps d0)) ->
  (forall d1, seen d1 -> below (nu d1) (nu (snd (interleave schedule ps d0)))) /\
  (forall d1 i s, seen d1 -> rho d1 i = Some s -> r2l i = Some s) /\
  (forall e p, In (Ok (e, p)) xs -> exists i d1, seen d1 /\
     r_lists_node SE cs cu cn d1 (shown (rho d1) i) p /\ called SE cs cu (knowing SE cs cu seen d1) i e) /\
  StronglySorted (behind_lt r2l) (map (fun ep => by_name r2l (fst ep)) (ok_items xs)) /\
  (forall x, In (Err x) xs -> is_fault (met schedule) x) /\
  (forall e, (forall d1, seen d1 -> exists e1 p, by_name r2l e1 = by_name r2l e /\ r_lists_node SE cs cu cn d1 e1 p) ->
     In (by_name r2l e) (map (fun ep => by_name r2l (fst ep)) (ok_items xs)) \/ exists x, In (Err x) xs).
Proof.
  intros ps seen r2l HN Hx.
  destruct (rbeside_reads _ (fun F => made cs cu cn ce keep F (node_made cs cu cn ce keep) (nodes_read cn ce keep F)) es ts wcuts schedule Hnd Hcalm Ho
    (fun F a w1 w2 => made_later cs cu cn ce keep F _ (node_made_later cs cu cn ce keep) _ a w1 w2 (nodes_read_later cn ce keep F))
    (fun F w => rg_rl_vertices cs cu cn ce Hcs Htu keep F rcuts w) HN _ Hx) as (w & (ys & (R1 & R2 & R3 & R4) & Hr) & Hn & Hp & Hp').
  fold ps in Hn, Hp, Hp'. fold (during schedule ps d0) seen in Hp, Hp'.
  assert (r2l = rho (u_now w)) as Er by (unfold r2l; now rewrite Hn).
  assert (forall (a : I * NP) (b : ent * NP), node_made cs cu cn ce keep a b w -> by_name r2l (fst b) = shown r2l (fst a)) as Hk.
  { intros a b (d1 & _ & _ & _ & H). rewrite Er. eapply called_now; exact H. }
  assert (forall d1, In d1 (u_past w) -> index_ok cs cu (r_names d1)) as Hok by apply u_ok.
  split; [intros d1 Hd1; rewrite <- Hn; apply (u_grew cs cu cn ce keep w d1); auto|].
  split; [intros d1 i s Hd1 Hs; rewrite Er; apply (name_stays w d1); auto|].
  split; [|split; [|split]].
  - intros e p Hin. destruct (forall2_in_r _ _ _ _ Hr Hin) as (y & Hy & [i q] & -> & d1 & Hd1 & Hl & Hq & He). simpl in Hq, He. subst q.
    exists i, d1. split; auto. split; [apply node_listed; auto; exists i; auto|]. eapply (called_since w); eauto.
  - eapply made_sorted with (ka := fst) (h := shown r2l); [exact Hk| |exact R2|exact Hr]. intros a b L. exists a, b. auto.
  - intros x Hin. destruct (forall2_in_r _ _ _ _ Hr Hin) as (y & Hy & [(g & -> & ->)|Hf]); auto.
    destruct (R3 g Hy) as (z & Hz & ->). exists z. auto.
  - intros e He. destruct (He _ (Hp _ (u_in cs cu cn ce keep w))) as (e0 & p0 & E0 & L0).
    apply node_listed in L0; [|apply Hok, u_in]. destruct L0 as (i & -> & _).
    assert (by_name r2l e = shown r2l i) as Ei.
    { rewrite <- E0, Er. eapply called_now, shown_was, u_in. }
    destruct (R4 i) as [Hin|(g & Hg)].
    + intros g Hg. simpl in Hg. apply in_map_iff in Hg. destruct Hg as (d1 & <- & Hd1).
      destruct (He d1 (Hp _ Hd1)) as (e1 & p1 & E1 & L1). apply node_listed in L1; auto. destruct L1 as (j & -> & L1).
      assert (j = i) as ->; [|eauto]. apply (shown_inj _ _ (one_here w)). rewrite <- Er, <- Ei, <- E1, Er. symmetry. now eapply called_now, shown_was.
    + rewrite Ei. destruct (made_there _ _ (shown r2l) _ _ _ _ _ _ Hk Hr Hin) as [H|(x & H & _)]; eauto.
    + destruct (made_error _ _ _ _ _ _ Hr Hg) as (x & H & _). eauto.
Qed.

Lemma vertices_rbeside rcuts r :
  let ps := beside (rl_vertices (SE := SE) cs cu rcuts) (callers wcuts 0 ts) in
  let seen := during schedule ps d0 in
  let r2l := rho (snd (interleave schedule ps d0)) in
  (forall d1, seen d1 -> Fin d1) ->
  has_read r (fst (interleave schedule ps d0)) ->
  (forall d1, seen d1 -> below (nu d1) (nu (snd (interleave schedule ps d0)))) /\
  (forall d1 i s, seen d1 -> rho d1 i = Some s -> r2l i = Some s) /\
  match r with
  | Err x => is_fault (met schedule) x
  | Ok es =>
      (forall e, In e es -> exists i d1 p, seen d1 /\
         r_lists_node SE cs cu cn d1 (shown (rho d1) i) p /\ called SE cs cu (knowing SE cs cu seen d1) i e) /\
      StronglySorted (behind_lt r2l) (map (by_name r2l) es) /\
      (forall e, (forall d1, seen d1 -> exists e1 p, by_name r2l e1 = by_name r2l e /\ r_lists_node SE cs cu cn d1 e1 p) ->
         In (by_name r2l e) (map (by_name r2l) es))
  end.
Proof.
  intros ps seen r2l HN Hx.
  destruct (rbeside_reads _ (fun F => names_read cs cu cn ce keep F) es ts wcuts schedule Hnd Hcalm Ho
    (fun F a w1 w2 => names_read_later cs cu cn ce keep F a w1 w2)
    (fun F w => rg_rl_names cs cu cn ce Hcs Htu keep F rcuts w) HN _ Hx) as (w & Hr & Hn & Hp & Hp').
  fold ps in Hn, Hp, Hp'. fold (during schedule ps d0) seen in Hp, Hp'.
  assert (r2l = rho (u_now w)) as Er by (unfold r2l; now rewrite Hn).
  assert (forall d1, In d1 (u_past w) -> index_ok cs cu (r_names d1)) as Hok by apply u_ok.
  split; [intros d1 Hd1; rewrite <- Hn; apply (u_grew cs cu cn ce keep w d1); auto|].
  split; [intros d1 i s Hd1 Hs; rewrite Er; apply (name_stays w d1); auto|].
  destruct r as [l|x]; [|exact Hr]. destruct Hr as (is & (R1 & R2 & R3) & Hs).
  assert (map (by_name r2l) l = map (shown r2l) is) as Em.
  { clear -Hs Er Hcs Hcu. induction Hs as [|i e is l H _ IH]; simpl; auto. f_equal; auto. destruct H as (d1 & p1 & _ & _ & H). rewrite Er. eapply called_now; exact H. }
  split; [|split].
  - intros e Hin. destruct (forall2_in_r _ _ _ _ Hs Hin) as (i & Hi & d1 & p & Hd1 & Hl & He).
    exists i, d1, p. split; auto. split; [apply node_listed; auto; exists i; auto|]. eapply (called_since w); eauto.
  - rewrite Em. clear -R2. induction R2 as [|i is _ IH H]; simpl; constructor; auto.
    apply Forall_forall. intros e He. apply in_map_iff in He. destruct He as (j & <- & Hj). exists i, j. split; auto. split; auto.
    eapply Forall_forall in H; eauto.
  - intros e He. destruct (He _ (Hp _ (u_in cs cu cn ce keep w))) as (e0 & p0 & E0 & L0).
    apply node_listed in L0; [|apply Hok, u_in]. destruct L0 as (i & -> & _).
    assert (by_name r2l e = shown r2l i) as Ei.
    { rewrite <- E0, Er. eapply called_now, shown_was, u_in. }
    rewrite Ei, Em. apply in_map. apply R3. intros g Hg. simpl in Hg. apply in_map_iff in Hg. destruct Hg as (d1 & <- & Hd1).
    destruct (He d1 (Hp _ Hd1)) as (e1 & p1 & E1 & L1). apply node_listed in L1; auto. destruct L1 as (j & -> & L1).
    assert (j = i) as ->; [|eauto]. apply (shown_inj _ _ (one_here w)). rewrite <- Er, <- Ei, <- E1, Er. symmetry. now eapply called_now, shown_was.
Qed.

Lemma edges_rbeside rcuts o xs :
  let ps := beside (rl_iter_edges (SE := SE) cs cu ce rcuts o) (callers wcuts 0 ts) in
  let seen := during schedule ps d0 in
  let r2l := rho (snd (interleave schedule ps d0)) in
  (forall d1, seen d1 -> Fin d1) ->
  has_read xs (fst (interleave schedule ps d0)) ->
  (forall d1, seen d1 -> below (nu d1) (nu (snd (interleave schedule ps d0)))) /\
  (forall d1 i s, seen d1 -> rho d1 i = Some s -> r2l i = Some s) /\
  (forall t p, In (Ok (t, p)) xs -> exists u d1, seen d1 /\
     r_lists_edge SE cs cu ce o d1 (triple_map (shown (rho d1)) u) p /\ called3 SE cs cu (knowing SE cs cu seen d1) u t) /\
  StronglySorted (behind_edge_lt r2l o) (map (fun tp => triple_map (by_name r2l) (fst tp)) (ok_items xs)) /\
  (forall x, In (Err x) xs -> (x = GraphStorageError MissingPropertyData /\ exists u, ~ keep u) \/ is_fault (met schedule) x) /\
  (forall t, (forall d1, seen d1 -> exists t1 p, triple_map (by_name r2l) t1 = triple_map (by_name r2l) t /\ r_lists_edge SE cs cu ce o d1 t1 p) ->
     In (triple_map (by_name r2l) t) (map (fun tp => triple_map (by_name r2l) (fst tp)) (ok_items xs)) \/
     exists x, In (Err x) xs /\ ((x = GraphStorageError MissingPropertyData /\
       exists u, triple_map (by_name r2l) t = triple_map (shown r2l) u /\ ~ keep u) \/ is_fault (met schedule) x)).
Proof.
  intros ps seen r2l HN Hx.
  destruct (rbeside_reads _ (fun F => made cs cu cn ce keep F (edge_made cs cu cn ce keep o) (edges_read cn ce keep F o)) es ts wcuts schedule Hnd Hcalm Ho
    (fun F a w1 w2 => made_later cs cu cn ce keep F _ (edge_made_later cs cu cn ce keep o) _ a w1 w2 (edges_read_later cn ce keep F o))
    (fun F w => rg_rl_edges cs cu cn ce Hcs Htu keep F rcuts o w) HN _ Hx) as (w & (ys & (R1 & R2 & R3 & R4) & Hr) & Hn & Hp & Hp').
  fold ps in Hn, Hp, Hp'. fold (during schedule ps d0) seen in Hp, Hp'.
  assert (r2l = rho (u_now w)) as Er by (unfold r2l; now rewrite Hn).
  assert (forall (a : triple I * EP) (b : triple ent * EP), edge_made cs cu cn ce keep o a b w -> triple_map (by_name r2l) (fst b) = triple_map (shown r2l) (fst a)) as Hk.
  { intros a b (d1 & _ & _ & _ & H). rewrite Er. eapply called3_now; exact H. }
  assert (forall d1, In d1 (u_past w) -> index_ok cs cu (r_names d1)) as Hok by apply u_ok.
  split; [intros d1 Hd1; rewrite <- Hn; apply (u_grew cs cu cn ce keep w d1); auto|].
  split; [intros d1 i s Hd1 Hs; rewrite Er; apply (name_stays w d1); auto|].
  split; [|split; [|split]].
  - intros t p Hin. destruct (forall2_in_r _ _ _ _ Hr Hin) as (y & Hy & [u q] & -> & d1 & Hd1 & Hl & Hq & Ha & Hb & Hc).
    simpl in Hq, Ha, Hb, Hc. subst q. exists u, d1. split; auto. split; [apply edge_listed; auto; exists u; auto|].
    repeat split; eapply (called_since w); eauto.
  - eapply made_sorted with (ka := fst) (h := triple_map (shown r2l)); [exact Hk| |exact R2|exact Hr]. intros a b L. exists a, b. auto.
  - intros x Hin. destruct (forall2_in_r _ _ _ _ Hr Hin) as (y & Hy & [(g & -> & ->)|Hf]); auto.
    destruct (R3 g Hy) as [[-> Hkeep]|(z & Hz & ->)]; [left; auto|]. right. exists z. auto.
  - intros t Ht. destruct (Ht _ (Hp _ (u_in cs cu cn ce keep w))) as (e0 & p0 & E0 & L0).
    apply edge_listed in L0; [|apply Hok, u_in]. destruct L0 as (i & -> & _).
    assert (triple_map (by_name r2l) t = triple_map (shown r2l) i) as Ei.
    { rewrite <- E0, Er. eapply called3_now, triple_was, u_in. }
    destruct (R4 i) as [Hin|(g & Hg & Hwhy)].
    + intros g Hg. simpl in Hg. apply in_map_iff in Hg. destruct Hg as (d1 & <- & Hd1).
      destruct (Ht d1 (Hp _ Hd1)) as (e1 & p1 & E1 & L1). apply edge_listed in L1; auto. destruct L1 as (j & -> & L1).
      assert (j = i) as ->; [|eauto]. apply (shown3_inj _ _ (one_here w)). rewrite <- Er, <- Ei, <- E1, Er. symmetry. now eapply called3_now, triple_was.
    + rewrite Ei. destruct (made_there _ _ (triple_map (shown r2l)) _ _ _ _ _ _ Hk Hr Hin) as [H|(x & H & Hf)]; eauto.
    + right. destruct (made_error _ _ _ _ _ _ Hr Hg) as (x & H & [->|Hf]); [|eauto]. eexists. split; [exact H|].
      destruct Hwhy as [[-> Hkeep]|(z & Hz & ->)]; [left; eauto|right; exists z; auto].
Qed.
(** With the properties of the ends *)
Notation was_bare := (was_bare SE cs cu cn ce).
Lemma loose_bare o w (seen : rdb -> Prop) u : (forall d1, In d1 (u_past w) -> seen d1) -> was_loose (SE := SE) cn ce keep o (gst w) u -> was_bare seen o u.
Proof.
  intros Hp [[p (g & Hg & Hl)] Hw]. assert (forall d1, In d1 (u_past w) -> index_ok cs cu (r_names d1)) as Hok by apply u_ok. split.
  - apply in_map_iff in Hg. destruct Hg as (d1 & <- & Hd1). exists d1, p. split; auto. apply edge_listed; auto. exists u. auto.
  - assert (exists i, (i = sub u \/ i = obj u) /\ was_without (SE := SE) cn ce keep (gst w) i) as (i & Hi & g1 & Hg1 & Hn) by (destruct Hw; eauto).
    apply in_map_iff in Hg1. destruct Hg1 as (d1 & <- & Hd1). exists i, d1. split; auto. split; auto.
    intros q Hq. apply node_listed in Hq; auto. destruct Hq as (j & Hj & Hq).
    apply (shown_inj _ _ (one_now (SE := SE) cs cu Hcs Hcu _ (Hok d1 Hd1))) in Hj. subst j. exact (Hn q Hq).
Qed.

Lemma props_rbeside rcuts o xs :
  let ps := beside (rl_iter_edges_with_props (SE := SE) cs cu cn ce rcuts o) (callers wcuts 0 ts) in
  let seen := during schedule ps d0 in
  let r2l := rho (snd (interleave schedule ps d0)) in
  (forall d1, seen d1 -> Fin d1) ->
  has_read xs (fst (interleave schedule ps d0)) ->
  (forall d1, seen d1 -> below (nu d1) (nu (snd (interleave schedule ps d0)))) /\
  (forall d1 i s, seen d1 -> rho d1 i = Some s -> r2l i = Some s) /\
  (forall s p ob, In (Ok (PropsTriple s p ob)) xs -> exists u d1 d2 d3,
     seen d1 /\ r_lists_edge SE cs cu ce o d1 (triple_map (shown (rho d1)) u) (snd p) /\
     seen d2 /\ r_lists_node SE cs cu cn d2 (shown (rho d2) (sub u)) (snd s) /\
     seen d3 /\ r_lists_node SE cs cu cn d3 (shown (rho d3) (obj u)) (snd ob) /\
     called3 SE cs cu (knowing SE cs cu (knowing SE cs cu (knowing SE cs cu seen d1) d2) d3) u (Triple (fst s) (fst p) (fst ob))) /\
  StronglySorted (behind_edge_lt r2l o) (map (fun x => triple_map (by_name r2l) (edge_of x)) (ok_items xs)) /\
  (forall x, In (Err x) xs -> (x = GraphStorageError MissingPropertyData /\ exists u, ~ keep u \/ was_bare seen o u) \/ is_fault (met schedule) x) /\
  (forall t, (forall d1, seen d1 -> exists t1 p, triple_map (by_name r2l) t1 = triple_map (by_name r2l) t /\ r_lists_edge SE cs cu ce o d1 t1 p) ->
     In (triple_map (by_name r2l) t) (map (fun x => triple_map (by_name r2l) (edge_of x)) (ok_items xs)) \/
     exists x, In (Err x) xs /\ ((x = GraphStorageError MissingPropertyData /\
       exists u, triple_map (by_name r2l) t = triple_map (shown r2l) u /\ (~ keep u \/ was_bare seen o u)) \/ is_fault (met schedule) x)).
Proof.
  intros ps seen r2l HN Hx.
  destruct (rbeside_reads _ (fun F => made cs cu cn ce keep F (props_made cs cu cn ce keep o) (props_read cn ce keep F o)) es ts wcuts schedule Hnd Hcalm Ho
    (fun F a w1 w2 => made_later cs cu cn ce keep F _ (props_made_later cs cu cn ce keep o) _ a w1 w2 (props_read_later cn ce keep F o))
    (fun F w => rg_rl_props cs cu cn ce Hcs Htu keep F rcuts o w) HN _ Hx) as (w & (ys & (R1 & R2 & R3 & R4) & Hr) & Hn & Hp & Hp').
  fold ps in Hn, Hp, Hp'. fold (during schedule ps d0) seen in Hp, Hp'.
  assert (r2l = rho (u_now w)) as Er by (unfold r2l; now rewrite Hn).
  assert (forall (a : props_triple I NP EP) (b : props_triple ent NP EP), props_made cs cu cn ce keep o a b w ->
    triple_map (by_name r2l) (edge_of b) = triple_map (shown r2l) (end_of a)) as Hk.
  { intros [s p ob] [s' p' ob'] (d1 & d2 & d3 & _ & _ & _ & _ & _ & _ & [_ H1] & [_ H2] & [_ H3]). rewrite Er. eapply called3_now. repeat split; eauto. }
  assert (forall d1, In d1 (u_past w) -> index_ok cs cu (r_names d1)) as Hok by apply u_ok.
  split; [intros d1 Hd1; rewrite <- Hn; apply (u_grew cs cu cn ce keep w d1); auto|].
  split; [intros d1 i s Hd1 Hs; rewrite Er; apply (name_stays w d1); auto|].
  split; [|split; [|split]].
  - intros s p ob Hin. destruct (forall2_in_r _ _ _ _ Hr Hin)
      as (y & Hy & [s' p' ob'] & -> & d1 & d2 & d3 & D1 & D2 & D3 & L1 & L2 & L3 & (Qs & Ha) & (Qp & Hb) & (Qo & Hc)).
    simpl in Qs, Qp, Qo, Ha, Hb, Hc, L1, L2, L3. destruct s as [es0 ps0], s' as [is ps'], p as [ep0 pp0], p' as [ip pp'], ob as [eo0 po0], ob' as [io po'].
    simpl in Qs, Qp, Qo, Ha, Hb, Hc, L1, L2, L3. subst ps0 pp0 po0.
    exists (Triple is ip io), d1, d2, d3. split; auto. split; [apply edge_listed; auto; eexists; split; [reflexivity|exact L1]|].
    split; auto. split; [apply node_listed; auto; eexists; split; [reflexivity|exact L2]|].
    split; auto. split; [apply node_listed; auto; eexists; split; [reflexivity|exact L3]|].
    repeat split; eapply (called_since3 w); eauto.
  - eapply made_sorted with (ka := end_of) (h := triple_map (shown r2l)); [exact Hk| |exact R2|exact Hr]. intros a b L. exists a, b. auto.
  - intros x Hin. destruct (forall2_in_r _ _ _ _ Hr Hin) as (y & Hy & [(g & -> & ->)|Hf]); auto.
    destruct (R3 g Hy) as [[-> (u & [Hkeep|Hu])]|(z & Hz & ->)]; [left; eauto| |right; exists z; auto].
    left. split; auto. exists u. right. eapply loose_bare; eauto.
  - intros t Ht. destruct (Ht _ (Hp _ (u_in cs cu cn ce keep w))) as (e0 & p0 & E0 & L0).
    apply edge_listed in L0; [|apply Hok, u_in]. destruct L0 as (i & -> & _).
    assert (triple_map (by_name r2l) t = triple_map (shown r2l) i) as Ei.
    { rewrite <- E0, Er. eapply called3_now, triple_was, u_in. }
    destruct (R4 i) as [Hin|(g & Hg & Hwhy)].
    + intros g Hg. simpl in Hg. apply in_map_iff in Hg. destruct Hg as (d1 & <- & Hd1).
      destruct (Ht d1 (Hp _ Hd1)) as (e1 & p1 & E1 & L1). apply edge_listed in L1; auto. destruct L1 as (j & -> & L1).
      assert (j = i) as ->; [|eauto]. apply (shown3_inj _ _ (one_here w)). rewrite <- Er, <- Ei, <- E1, Er. symmetry. now eapply called3_now, triple_was.
    + rewrite Ei. destruct (made_there _ _ (triple_map (shown r2l)) _ _ _ _ _ _ Hk Hr Hin) as [H|(x & H & Hf)]; eauto.
    + right. destruct (made_error _ _ _ _ _ _ Hr Hg) as (x & H & [->|Hf]); [|eauto]. eexists. split; [exact H|].
      destruct Hwhy as [[-> [Hkeep|Hl]]|(z & Hz & ->)]; [left; eauto 6| |right; exists z; auto].
      left. split; auto. exists i. split; auto. right. eapply loose_bare; eauto.
Qed.
End Theorems.
End Top.

Definition anyhow {X Y} : X -> Y -> Prop := fun _ _ => True.
Lemma radds_none {S NP EP E} den (ts : list (rhandle * list (rop S NP EP E))) :
  Forall (fun hl => Forall (fun o => forall t, none t -> ~ r_rewrites den o t) (snd hl)) ts.
Proof. apply Forall_forall. intros hl _. apply Forall_forall. intros o _ t []. Qed.
Lemma radds_every {S NP EP E} den (ts : list (rhandle * list (rop S NP EP E))) : Forall (fun hl => Forall r_adds_only (snd hl)) ts ->
  Forall (fun hl => Forall (fun o => forall t, every t -> ~ r_rewrites den o t) (snd hl)) ts.
Proof.
  intros H. eapply Forall_impl; [|exact H]. intros hl H1. eapply Forall_impl; [|exact H1]. intros o Ho t _. destruct o; simpl in *; tauto.
Qed.
Lemma radds_spared {S NP EP E} den (ts : list (rhandle * list (rop S NP EP E))) :
  Forall (fun hl => Forall (fun o => forall t, ~ r_rewritten den ts t -> ~ r_rewrites den o t) (snd hl)) ts.
Proof.
  apply Forall_forall. intros hl Hl. apply Forall_forall. intros o Ho t Ht Hr. apply Ht. exists hl, o. auto.
Qed.
Lemma denotes_dec SE {S BE} (cs : codec BE S) cu d (e : entity S) i : {r_denotes SE cs cu d e i} + {~ r_denotes SE cs cu d e i}.
Proof.
  destruct e as [n|j]; simpl; [|apply id_eq_dec]. destruct (name_now (SE := SE) cs cu d n) as [j|]; [|right; discriminate].
  destruct (id_eq_dec j i) as [->|Nj]; [now left|right; congruence].
Qed.
Lemma r_rewrites_dec {S NP EP E} den (Hd : forall e i, {den e i} + {~ den e i}) (o : rop S NP EP E) t : {r_rewrites den o t} + {~ r_rewrites den o t}.
Proof.
  assert (forall t' : triple (entity S), {den (sub t') (sub t) /\ den (pred t') (pred t) /\ den (obj t') (obj t)} +
    {~ (den (sub t') (sub t) /\ den (pred t') (pred t) /\ den (obj t') (obj t))}) as H3.
  { intros t'. destruct (Hd (sub t') (sub t)), (Hd (pred t') (pred t)), (Hd (obj t') (obj t)); try (right; tauto). left. auto. }
  destruct o as [e p|t' p|e|t'|e p|t' p|s|s]; simpl; auto.
  - destruct (Hd e (sub t)), (Hd e (obj t)); auto. right. tauto.
  - induction (used_edges s) as [|[t' p] l IH]; [right; intros (? & ? & [] & _)|].
    destruct (H3 t') as [Y|N]; [left; exists t', p; simpl; auto|]. destruct IH as [Y|N'].
    + left. destruct Y as (t1 & p1 & Hin & H1). exists t1, p1. simpl. auto.
    + right. intros (t1 & p1 & [[= <- <-]|Hin] & H1); [exact (N H1)|apply N'; eauto].
Qed.
Lemma r_rewritten_not {S NP EP E} den (Hd : forall e i, {den e i} + {~ den e i}) (ts : list (rhandle * list (rop S NP EP E))) t :
  ~ ~ r_rewritten den ts t -> r_rewritten den ts t.
Proof.
  intros H.
  assert ({r_rewritten den ts t} + {~ r_rewritten den ts t}) as [Y|N]; [|exact Y|tauto]. clear H. unfold r_rewritten.
  assert (forall l : list (rop S NP EP E), {exists o, In o l /\ r_rewrites den o t} + {~ exists o, In o l /\ r_rewrites den o t}) as HL.
  { induction l as [|o l IH]; [right; intros (? & [] & _)|]. destruct (r_rewrites_dec den Hd o t) as [Y|N]; [left; exists o; simpl; auto|].
    destruct IH as [Y|N']; [left; destruct Y as (o' & H1 & H2); exists o'; simpl; auto|].
    right. intros (o' & [<-|H1] & H2); [exact (N H2)|apply N'; eauto]. }
  induction ts as [|hl l IH]; [right; intros (? & ? & [] & _)|].
  destruct (HL (snd hl)) as [Y|N]; [left; destruct Y as (o & H1 & H2); exists hl, o; simpl; auto|].
  destruct IH as [Y|N']; [left; destruct Y as (hl' & o & H0 & H1 & H2); exists hl', o; simpl; auto|].
  right. intros (hl' & o & [<-|H0] & H1 & H2); [apply N; eauto|apply N'; eauto].
Qed.

Lemma nodes_next_to : forall S NP EP SE BE E (seqb : S -> S -> bool)
  (cs : codec BE S) (cu : codec BE (Id KUlid)) (cn : codec BE NP) (ce : codec BE EP) mn me,
  (forall a b, seqb a b = true <-> a = b) ->
  codec_ok cs -> codec_ok cu -> codec_ok cn -> codec_ok ce -> codec_total cu ->
  forall (es : list (repoch (S := S) (NP := NP) (EP := EP) (SE := SE) (E := E))) (ts : list (rhandle * list (rop S NP EP E)))
    (wcuts : nat -> nat -> cutting) (rcuts : list bytes) (schedule : list (nat * option SE)) xs,
  NoDup (flat_map epoch_keys es ++ callers_keys ts) -> Forall RdfSledSpec.calm es ->
  let d := rs_epochs cs cu cn ce mn me es rdb_new in
  let ps := beside (rl_iter_vertices (SE := SE) cs cu cn rcuts) (rl_callers cs cu cn ce mn me wcuts 0 ts) in
  let seen := during schedule ps d in
  let names := id_now (SE := SE) cs cu (snd (interleave schedule ps d)) in
  has_read xs (fst (interleave schedule ps d)) ->
  (forall d1 i s, seen d1 -> id_now (SE := SE) cs cu d1 i = Some s -> names i = Some s) /\
  (forall e p, In (Ok (e, p)) xs -> exists i d1, seen d1 /\
     r_lists_node SE cs cu cn d1 (shown (id_now (SE := SE) cs cu d1) i) p /\ called SE cs cu (knowing SE cs cu seen d1) i e) /\
  StronglySorted (behind_lt names) (map (fun ep => by_name names (fst ep)) (ok_items xs)) /\
  (forall x, In (Err x) xs -> is_fault (met schedule) x) /\
  (forall e, (forall d1, seen d1 -> exists e1 p, by_name names e1 = by_name names e /\ r_lists_node SE cs cu cn d1 e1 p) ->
     In (by_name names e) (map (fun ep => by_name names (fst ep)) (ok_items xs)) \/ exists x, In (Err x) xs).
Proof.
  intros S NP EP SE BE E seqb cs cu cn ce mn me Hseq Hcs Hcu Hcn Hce Htu es ts wcuts rcuts schedule xs Hnd Hcalm d ps seen names Hx.
  destruct (nodes_rbeside seqb Hseq cs cu cn ce Hcs Hcu Hcn Hce Htu mn me none every anyhow (fun _ => Logic.I) (fun _ _ _ _ _ => Logic.I) es ts wcuts schedule Hnd Hcalm (radds_none _ _) rcuts xs (fun _ _ => Logic.I) Hx) as (_ & H0 & H1).
  fold d ps seen names in H0, H1. auto.
Qed.
Lemma vertices_next_to : forall S NP EP SE BE E (seqb : S -> S -> bool)
  (cs : codec BE S) (cu : codec BE (Id KUlid)) (cn : codec BE NP) (ce : codec BE EP) mn me,
  (forall a b, seqb a b = true <-> a = b) ->
  codec_ok cs -> codec_ok cu -> codec_ok cn -> codec_ok ce -> codec_total cu ->
  forall (es : list (repoch (S := S) (NP := NP) (EP := EP) (SE := SE) (E := E))) (ts : list (rhandle * list (rop S NP EP E)))
    (wcuts : nat -> nat -> cutting) (rcuts : list bytes) (schedule : list (nat * option SE)) r,
  NoDup (flat_map epoch_keys es ++ callers_keys ts) -> Forall RdfSledSpec.calm es ->
  let d := rs_epochs cs cu cn ce mn me es rdb_new in
  let ps := beside (rl_vertices (SE := SE) cs cu rcuts) (rl_callers cs cu cn ce mn me wcuts 0 ts) in
  let seen := during schedule ps d in
  let names := id_now (SE := SE) cs cu (snd (interleave schedule ps d)) in
  has_read r (fst (interleave schedule ps d)) ->
  (forall d1 i s, seen d1 -> id_now (SE := SE) cs cu d1 i = Some s -> names i = Some s) /\
  match r with
  | Err x => is_fault (met schedule) x
  | Ok es =>
      (forall e, In e es -> exists i d1 p, seen d1 /\
         r_lists_node SE cs cu cn d1 (shown (id_now (SE := SE) cs cu d1) i) p /\ called SE cs cu (knowing SE cs cu seen d1) i e) /\
      StronglySorted (behind_lt names) (map (by_name names) es) /\
      (forall e, (forall d1, seen d1 -> exists e1 p, by_name names e1 = by_name names e /\ r_lists_node SE cs cu cn d1 e1 p) ->
         In (by_name names e) (map (by_name names) es))
  end.
Proof.
  intros S NP EP SE BE E seqb cs cu cn ce mn me Hseq Hcs Hcu Hcn Hce Htu es ts wcuts rcuts schedule xs Hnd Hcalm d ps seen names Hx.
  destruct (vertices_rbeside seqb Hseq cs cu cn ce Hcs Hcu Hcn Hce Htu mn me none every anyhow (fun _ => Logic.I) (fun _ _ _ _ _ => Logic.I) es ts wcuts schedule Hnd Hcalm (radds_none _ _) rcuts xs (fun _ _ => Logic.I) Hx) as (_ & H0 & H1).
  fold d ps seen names in H0, H1. auto.
Qed.
Lemma edges_next_to : forall S NP EP SE BE E (seqb : S -> S -> bool)
  (cs : codec BE S) (cu : codec BE (Id KUlid)) (cn : codec BE NP) (ce : codec BE EP) mn me,
  (forall a b, seqb a b = true <-> a = b) ->
  codec_ok cs -> codec_ok cu -> codec_ok cn -> codec_ok ce -> codec_total cu ->
  forall (es : list (repoch (S := S) (NP := NP) (EP := EP) (SE := SE) (E := E))) (ts : list (rhandle * list (rop S NP EP E)))
    (wcuts : nat -> nat -> cutting) (rcuts : list bytes) o (schedule : list (nat * option SE)) xs,
  NoDup (flat_map epoch_keys es ++ callers_keys ts) -> Forall RdfSledSpec.calm es ->
  let d := rs_epochs cs cu cn ce mn me es rdb_new in
  let ps := beside (rl_iter_edges (SE := SE) cs cu ce rcuts o) (rl_callers cs cu cn ce mn me wcuts 0 ts) in
  let seen := during schedule ps d in
  let names := id_now (SE := SE) cs cu (snd (interleave schedule ps d)) in
  has_read xs (fst (interleave schedule ps d)) ->
  (forall d1 i s, seen d1 -> id_now (SE := SE) cs cu d1 i = Some s -> names i = Some s) /\
  (forall t p, In (Ok (t, p)) xs -> exists u d1, seen d1 /\
     r_lists_edge SE cs cu ce o d1 (triple_map (shown (id_now (SE := SE) cs cu d1)) u) p /\ called3 SE cs cu (knowing SE cs cu seen d1) u t) /\
  StronglySorted (behind_edge_lt names o) (map (fun tp => triple_map (by_name names) (fst tp)) (ok_items xs)) /\
  (forall x, In (Err x) xs -> x = GraphStorageError MissingPropertyData \/ is_fault (met schedule) x) /\
  (forall t, (forall d1, seen d1 -> exists t1 p, triple_map (by_name names) t1 = triple_map (by_name names) t /\ r_lists_edge SE cs cu ce o d1 t1 p) ->
     In (triple_map (by_name names) t) (map (fun tp => triple_map (by_name names) (fst tp)) (ok_items xs)) \/ exists x, In (Err x) xs).
Proof.
  intros S NP EP SE BE E seqb cs cu cn ce mn me Hseq Hcs Hcu Hcn Hce Htu es ts wcuts rcuts o schedule xs Hnd Hcalm d ps seen names Hx.
  destruct (edges_rbeside seqb Hseq cs cu cn ce Hcs Hcu Hcn Hce Htu mn me none every anyhow (fun _ => Logic.I) (fun _ _ _ _ _ => Logic.I) es ts wcuts schedule Hnd Hcalm (radds_none _ _) rcuts o xs (fun _ _ => Logic.I) Hx) as (_ & H0 & H1).
  fold d ps seen names in H0, H1. destruct H1 as (H1 & H2 & H3 & H4). split; auto. split; auto. split; auto. split.
  - intros x Hin. destruct (H3 x Hin) as [[-> _]|H]; auto.
  - intros t Ht. destruct (H4 t Ht) as [H|(x & H & _)]; eauto.
Qed.
Lemma edges_adding_next_to : forall S NP EP SE BE E (seqb : S -> S -> bool)
  (cs : codec BE S) (cu : codec BE (Id KUlid)) (cn : codec BE NP) (ce : codec BE EP) mn me,
  (forall a b, seqb a b = true <-> a = b) ->
  codec_ok cs -> codec_ok cu -> codec_ok cn -> codec_ok ce -> codec_total cu ->
  forall (es : list (repoch (S := S) (NP := NP) (EP := EP) (SE := SE) (E := E))) (ts : list (rhandle * list (rop S NP EP E)))
    (wcuts : nat -> nat -> cutting) (rcuts : list bytes) o (schedule : list (nat * option SE)) xs,
  NoDup (flat_map epoch_keys es ++ callers_keys ts) -> Forall RdfSledSpec.calm es ->
  Forall (fun hl => Forall r_adds_only (snd hl)) ts ->
  let d := rs_epochs cs cu cn ce mn me es rdb_new in
  let ps := beside (rl_iter_edges (SE := SE) cs cu ce rcuts o) (rl_callers cs cu cn ce mn me wcuts 0 ts) in
  let seen := during schedule ps d in
  let names := id_now (SE := SE) cs cu (snd (interleave schedule ps d)) in
  has_read xs (fst (interleave schedule ps d)) ->
  (forall d1 i s, seen d1 -> id_now (SE := SE) cs cu d1 i = Some s -> names i = Some s) /\
  (forall t p, In (Ok (t, p)) xs -> exists u d1, seen d1 /\
     r_lists_edge SE cs cu ce o d1 (triple_map (shown (id_now (SE := SE) cs cu d1)) u) p /\ called3 SE cs cu (knowing SE cs cu seen d1) u t) /\
  StronglySorted (behind_edge_lt names o) (map (fun tp => triple_map (by_name names) (fst tp)) (ok_items xs)) /\
  (forall x, In (Err x) xs -> is_fault (met schedule) x) /\
  (forall t, (forall d1, seen d1 -> exists t1 p, triple_map (by_name names) t1 = triple_map (by_name names) t /\ r_lists_edge SE cs cu ce o d1 t1 p) ->
     In (triple_map (by_name names) t) (map (fun tp => triple_map (by_name names) (fst tp)) (ok_items xs)) \/ exists x, In (Err x) xs).
Proof.
  intros S NP EP SE BE E seqb cs cu cn ce mn me Hseq Hcs Hcu Hcn Hce Htu es ts wcuts rcuts o schedule xs Hnd Hcalm Ho d ps seen names Hx.
  destruct (edges_rbeside seqb Hseq cs cu cn ce Hcs Hcu Hcn Hce Htu mn me every every anyhow (fun _ => Logic.I) (fun _ _ _ _ _ => Logic.I) es ts wcuts schedule Hnd Hcalm (radds_every _ _ Ho) rcuts o xs (fun _ _ => Logic.I) Hx) as (_ & H0 & H1).
  fold d ps seen names in H0, H1. destruct H1 as (H1 & H2 & H3 & H4). split; auto. split; auto. split; auto. split.
  - intros x Hin. destruct (H3 x Hin) as [[-> (u & K)]|H]; auto. destruct (K Logic.I).
  - intros t Ht. destruct (H4 t Ht) as [H|(x & H & _)]; eauto.
Qed.
Lemma props_next_to : forall S NP EP SE BE E (seqb : S -> S -> bool)
  (cs : codec BE S) (cu : codec BE (Id KUlid)) (cn : codec BE NP) (ce : codec BE EP) mn me,
  (forall a b, seqb a b = true <-> a = b) ->
  codec_ok cs -> codec_ok cu -> codec_ok cn -> codec_ok ce -> codec_total cu ->
  forall (es : list (repoch (S := S) (NP := NP) (EP := EP) (SE := SE) (E := E))) (ts : list (rhandle * list (rop S NP EP E)))
    (wcuts : nat -> nat -> cutting) (rcuts : list bytes) o (schedule : list (nat * option SE)) xs,
  NoDup (flat_map epoch_keys es ++ callers_keys ts) -> Forall RdfSledSpec.calm es ->
  let d := rs_epochs cs cu cn ce mn me es rdb_new in
  let ps := beside (rl_iter_edges_with_props (SE := SE) cs cu cn ce rcuts o) (rl_callers cs cu cn ce mn me wcuts 0 ts) in
  let seen := during schedule ps d in
  let names := id_now (SE := SE) cs cu (snd (interleave schedule ps d)) in
  has_read xs (fst (interleave schedule ps d)) ->
  (forall d1 i s, seen d1 -> id_now (SE := SE) cs cu d1 i = Some s -> names i = Some s) /\
  (forall s p ob, In (Ok (PropsTriple s p ob)) xs -> exists u d1 d2 d3,
     seen d1 /\ r_lists_edge SE cs cu ce o d1 (triple_map (shown (id_now (SE := SE) cs cu d1)) u) (snd p) /\
     seen d2 /\ r_lists_node SE cs cu cn d2 (shown (id_now (SE := SE) cs cu d2) (sub u)) (snd s) /\
     seen d3 /\ r_lists_node SE cs cu cn d3 (shown (id_now (SE := SE) cs cu d3) (obj u)) (snd ob) /\
     called3 SE cs cu (knowing SE cs cu (knowing SE cs cu (knowing SE cs cu seen d1) d2) d3) u (Triple (fst s) (fst p) (fst ob))) /\
  StronglySorted (behind_edge_lt names o) (map (fun x => triple_map (by_name names) (edge_of x)) (ok_items xs)) /\
  (forall x, In (Err x) xs -> x = GraphStorageError MissingPropertyData \/ is_fault (met schedule) x) /\
  (forall t, (forall d1, seen d1 -> exists t1 p, triple_map (by_name names) t1 = triple_map (by_name names) t /\ r_lists_edge SE cs cu ce o d1 t1 p) ->
     In (triple_map (by_name names) t) (map (fun x => triple_map (by_name names) (edge_of x)) (ok_items xs)) \/
     exists x, In (Err x) xs).
Proof.
  intros S NP EP SE BE E seqb cs cu cn ce mn me Hseq Hcs Hcu Hcn Hce Htu es ts wcuts rcuts o schedule xs Hnd Hcalm d ps seen names Hx.
  destruct (props_rbeside seqb Hseq cs cu cn ce Hcs Hcu Hcn Hce Htu mn me none every anyhow (fun _ => Logic.I) (fun _ _ _ _ _ => Logic.I) es ts wcuts schedule Hnd Hcalm (radds_none _ _) rcuts o xs (fun _ _ => Logic.I) Hx) as (_ & H0 & H1).
  fold d ps seen names in H0, H1. destruct H1 as (H1 & H2 & H3 & H4). repeat (split; auto).
  - intros x Hin. destruct (H3 x Hin) as [[-> _]|H]; auto.
  - intros t Ht. destruct (H4 t Ht) as [H|(x & H & _)]; eauto.
Qed.
Lemma props_adding_next_to : forall S NP EP SE BE E (seqb : S -> S -> bool)
  (cs : codec BE S) (cu : codec BE (Id KUlid)) (cn : codec BE NP) (ce : codec BE EP) mn me,
  (forall a b, seqb a b = true <-> a = b) ->
  codec_ok cs -> codec_ok cu -> codec_ok cn -> codec_ok ce -> codec_total cu ->
  forall (es : list (repoch (S := S) (NP := NP) (EP := EP) (SE := SE) (E := E))) (ts : list (rhandle * list (rop S NP EP E)))
    (wcuts : nat -> nat -> cutting) (rcuts : list bytes) o (schedule : list (nat * option SE)) xs,
  NoDup (flat_map epoch_keys es ++ callers_keys ts) -> Forall RdfSledSpec.calm es ->
  Forall (fun hl => Forall r_adds_only (snd hl)) ts ->
  let d := rs_epochs cs cu cn ce mn me es rdb_new in
  let ps := beside (rl_iter_edges_with_props (SE := SE) cs cu cn ce rcuts o) (rl_callers cs cu cn ce mn me wcuts 0 ts) in
  let seen := during schedule ps d in
  let names := id_now (SE := SE) cs cu (snd (interleave schedule ps d)) in
  has_read xs (fst (interleave schedule ps d)) ->
  (forall d1 i s, seen d1 -> id_now (SE := SE) cs cu d1 i = Some s -> names i = Some s) /\
  (forall s p ob, In (Ok (PropsTriple s p ob)) xs -> exists u d1 d2 d3,
     seen d1 /\ r_lists_edge SE cs cu ce o d1 (triple_map (shown (id_now (SE := SE) cs cu d1)) u) (snd p) /\
     seen d2 /\ r_lists_node SE cs cu cn d2 (shown (id_now (SE := SE) cs cu d2) (sub u)) (snd s) /\
     seen d3 /\ r_lists_node SE cs cu cn d3 (shown (id_now (SE := SE) cs cu d3) (obj u)) (snd ob) /\
     called3 SE cs cu (knowing SE cs cu (knowing SE cs cu (knowing SE cs cu seen d1) d2) d3) u (Triple (fst s) (fst p) (fst ob))) /\
  StronglySorted (behind_edge_lt names o) (map (fun x => triple_map (by_name names) (edge_of x)) (ok_items xs)) /\
  (forall x, In (Err x) xs -> (x = GraphStorageError MissingPropertyData /\ exists u, was_bare SE cs cu cn ce seen o u) \/ is_fault (met schedule) x) /\
  (forall t, (forall d1, seen d1 -> exists t1 p, triple_map (by_name names) t1 = triple_map (by_name names) t /\ r_lists_edge SE cs cu ce o d1 t1 p) ->
     In (triple_map (by_name names) t) (map (fun x => triple_map (by_name names) (edge_of x)) (ok_items xs)) \/
     exists x, In (Err x) xs /\
       ((x = GraphStorageError MissingPropertyData /\ exists u, triple_map (by_name names) t = triple_map (shown names) u /\ was_bare SE cs cu cn ce seen o u) \/
        is_fault (met schedule) x)).
Proof.
  intros S NP EP SE BE E seqb cs cu cn ce mn me Hseq Hcs Hcu Hcn Hce Htu es ts wcuts rcuts o schedule xs Hnd Hcalm Ho d ps seen names Hx.
  destruct (props_rbeside seqb Hseq cs cu cn ce Hcs Hcu Hcn Hce Htu mn me every every anyhow (fun _ => Logic.I) (fun _ _ _ _ _ => Logic.I) es ts wcuts schedule Hnd Hcalm (radds_every _ _ Ho) rcuts o xs (fun _ _ => Logic.I) Hx) as (_ & H0 & H1).
  fold d ps seen names in H0, H1. destruct H1 as (H1 & H2 & H3 & H4). repeat (split; auto).
  - intros x Hin. destruct (H3 x Hin) as [[-> (u & [K|K])]|H]; [destruct (K Logic.I)|left; eauto|auto].
  - intros t Ht. destruct (H4 t Ht) as [H|(x & H & [[-> (u & E1 & [K|K])]|K])]; [left; exact H|destruct (K Logic.I)| |]; right; eexists; (split; [exact H|]); eauto.
Qed.

(** Next to any calls, said about the edges that are rewritten. *)
Lemma edges_spared_next_to : forall S NP EP SE BE E (seqb : S -> S -> bool)
  (cs : codec BE S) (cu : codec BE (Id KUlid)) (cn : codec BE NP) (ce : codec BE EP) mn me,
  (forall a b, seqb a b = true <-> a = b) ->
  codec_ok cs -> codec_ok cu -> codec_ok cn -> codec_ok ce -> codec_total cu ->
  forall (es : list (repoch (S := S) (NP := NP) (EP := EP) (SE := SE) (E := E))) (ts : list (rhandle * list (rop S NP EP E)))
    (wcuts : nat -> nat -> cutting) (rcuts : list bytes) o (schedule : list (nat * option SE)) xs,
  NoDup (flat_map epoch_keys es ++ callers_keys ts) -> Forall RdfSledSpec.calm es ->
  let d := rs_epochs cs cu cn ce mn me es rdb_new in
  let ps := beside (rl_iter_edges (SE := SE) cs cu ce rcuts o) (rl_callers cs cu cn ce mn me wcuts 0 ts) in
  let seen := during schedule ps d in
  let names := id_now (SE := SE) cs cu (snd (interleave schedule ps d)) in
  let rewritten := r_rewritten (r_denotes SE cs cu (snd (interleave schedule ps d))) ts in
  has_read xs (fst (interleave schedule ps d)) ->
  (forall d1 i s, seen d1 -> id_now (SE := SE) cs cu d1 i = Some s -> names i = Some s) /\
  (forall t p, In (Ok (t, p)) xs -> exists u d1, seen d1 /\
     r_lists_edge SE cs cu ce o d1 (triple_map (shown (id_now (SE := SE) cs cu d1)) u) p /\ called3 SE cs cu (knowing SE cs cu seen d1) u t) /\
  StronglySorted (behind_edge_lt names o) (map (fun tp => triple_map (by_name names) (fst tp)) (ok_items xs)) /\
  (forall x, In (Err x) xs -> (x = GraphStorageError MissingPropertyData /\ exists u, rewritten u) \/ is_fault (met schedule) x) /\
  (forall t, (forall d1, seen d1 -> exists t1 p, triple_map (by_name names) t1 = triple_map (by_name names) t /\ r_lists_edge SE cs cu ce o d1 t1 p) ->
     In (triple_map (by_name names) t) (map (fun tp => triple_map (by_name names) (fst tp)) (ok_items xs)) \/
     exists x, In (Err x) xs /\
       ((x = GraphStorageError MissingPropertyData /\ exists u, triple_map (by_name names) t = triple_map (shown names) u /\ rewritten u) \/
        is_fault (met schedule) x)).
Proof.
  intros S NP EP SE BE E seqb cs cu cn ce mn me Hseq Hcs Hcu Hcn Hce Htu es ts wcuts rcuts o schedule xs Hnd Hcalm d ps seen names rewritten Hx.
  destruct (edges_rbeside seqb Hseq cs cu cn ce Hcs Hcu Hcn Hce Htu mn me none every anyhow (fun _ => Logic.I) (fun _ _ _ _ _ => Logic.I) es ts wcuts schedule Hnd Hcalm (radds_none _ _) rcuts o xs (fun _ _ => Logic.I) Hx) as (G & _).
  fold d ps seen in G. set (d_end := snd (interleave schedule ps d)) in *.
  destruct (edges_rbeside seqb Hseq cs cu cn ce Hcs Hcu Hcn Hce Htu mn me (fun t => ~ rewritten t) (fun d1 => below (name_now (SE := SE) cs cu d1) (name_now (SE := SE) cs cu d_end))
    (r_denotes SE cs cu d_end) (fun i => eq_refl) (fun d1 n i H => H n i) es ts wcuts schedule Hnd Hcalm (radds_spared _ _) rcuts o xs G Hx) as (_ & H0 & H1).
  fold d ps seen names in H0, H1. destruct H1 as (H1 & H2 & H3 & H4).
  assert (forall u, ~ ~ rewritten u -> rewritten u) as Hdec by (intros u; apply r_rewritten_not; intros; apply denotes_dec).
  split; auto. split; auto. split; auto. split.
  - intros x Hin. destruct (H3 x Hin) as [[-> (u & K)]|H]; eauto.
  - intros t Ht. destruct (H4 t Ht) as [H|(x & H & [[-> (u & E1 & K)]|K])]; [left; exact H| |]; right; eexists; (split; [exact H|]);
      [left; split; auto; exists u; auto|auto].
Qed.
Lemma props_spared_next_to : forall S NP EP SE BE E (seqb : S -> S -> bool)
  (cs : codec BE S) (cu : codec BE (Id KUlid)) (cn : codec BE NP) (ce : codec BE EP) mn me,
  (forall a b, seqb a b = true <-> a = b) ->
  codec_ok cs -> codec_ok cu -> codec_ok cn -> codec_ok ce -> codec_total cu ->
  forall (es : list (repoch (S := S) (NP := NP) (EP := EP) (SE := SE) (E := E))) (ts : list (rhandle * list (rop S NP EP E)))
    (wcuts : nat -> nat -> cutting) (rcuts : list bytes) o (schedule : list (nat * option SE)) xs,
  NoDup (flat_map epoch_keys es ++ callers_keys ts) -> Forall RdfSledSpec.calm es ->
  let d := rs_epochs cs cu cn ce mn me es rdb_new in
  let ps := beside (rl_iter_edges_with_props (SE := SE) cs cu cn ce rcuts o) (rl_callers cs cu cn ce mn me wcuts 0 ts) in
  let seen := during schedule ps d in
  let names := id_now (SE := SE) cs cu (snd (interleave schedule ps d)) in
  let rewritten := r_rewritten (r_denotes SE cs cu (snd (interleave schedule ps d))) ts in
  has_read xs (fst (interleave schedule ps d)) ->
  (forall d1 i s, seen d1 -> id_now (SE := SE) cs cu d1 i = Some s -> names i = Some s) /\
  (forall s p ob, In (Ok (PropsTriple s p ob)) xs -> exists u d1 d2 d3,
     seen d1 /\ r_lists_edge SE cs cu ce o d1 (triple_map (shown (id_now (SE := SE) cs cu d1)) u) (snd p) /\
     seen d2 /\ r_lists_node SE cs cu cn d2 (shown (id_now (SE := SE) cs cu d2) (sub u)) (snd s) /\
     seen d3 /\ r_lists_node SE cs cu cn d3 (shown (id_now (SE := SE) cs cu d3) (obj u)) (snd ob) /\
     called3 SE cs cu (knowing SE cs cu (knowing SE cs cu (knowing SE cs cu seen d1) d2) d3) u (Triple (fst s) (fst p) (fst ob))) /\
  StronglySorted (behind_edge_lt names o) (map (fun x => triple_map (by_name names) (edge_of x)) (ok_items xs)) /\
  (forall x, In (Err x) xs -> (x = GraphStorageError MissingPropertyData /\ exists u, rewritten u \/ was_bare SE cs cu cn ce seen o u) \/ is_fault (met schedule) x) /\
  (forall t, (forall d1, seen d1 -> exists t1 p, triple_map (by_name names) t1 = triple_map (by_name names) t /\ r_lists_edge SE cs cu ce o d1 t1 p) ->
     In (triple_map (by_name names) t) (map (fun x => triple_map (by_name names) (edge_of x)) (ok_items xs)) \/
     exists x, In (Err x) xs /\
       ((x = GraphStorageError MissingPropertyData /\
           exists u, triple_map (by_name names) t = triple_map (shown names) u /\ (rewritten u \/ was_bare SE cs cu cn ce seen o u)) \/
        is_fault (met schedule) x)).
Proof.
  intros S NP EP SE BE E seqb cs cu cn ce mn me Hseq Hcs Hcu Hcn Hce Htu es ts wcuts rcuts o schedule xs Hnd Hcalm d ps seen names rewritten Hx.
  destruct (props_rbeside seqb Hseq cs cu cn ce Hcs Hcu Hcn Hce Htu mn me none every anyhow (fun _ => Logic.I) (fun _ _ _ _ _ => Logic.I) es ts wcuts schedule Hnd Hcalm (radds_none _ _) rcuts o xs (fun _ _ => Logic.I) Hx) as (G & _).
  fold d ps seen in G. set (d_end := snd (interleave schedule ps d)) in *.
  destruct (props_rbeside seqb Hseq cs cu cn ce Hcs Hcu Hcn Hce Htu mn me (fun t => ~ rewritten t) (fun d1 => below (name_now (SE := SE) cs cu d1) (name_now (SE := SE) cs cu d_end))
    (r_denotes SE cs cu d_end) (fun i => eq_refl) (fun d1 n i H => H n i) es ts wcuts schedule Hnd Hcalm (radds_spared _ _) rcuts o xs G Hx) as (_ & H0 & H1).
  fold d ps seen names in H0, H1. destruct H1 as (H1 & H2 & H3 & H4).
  assert (forall u, ~ ~ rewritten u -> rewritten u) as Hdec by (intros u; apply r_rewritten_not; intros; apply denotes_dec).
  split; auto. split; auto. split; auto. split.
  - intros x Hin. destruct (H3 x Hin) as [[-> (u & [K|K])]|H]; [left; split; auto; exists u; auto|left; split; auto; exists u; auto|auto].
  - intros t Ht. destruct (H4 t Ht) as [H|(x & H & [[-> (u & E1 & [K|K])]|K])]; [left; exact H| | |]; right; eexists; (split; [exact H|]);
      [left; split; auto; exists u; auto|left; split; auto; exists u; auto|auto].
Qed.
