(** What a copy between two RDF stores over sled does when both are in use. *)
From Coq Require Import Arith NArith List Bool Sorted.
From Verif Require Import Bytes OMap Core IdType Store Mem MemIndex Spec GenSpec Prog Sled SledHistory SledTables
  SledLeaf SledLazy SledBeside SledIndex Rdf RdfSpec RdfSled RdfSledSpec RdfSledLeaf SledCopy RdfSledCopy RdfSledCopyTop SledTwo SledTwoFacts SledTwoTop RdfSledTwo
  SledSched RdfSledMixSpec RdfSledMixMain SledBeside RdfSledLeaf.
Import ListNotations.

Section Source.
Context {S NP EP SE BE ER : Type}.
Notation err := (rdf_error S (sled_index_error S (Id KUlid) SE BE) (sled_error SE BE)).
Notation H := rhandle.
Lemma r_feed_none {A} (body : A -> H -> prog rdb SE (result err unit * H)) (xs : list (result ER A)) : forall a x,
  feed (by_list body) xs None = (a, x) -> x = None.
Proof. induction xs as [|[a|e] xs IH]; simpl; intros b x E; [now injection E|eauto|now injection E]. Qed.
Lemma r_feed_list {A} (body : A -> H -> prog rdb SE (result err unit * H)) (xs : list (result ER A)) : forall h m P a h' m' P',
  feed (by_list body) xs (Some (h, m, P)) = (a, Some (h', m', P')) -> replay (rs_for_each body xs h) m P = Some ((a, h'), m', P').
Proof.
  induction xs as [|[a|e] xs IH]; intros h m P b h' m' P' E.
  - simpl in *. now injection E as <- <- <- <-.
  - cbn [feed rs_for_each by_list] in *. rewrite replay_bind. destruct (replay (body a h) m P) as [[[[[[]|e] h1] m1] P1]|]; cbn [fst snd] in *.
    + now apply IH.
    + injection E as <- <- <- <-. reflexivity.
    + exfalso. apply r_feed_none in E. discriminate.
  - simpl in *. now injection E as <- <- <- <-.
Qed.
Lemma r_feed_both_list (fn : entity S -> NP -> H -> prog rdb SE (result err unit * H)) fe (s : rdf_source S NP EP ER) h m P a h' m' P' :
  r_feed_both (by_list (fun ip => fn (fst ip) (snd ip))) (by_list (fun te => fe (fst te) (snd te))) s (Some (h, m, P)) = (a, Some (h', m', P')) ->
  replay (rs_bulk fn fe s h) m P = Some ((a, h'), m', P').
Proof.
  unfold r_feed_both, rs_bulk. intros E. rewrite replay_bind.
  destruct (feed (by_list (fun ip => fn (fst ip) (snd ip))) (rs_nodes s) (Some (h, m, P))) as [[[]|e] [[[h1 m1] P1]|]] eqn:E1.
  - rewrite (r_feed_list _ _ _ _ _ _ _ _ _ E1). cbn [fst snd]. now apply r_feed_list.
  - exfalso. apply r_feed_none in E. discriminate.
  - injection E as <- <- <- <-. rewrite (r_feed_list _ _ _ _ _ _ _ _ _ E1). reflexivity.
  - discriminate.
Qed.
End Source.

Lemma called_alike SE {S BE} (cs : codec BE S) cu (seen seen' : rdb -> Prop) d1 i e : (forall d, seen d <-> seen' d) ->
  called SE cs cu (knowing SE cs cu seen d1) i e -> called SE cs cu (knowing SE cs cu seen' d1) i e.
Proof. intros Hs (d & [Hd Hk] & E). exists d. split; [|exact E]. split; [now apply Hs|exact Hk]. Qed.
Lemma called3_alike SE {S BE} (cs : codec BE S) cu (seen seen' : rdb -> Prop) d1 u t : (forall d, seen d <-> seen' d) ->
  called3 SE cs cu (knowing SE cs cu seen d1) u t -> called3 SE cs cu (knowing SE cs cu seen' d1) u t.
Proof. intros Hs (A & B & C). split; [|split]; eapply called_alike; eauto. Qed.

(** ** Two RDF databases *)
Lemma r_both_beside : forall S NP EP SE BE BE' E (seqb : S -> S -> bool)
  (cs : codec BE S) (cu : codec BE (Id KUlid)) (cn : codec BE NP) (ce : codec BE EP) mn me
  (fn : entity S -> NP -> rhandle -> prog rdb SE (result (rdf_error S (sled_index_error S (Id KUlid) SE BE') (sled_error SE BE')) unit * rhandle))
  (fe : triple (entity S) -> EP -> rhandle -> prog rdb SE (result (rdf_error S (sled_index_error S (Id KUlid) SE BE') (sled_error SE BE')) unit * rhandle)),
  (forall a b, seqb a b = true <-> a = b) ->
  codec_ok cs -> codec_ok cu -> codec_ok cn -> codec_ok ce -> codec_total cu ->
  forall (es : list (repoch (S := S) (NP := NP) (EP := EP) (SE := SE) (E := E))) (ts : list (rhandle * list (rop S NP EP E)))
    (wcuts : nat -> nat -> cutting) (cuts cuts' : list bytes) Y (others : list (prog rdb SE Y)) (x : rdb)
    (schedule : list (who * option SE)) (h : rhandle) a h' psA psB d',
  NoDup (flat_map epoch_keys es ++ callers_keys ts) -> Forall RdfSledSpec.calm es ->
  let d := (rs_epochs cs cu cn ce mn me es rdb_new, x) in
  let p := r_over_both cs cu cn ce (fun ip => fn (fst ip) (snd ip)) (fun te => fe (fst te) (snd te)) cuts cuts' h in
  let writers := rl_callers cs cu cn ce mn me wcuts 0 ts in
  interleave2 schedule p writers others d = (Ret (a, h'), psA, psB, d') ->
  let seen := during2 schedule p writers others d in
  exists s, r_handed2 cs cu cn ce seen (fst d') (fun y => In (Mine, Some y) schedule) ts s /\
    (a = Ok tt -> r_complete2 cs cu cn ce seen (fst d') s) /\
  exists schedule', (forall i f, In (i, f) schedule' -> In (second_of i, f) schedule) /\
    forall f : _ -> Y, interleave schedule' (bind (rs_bulk fn fe s h) (fun x => Ret (f x)) :: others) x = (Ret (f (a, h')) :: psB, snd d').
Proof.
  intros S NP EP SE BE BE' E seqb cs cu cn ce mn me fn fe Hseq Hcs Hcu Hcn Hce Htu es ts wcuts cuts cuts' Y others x schedule h a h' psA psB d'
    Hnd Hcalm d p writers Hi seen.
  pose (fn' := fun ip : entity S * NP => fn (fst ip) (snd ip)). pose (fe' := fun te : triple (entity S) * EP => fe (fst te) (snd te)).
  pose (wr := @inr (result (lr_error (rdf_error S (sled_index_error S (Id KUlid) SE BE') (sled_error SE BE'))
      (rdf_error S (sled_index_error S (Id KUlid) SE BE) (sled_error SE BE))) unit * option (rhandle * list (ev (SE := SE) rdb) * Prop))
    (list (routcome (S := S) (SE := SE) (BE := BE) (E := E)) * rhandle)).
  pose proof (interleave2_wrap wr schedule p writers others d) as Hw. rewrite Hi in Hw.
  destruct (run2 schedule p _ others d _ _ _ _ _ (alone_both (fun d => t_node (r_trees d)) (fun d => t_spo (r_trees d))
    (shown_item (node_item cn) (rs_show_pair cs cu)) (shown_item (into_edge_of_entry ce SPO) (rs_show_edge cs cu)) fn' fe' cuts cuts' h) Hw)
    as (m & sA & sB & HG & HA & HB & H1 & H2).
  destruct (HG [] True) as (P' & HP & Hf). rewrite app_nil_r in Hf. cbn [fst snd] in Hf.
  pose (reader := rs_take_over (SE := SE) cs cu cn ce (by_list fn') (by_list fe') cuts cuts' (Some (h, rights m, True))).
  assert (Hq : follows (bind reader (fun x => Ret (inl x))) (lefts m)
    (inl (a, Some (h', [], P')) : _ + (list (routcome (S := S) (SE := SE) (BE := BE) (E := E)) * rhandle))).
  { rewrite <- (app_nil_r (lefts m)). eapply follows_bind; [exact Hf|]. reflexivity. }
  destruct (HA _ _ Hq) as [Er Es].
  assert (Ex : interleave sA (beside reader writers) (rs_epochs cs cu cn ce mn me es rdb_new) =
    (Ret (inl (a, Some (h', [], P'))) :: map (fun q => bind q (fun b => Ret (wr b))) psA, fst d')) by exact Er.
  destruct (rtaken_beside S NP EP SE BE E _ _ seqb cs cu cn ce mn me (by_list fn') (by_list fe') Hseq Hcs Hcu Hcn Hce Htu es ts wcuts cuts cuts' sA
    (Some (h, rights m, True)) a (Some (h', [], P')) Hnd Hcalm) as (_ & _ & s & Ef & Hh & Hc).
  { unfold has_read. fold reader writers. rewrite Ex. reflexivity. }
  fold reader writers in Hh, Hc.
  assert (Hseen : forall d1, during sA (beside reader writers) (rs_epochs cs cu cn ce mn me es rdb_new) d1 <-> seen d1).
  { intros d1. unfold seen. rewrite <- (during2_wrap wr). apply (Es d1). }
  assert (Hmet : forall y, met sA y -> In (Mine, Some y) schedule).
  { intros y Hy. exact (H1 0 (Some y) Hy). }
  assert (Hfault : forall z : rdf_error S (sled_index_error S (Id KUlid) SE BE) (sled_error SE BE),
    is_fault (met sA) z -> is_fault (fun y => In (Mine, Some y) schedule) z).
  { intros z (y & Hy & Ez). exists y. auto. }
  unfold r_handed in Hh. unfold r_complete in Hc. rewrite Ex in Hh, Hc. cbn [snd] in Hh, Hc.
  exists s. split; [|split].
  - destruct Hh as (A1 & A2 & A3 & A4 & A5 & A6). split; [|split; [|split; [|split; [|split]]]]; auto.
    + intros e q Hin. destruct (A1 e q Hin) as (i & d1 & D1 & L1 & C1). exists i, d1. split; [now apply Hseen|]. split; [exact L1|].
      eapply called_alike; eauto.
    + intros t q Hin. destruct (A2 t q Hin) as (u & d1 & D1 & L1 & C1). exists u, d1. split; [now apply Hseen|]. split; [exact L1|].
      eapply called3_alike; eauto.
    + intros z Hin. destruct (A6 z Hin) as [Hz|Hr]; [left; auto|right; exact Hr].
  - intros Ea. destruct (Hc Ea) as [C1 C2]. split.
    + intros e Hall. apply C1. intros d1 D1. now apply Hall, Hseen.
    + intros t Hall. apply C2. intros d1 D1. now apply Hall, Hseen.
  - exists sB. split; [exact H2|]. intros f. apply (HB (bind (rs_bulk fn fe s h) (fun x => Ret (f x)))). symmetry in Ef. apply r_feed_both_list in Ef.
    destruct (replay_follows _ _ _ _ _ _ Ef (HP Logic.I)) as (_ & m0 & -> & Hf0). rewrite app_nil_r. rewrite <- (app_nil_r m0).
    eapply follows_bind; [exact Hf0|]. reflexivity.
Qed.

Lemma r_two_extend : forall S NP EP SE BE BE' E (seqb : S -> S -> bool)
  (cs : codec BE S) (cu : codec BE (Id KUlid)) (cn : codec BE NP) (ce : codec BE EP)
  (cs' : codec BE' S) (cu' : codec BE' (Id KUlid)) (cn' : codec BE' NP) (ce' : codec BE' EP) mn me mn' me',
  (forall a b, seqb a b = true <-> a = b) ->
  codec_ok cs -> codec_ok cu -> codec_ok cn -> codec_ok ce -> codec_total cu ->
  forall (es : list (repoch (S := S) (NP := NP) (EP := EP) (SE := SE) (E := E))) (ts : list (rhandle * list (rop S NP EP E)))
    (ts' : list (rhandle * list (rop S NP EP (rdf_error S (sled_index_error S (Id KUlid) SE BE) (sled_error SE BE)))))
    (wcuts wcuts' : nat -> nat -> cutting) (cuts cuts' : list bytes) (x : rdb)
    (schedule : list (who * option SE)) (h h' : rhandle) a psA psB d',
  NoDup (flat_map epoch_keys es ++ callers_keys ts) -> Forall RdfSledSpec.calm es ->
  let d := (rs_epochs cs cu cn ce mn me es rdb_new, x) in
  let p := rs_extend_both cs cu cn ce cs' cu' cn' ce' cuts cuts' h in
  let writers := rl_callers cs cu cn ce mn me wcuts 0 ts in
  let others := rl_callers cs' cu' cn' ce' mn' me' wcuts' 1 ts' in
  interleave2 schedule p writers others d = (Ret (a, h'), psA, psB, d') ->
  let seen := during2 schedule p writers others d in
  exists s, r_handed2 cs cu cn ce seen (fst d') (fun y => In (Mine, Some y) schedule) ts s /\
    (a = Ok tt -> r_complete2 cs cu cn ce seen (fst d') s) /\
  exists schedule', (forall i f, In (i, f) schedule' -> In (second_of i, f) schedule) /\
    interleave schedule' (rl_callers cs' cu' cn' ce' mn' me' wcuts' 0 ((h, [RExtend s]) :: ts')) x = (Ret ([a], h') :: psB, snd d').
Proof.
  intros S NP EP SE BE BE' E seqb cs cu cn ce cs' cu' cn' ce' mn me mn' me' Hseq Hcs Hcu Hcn Hce Htu es ts ts' wcuts wcuts' cuts cuts' x schedule h h' a psA psB d'
    Hnd Hcalm d p writers others Hi seen.
  destruct (r_both_beside _ _ _ _ _ _ _ seqb cs cu cn ce mn me _ _ Hseq Hcs Hcu Hcn Hce Htu es ts wcuts cuts cuts' _ others x schedule h a h' psA psB d' Hnd Hcalm Hi)
    as (s & H1 & H2 & sB & H3 & H4).
  exists s. split; [exact H1|]. split; [exact H2|]. exists sB. split; [exact H3|].
  exact (H4 (fun y => ([fst y], snd y))).
Qed.

Lemma r_two_merge : forall S NP EP SE BE BE' E (seqb : S -> S -> bool)
  (cs : codec BE S) (cu : codec BE (Id KUlid)) (cn : codec BE NP) (ce : codec BE EP)
  (cs' : codec BE' S) (cu' : codec BE' (Id KUlid)) (cn' : codec BE' NP) (ce' : codec BE' EP) mn me mn' me',
  (forall a b, seqb a b = true <-> a = b) ->
  codec_ok cs -> codec_ok cu -> codec_ok cn -> codec_ok ce -> codec_total cu ->
  forall (es : list (repoch (S := S) (NP := NP) (EP := EP) (SE := SE) (E := E))) (ts : list (rhandle * list (rop S NP EP E)))
    (ts' : list (rhandle * list (rop S NP EP (rdf_error S (sled_index_error S (Id KUlid) SE BE) (sled_error SE BE)))))
    (wcuts wcuts' : nat -> nat -> cutting) (cuts cuts' : list bytes) (x : rdb)
    (schedule : list (who * option SE)) (h h' : rhandle) a psA psB d',
  NoDup (flat_map epoch_keys es ++ callers_keys ts) -> Forall RdfSledSpec.calm es ->
  let d := (rs_epochs cs cu cn ce mn me es rdb_new, x) in
  let p := rs_merge_both cs cu cn ce cs' cu' cn' ce' mn' me' cuts cuts' h in
  let writers := rl_callers cs cu cn ce mn me wcuts 0 ts in
  let others := rl_callers cs' cu' cn' ce' mn' me' wcuts' 1 ts' in
  interleave2 schedule p writers others d = (Ret (a, h'), psA, psB, d') ->
  let seen := during2 schedule p writers others d in
  exists s, r_handed2 cs cu cn ce seen (fst d') (fun y => In (Mine, Some y) schedule) ts s /\
    (a = Ok tt -> r_complete2 cs cu cn ce seen (fst d') s) /\
  exists schedule', (forall i f, In (i, f) schedule' -> In (second_of i, f) schedule) /\
    interleave schedule' (rl_callers cs' cu' cn' ce' mn' me' wcuts' 0 ((h, [RMerge s]) :: ts')) x = (Ret ([a], h') :: psB, snd d').
Proof.
  intros S NP EP SE BE BE' E seqb cs cu cn ce cs' cu' cn' ce' mn me mn' me' Hseq Hcs Hcu Hcn Hce Htu es ts ts' wcuts wcuts' cuts cuts' x schedule h h' a psA psB d'
    Hnd Hcalm d p writers others Hi seen.
  destruct (r_both_beside _ _ _ _ _ _ _ seqb cs cu cn ce mn me _ _ Hseq Hcs Hcu Hcn Hce Htu es ts wcuts cuts cuts' _ others x schedule h a h' psA psB d' Hnd Hcalm Hi)
    as (s & H1 & H2 & sB & H3 & H4).
  exists s. split; [exact H1|]. split; [exact H2|]. exists sB. split; [exact H3|].
  exact (H4 (fun y => ([fst y], snd y))).
Qed.

(** From the first processes of both to the end, where the others on the written store do not remove. *)
Lemma r_two_extend_end : forall S NP EP SE BE BE' E (seqb : S -> S -> bool)
  (cs : codec BE S) (cu : codec BE (Id KUlid)) (cn : codec BE NP) (ce : codec BE EP)
  (cs' : codec BE' S) (cu' : codec BE' (Id KUlid)) (cn' : codec BE' NP) (ce' : codec BE' EP) mn me mn' me',
  (forall a b, seqb a b = true <-> a = b) ->
  codec_ok cs -> codec_ok cu -> codec_ok cn -> codec_ok ce -> codec_total cu ->
  codec_ok cs' -> codec_ok cu' -> codec_ok cn' -> codec_ok ce' -> codec_total cu' ->
  forall (es : list (repoch (S := S) (NP := NP) (EP := EP) (SE := SE) (E := E))) (ts : list (rhandle * list (rop S NP EP E)))
    (es' : list (mepoch (S := S) (NP := NP) (EP := EP) (SE := SE) (E := (rdf_error S (sled_index_error S (Id KUlid) SE BE) (sled_error SE BE)))))
    (ts' : list (rhandle * list (rop S NP EP (rdf_error S (sled_index_error S (Id KUlid) SE BE) (sled_error SE BE)))))
    (wcuts wcuts' : nat -> nat -> cutting) (cuts cuts' : list bytes)
    (schedule : list (who * option SE)) (h h' : rhandle) a psA psB d',
  NoDup (flat_map epoch_keys es ++ callers_keys ts) -> Forall RdfSledSpec.calm es ->
  m_apart (SE := SE) cs' cu' cn' ce' mn' me' es' rdb_new ->
  (forall h l o, In (h, l) ts' -> In o l -> match o with RRemoveNode _ | RRemoveEdge _ => False | _ => True end) ->
  let x := m_epochs cs' cu' cn' ce' mn' me' es' rdb_new in
  let d := (rs_epochs cs cu cn ce mn me es rdb_new, x) in
  let p := rs_extend_both cs cu cn ce cs' cu' cn' ce' cuts cuts' h in
  let writers := rl_callers cs cu cn ce mn me wcuts 0 ts in
  let others := rl_callers cs' cu' cn' ce' mn' me' wcuts' 1 ts' in
  interleave2 schedule p writers others d = (Ret (a, h'), psA, psB, d') ->
  let seen := during2 schedule p writers others d in
  let x' := snd d' in
  let names := id_now (SE := SE) cs' cu' x' in
  exists s, r_handed2 cs cu cn ce seen (fst d') (fun y => In (Mine, Some y) schedule) ts s /\
    (a = Ok tt -> r_complete2 cs cu cn ce seen (fst d') s) /\
  let calls := (h, [RExtend s]) :: ts' in
  let ls := map snd calls in
  (NoDup (flat_map m_keys es' ++ callers_keys calls) ->
   one_to_one (name_now (SE := SE) cs' cu' x') names /\
   (forall n i, name_now (SE := SE) cs' cu' x n = Some i -> name_now (SE := SE) cs' cu' x' n = Some i) /\
   exists known eg known' ss l,
     (forall n, name_now (SE := SE) cs' cu' x n <> None <-> In n known) /\
     (forall n, name_now (SE := SE) cs' cu' x' n <> None <-> In n known') /\
     named (flat_map given (concat ls)) known known' /\
     m_effects (BE := BE') seqb mn' me' (by_name names) es' [] e_empty known eg /\
     Forall2 (r_log_among_so_far (SE := SE) (BE := BE') seqb known known') ls ss /\ shuffle ss l /\
     (exists l0, nth_error ss 0 = Some l0 /\ r_log_among seqb known known' [RExtend s] [a] l0) /\
     (forall i li rs hi, nth_error (map snd ts') i = Some li -> nth_error psB i = Some (Ret (rs, hi)) ->
        exists si, nth_error ss (Datatypes.S i) = Some si /\ r_log_among seqb known known' li rs si) /\
     rs_shows SE cs' cu' cn' ce' x' (e_run seqb mn' me' (by_name names) known' l eg)).
Proof.
  intros S NP EP SE BE BE' E seqb cs cu cn ce cs' cu' cn' ce' mn me mn' me' Hseq Hcs Hcu Hcn Hce Htu Hcs' Hcu' Hcn' Hce' Htu'
    es ts es' ts' wcuts wcuts' cuts cuts' schedule h h' a psA psB d' Hnd Hcalm Hap Hno x d p writers others Hi seen x' names.
  destruct (r_two_extend _ _ _ _ _ _ _ seqb cs cu cn ce cs' cu' cn' ce' mn me mn' me' Hseq Hcs Hcu Hcn Hce Htu es ts ts' wcuts wcuts' cuts cuts' x schedule
    h h' a psA psB d' Hnd Hcalm Hi) as (s & H1 & H2 & sB & H3 & H4).
  exists s. split; [exact H1|]. split; [exact H2|]. intros calls ls Hk.
  assert (Hk' : NoDup (flat_map m_keys (es' ++ [MTogether wcuts' (RCrowd calls sB)]))).
  { rewrite flat_map_app. cbn [flat_map m_keys rc_callers]. now rewrite app_nil_r. }
  pose proof (main_mixed seqb cs' cu' cn' ce' mn' me' Hseq Hcs' Hcu' Hcn' Hce' Htu' es' wcuts' (RCrowd calls sB) Hk') as Hm.
  cbv zeta in Hm. unfold m_crowd in Hm. cbn [rc_callers rc_schedule] in Hm. fold x in Hm. assert (H5 := H4). fold calls in H5.
  rewrite H5 in Hm. cbn [fst snd] in Hm. fold x' calls ls in Hm.
  destruct (Hm Hap) as (A1 & A2 & known & eg & known' & ss & l & B1 & B2 & B3 & B4 & B5 & B6 & B7 & B8).
  { intros i j hi hj li lj o o' t Hne Hni Hnj Ho Ho' He Hw.
    destruct i as [|i]; cbn in Hni.
    - injection Hni as <- <-. destruct Ho as [<-|[]]. exact He.
    - apply nth_error_In in Hni. pose proof (Hno _ _ _ Hni Ho). destruct o; simpl in *; contradiction. }
  split; [exact A1|]. split; [exact A2|]. exists known, eg, known', ss, l. do 6 (split; [assumption|]). split; [|split; [|assumption]].
  - apply (B7 0 [RExtend s] [a] h'); reflexivity.
  - intros i li rs hi Hl Hp. apply (B7 (Datatypes.S i) li rs hi); [exact Hl|exact Hp].
Qed.

Lemma r_two_merge_end : forall S NP EP SE BE BE' E (seqb : S -> S -> bool)
  (cs : codec BE S) (cu : codec BE (Id KUlid)) (cn : codec BE NP) (ce : codec BE EP)
  (cs' : codec BE' S) (cu' : codec BE' (Id KUlid)) (cn' : codec BE' NP) (ce' : codec BE' EP) mn me mn' me',
  (forall a b, seqb a b = true <-> a = b) ->
  codec_ok cs -> codec_ok cu -> codec_ok cn -> codec_ok ce -> codec_total cu ->
  codec_ok cs' -> codec_ok cu' -> codec_ok cn' -> codec_ok ce' -> codec_total cu' ->
  forall (es : list (repoch (S := S) (NP := NP) (EP := EP) (SE := SE) (E := E))) (ts : list (rhandle * list (rop S NP EP E)))
    (es' : list (mepoch (S := S) (NP := NP) (EP := EP) (SE := SE) (E := (rdf_error S (sled_index_error S (Id KUlid) SE BE) (sled_error SE BE)))))
    (ts' : list (rhandle * list (rop S NP EP (rdf_error S (sled_index_error S (Id KUlid) SE BE) (sled_error SE BE)))))
    (wcuts wcuts' : nat -> nat -> cutting) (cuts cuts' : list bytes)
    (schedule : list (who * option SE)) (h h' : rhandle) a psA psB d',
  NoDup (flat_map epoch_keys es ++ callers_keys ts) -> Forall RdfSledSpec.calm es ->
  m_apart (SE := SE) cs' cu' cn' ce' mn' me' es' rdb_new ->
  (forall h l o, In (h, l) ts' -> In o l -> match o with RRemoveNode _ | RRemoveEdge _ => False | _ => True end) ->
  let x := m_epochs cs' cu' cn' ce' mn' me' es' rdb_new in
  let d := (rs_epochs cs cu cn ce mn me es rdb_new, x) in
  let p := rs_merge_both cs cu cn ce cs' cu' cn' ce' mn' me' cuts cuts' h in
  let writers := rl_callers cs cu cn ce mn me wcuts 0 ts in
  let others := rl_callers cs' cu' cn' ce' mn' me' wcuts' 1 ts' in
  interleave2 schedule p writers others d = (Ret (a, h'), psA, psB, d') ->
  let seen := during2 schedule p writers others d in
  let x' := snd d' in
  let names := id_now (SE := SE) cs' cu' x' in
  exists s, r_handed2 cs cu cn ce seen (fst d') (fun y => In (Mine, Some y) schedule) ts s /\
    (a = Ok tt -> r_complete2 cs cu cn ce seen (fst d') s) /\
  let calls := (h, [RMerge s]) :: ts' in
  let ls := map snd calls in
  (NoDup (flat_map m_keys es' ++ callers_keys calls) ->
   one_to_one (name_now (SE := SE) cs' cu' x') names /\
   (forall n i, name_now (SE := SE) cs' cu' x n = Some i -> name_now (SE := SE) cs' cu' x' n = Some i) /\
   exists known eg known' ss l,
     (forall n, name_now (SE := SE) cs' cu' x n <> None <-> In n known) /\
     (forall n, name_now (SE := SE) cs' cu' x' n <> None <-> In n known') /\
     named (flat_map given (concat ls)) known known' /\
     m_effects (BE := BE') seqb mn' me' (by_name names) es' [] e_empty known eg /\
     Forall2 (r_log_among_so_far (SE := SE) (BE := BE') seqb known known') ls ss /\ shuffle ss l /\
     (exists l0, nth_error ss 0 = Some l0 /\ r_log_among seqb known known' [RMerge s] [a] l0) /\
     (forall i li rs hi, nth_error (map snd ts') i = Some li -> nth_error psB i = Some (Ret (rs, hi)) ->
        exists si, nth_error ss (Datatypes.S i) = Some si /\ r_log_among seqb known known' li rs si) /\
     rs_shows SE cs' cu' cn' ce' x' (e_run seqb mn' me' (by_name names) known' l eg)).
Proof.
  intros S NP EP SE BE BE' E seqb cs cu cn ce cs' cu' cn' ce' mn me mn' me' Hseq Hcs Hcu Hcn Hce Htu Hcs' Hcu' Hcn' Hce' Htu'
    es ts es' ts' wcuts wcuts' cuts cuts' schedule h h' a psA psB d' Hnd Hcalm Hap Hno x d p writers others Hi seen x' names.
  destruct (r_two_merge _ _ _ _ _ _ _ seqb cs cu cn ce cs' cu' cn' ce' mn me mn' me' Hseq Hcs Hcu Hcn Hce Htu es ts ts' wcuts wcuts' cuts cuts' x schedule
    h h' a psA psB d' Hnd Hcalm Hi) as (s & H1 & H2 & sB & H3 & H4).
  exists s. split; [exact H1|]. split; [exact H2|]. intros calls ls Hk.
  assert (Hk' : NoDup (flat_map m_keys (es' ++ [MTogether wcuts' (RCrowd calls sB)]))).
  { rewrite flat_map_app. cbn [flat_map m_keys rc_callers]. now rewrite app_nil_r. }
  pose proof (main_mixed seqb cs' cu' cn' ce' mn' me' Hseq Hcs' Hcu' Hcn' Hce' Htu' es' wcuts' (RCrowd calls sB) Hk') as Hm.
  cbv zeta in Hm. unfold m_crowd in Hm. cbn [rc_callers rc_schedule] in Hm. fold x in Hm. assert (H5 := H4). fold calls in H5.
  rewrite H5 in Hm. cbn [fst snd] in Hm. fold x' calls ls in Hm.
  destruct (Hm Hap) as (A1 & A2 & known & eg & known' & ss & l & B1 & B2 & B3 & B4 & B5 & B6 & B7 & B8).
  { intros i j hi hj li lj o o' t Hne Hni Hnj Ho Ho' He Hw.
    destruct i as [|i]; cbn in Hni.
    - injection Hni as <- <-. destruct Ho as [<-|[]]. exact He.
    - apply nth_error_In in Hni. pose proof (Hno _ _ _ Hni Ho). destruct o; simpl in *; contradiction. }
  split; [exact A1|]. split; [exact A2|]. exists known, eg, known', ss, l. do 6 (split; [assumption|]). split; [|split; [|assumption]].
  - apply (B7 0 [RMerge s] [a] h'); reflexivity.
  - intros i li rs hi Hl Hp. apply (B7 (Datatypes.S i) li rs hi); [exact Hl|exact Hp].
Qed.
