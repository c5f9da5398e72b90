(** What try_eq of two RDF stores over sled tells when both are in use. *)
From Coq Require Import Arith NArith List Bool Sorted.
From Verif Require Import Bytes BytesFacts OMap OMapFacts Core IdType IdTypeFacts Store Mem MemIndex Spec GenSpec
  CodecFacts ListFacts MemFacts MemSim History MemTop Prog ProgFacts Sled SledHistory SledSched SledDb SledOps SledRead SledTables SledLeaf SledLeafFacts SledLazy
  SledIndex SledIndexFacts Rdf RdfSpec RdfTop RdfSled RdfSledSpec RdfSledMain RdfSledExactTop
  SledReadTop RdfSledReadTop SledCopy SledCopyFacts RdfCopySpec RdfSledCopy RdfSledEqLive RdfSledEqLiveFacts RdfSledEqLiveTop
  SledTwo SledTwoFacts SledTwoTop SledEqTwo SledEqTwoFacts SledEqTwoTop SledEqTwoAlone RdfSledTwo SledReaders SledLeafFacts RdfSledTwoTop RdfSledEqTwo RdfSledEqTwoFacts SledBeside RdfSledLeaf.
Import ListNotations.

(** What the two loops have in common: where each of the four readings ended. *)
Section Settle.
Context {I NP EP L R : Type} (ieqb : I -> I -> bool) (neqb : NP -> NP -> bool) (eeqb : EP -> EP -> bool).
Notation eq := (try_eq (L := L) (R := R) ieqb neqb eeqb).
Notation zn := (zip_longest_eq (L := L) (R := R) (pair_eqb ieqb neqb)).
Notation ze := (zip_longest_eq (L := L) (R := R) (pair_eqb (triple_eqb ieqb) eeqb)).
Lemma eq_decided ns es ns' es' a : zn ns ns' = a -> a <> Ok true -> eq ns es ns' es' = a.
Proof. intros E N. unfold try_eq. rewrite E. destruct a as [[|]|e]; auto. congruence. Qed.
Lemma eq_onward ns es ns' es' : zn ns ns' = Ok true -> eq ns es ns' es' = ze es es'.
Proof. intros E. unfold try_eq. now rewrite E. Qed.
End Settle.
Lemma other_open {A L R} (x : result (lr_error unit R) unit * list (result L A)) : snd x <> [] -> zip_other x <> Ok true.
Proof. destruct x as [[u|[u|e]] [|[l|e'] ls]]; simpl; congruence. Qed.
Lemma other_left {A L R} (x : result (lr_error unit R) unit * list (result L A)) : fst x <> Ok tt -> zip_other x <> Ok true.
Proof. destruct x as [[[]|[u|e]] [|[l|e'] ls]]; simpl; congruence. Qed.
Lemma ok_tt_dec {X} (r : result X unit) : r = Ok tt \/ r <> Ok tt.
Proof. destruct r as [[]|x]; [auto|right; discriminate]. Qed.

Lemma req_two : forall S NP EP SE BE BE' E E' (seqb : S -> S -> bool) (neqb : NP -> NP -> bool) (eeqb : EP -> EP -> bool)
  (cs : codec BE S) (cu : codec BE (Id KUlid)) (cn : codec BE NP) (ce : codec BE EP)
  (cs' : codec BE' S) (cu' : codec BE' (Id KUlid)) (cn' : codec BE' NP) (ce' : codec BE' EP) mn me mn' me',
  (forall a b, seqb a b = true <-> a = b) ->
  codec_ok cs -> codec_ok cu -> codec_ok cn -> codec_ok ce -> codec_total cu ->
  codec_ok cs' -> codec_ok cu' -> codec_ok cn' -> codec_ok ce' -> codec_total cu' ->
  forall (es : list (repoch (S := S) (NP := NP) (EP := EP) (SE := SE) (E := E))) (ts : list (rhandle * list (rop S NP EP E))) (wcuts : nat -> nat -> cutting)
    (es' : list (repoch (S := S) (NP := NP) (EP := EP) (SE := SE) (E := E'))) (ts' : list (rhandle * list (rop S NP EP E'))) (wcuts' : nat -> nat -> cutting)
    (cuts ecuts cuts' ecuts' : list bytes) (schedule : list (who * option SE)) a psA' psB' d',
  NoDup (flat_map epoch_keys es ++ callers_keys ts) -> Forall RdfSledSpec.calm es ->
  NoDup (flat_map epoch_keys es' ++ callers_keys ts') -> Forall RdfSledSpec.calm es' ->
  let d := (rs_epochs cs cu cn ce mn me es rdb_new, rs_epochs cs' cu' cn' ce' mn' me' es' rdb_new) in
  let p := req_both seqb neqb eeqb cs cu cn ce cs' cu' cn' ce' cuts ecuts cuts' ecuts' in
  let ws := rl_callers cs cu cn ce mn me wcuts 0 ts in
  let ws' := rl_callers cs' cu' cn' ce' mn' me' wcuts' 0 ts' in
  interleave2 schedule p ws ws' d = (Ret a, psA', psB', d') ->
  let seen := during2 schedule p ws ws' d in
  let seen' := during2_second schedule p ws ws' d in
  let eq := try_eq (entity_eqb seqb) neqb eeqb in
  exists s s', a = eq (rs_nodes s) (rs_edges s) (rs_nodes s') (rs_edges s') /\
    r_handed2 cs cu cn ce seen (fst d') (fun y => In (Mine, Some y) schedule) ts s /\
    r_handed2 cs' cu' cn' ce' seen' (snd d') (fun y => In (Mine, Some y) schedule) ts' s' /\
    (r_all_nodes2 cs cu cn seen (fst d') (rs_nodes s) \/ forall more edges edges', eq (rs_nodes s ++ more) edges (rs_nodes s') edges' = a) /\
    (r_all_nodes2 cs' cu' cn' seen' (snd d') (rs_nodes s') \/ forall more edges edges', eq (rs_nodes s) edges (rs_nodes s' ++ more) edges' = a) /\
    (r_all_edges2 cs cu ce seen (fst d') (rs_edges s) \/ forall more, eq (rs_nodes s) (rs_edges s ++ more) (rs_nodes s') (rs_edges s') = a) /\
    (r_all_edges2 cs' cu' ce' seen' (snd d') (rs_edges s') \/ forall more, eq (rs_nodes s) (rs_edges s) (rs_nodes s') (rs_edges s' ++ more) = a).
Proof.
  intros S NP EP SE BE BE' E E' seqb neqb eeqb cs cu cn ce cs' cu' cn' ce' mn me mn' me' Hseq Hcs Hcu Hcn Hce Htu Hcs' Hcu' Hcn' Hce' Htu'
    es ts wcuts es' ts' wcuts' cuts ecuts cuts' ecuts' schedule a psA' psB' d' Hd Hcalm Hd' Hcalm' d p ws ws' Hi seen seen' eq.
  pose (I := Id KUlid).
  pose (errA := rdf_error S (sled_index_error S (Id KUlid) SE BE) (sled_error SE BE)).
  pose (errB := rdf_error S (sled_index_error S (Id KUlid) SE BE') (sled_error SE BE')).
  set (nodeq := pair_eqb (entity_eqb seqb) neqb). set (edgeq := pair_eqb (triple_eqb (entity_eqb seqb)) eeqb).
  pose (ni := shown_item (SE := SE) (node_item cn) (rs_show_pair cs cu)). pose (ni' := shown_item (SE := SE) (node_item cn') (rs_show_pair cs' cu')).
  pose (ei := shown_item (SE := SE) (edge_of_entry ce SPO) (rs_show_edge cs cu)). pose (ei' := shown_item (SE := SE) (edge_of_entry ce' SPO) (rs_show_edge cs' cu')).
  pose (nt := fun d : rdb => t_node (r_trees d)). pose (et := fun d : rdb => t_spo (r_trees d)).
  pose (zn := zipped2 nodeq nt ni nt ni' cuts cuts'). pose (ze := zipped2 edgeq et ei et ei' ecuts ecuts').
  assert (acct p (fun m a => exists m1 m2 r, m = m1 ++ m2 /\ zn m1 r /\ ((r = Ok true /\ ze m2 a) \/ (r <> Ok true /\ m2 = [] /\ a = r)))) as Hacct.
  { unfold p, req_both. apply acct_bind. eapply acct_mono; [|apply acct_zip2]. intros m1 r Hr. destruct r as [[|]|e].
    - eapply acct_mono; [|apply acct_zip2]. intros m2 b Hb. exists m1, m2, (Ok true). auto.
    - cbn [acct]. exists m1, [], (Ok false). split; auto. split; auto. right. split; [discriminate|auto].
    - cbn [acct]. exists m1, [], (Err e). split; auto. split; auto. right. split; [discriminate|auto]. }
  pose (LO := (result (lr_error (result (lr_error errA errB) bool) errA) unit * option (cursor * list (ev (SE := SE) rdb) * Prop))%type).
  pose (RO := fun A : Type => (result (lr_error unit errB) unit * list (result errA A))%type).
  pose (wa := @inr (LO * option LO) (list (routcome (S := S) (SE := SE) (BE := BE) (E := E)) * rhandle)).
  pose (wb := @inr (RO (entity S * NP)%type * option (RO (triple (entity S) * EP)%type)) (list (routcome (S := S) (SE := SE) (BE := BE') (E := E')) * rhandle)).
  pose proof (interleave2_wraps wb wa schedule p ws ws' d) as Hw. rewrite Hi in Hw.
  destruct (run2_second schedule p _ _ d _ _ _ _ _ Hacct Hw) as (m & sA & sB & (m1 & m2 & r & -> & Hzn & Hze) & HA & HB & H1 & H2).
  rewrite lefts_app in HA. rewrite rights_app in HB.
  assert (Hmet : forall y, met sA y -> In (Mine, Some y) schedule) by (intros y Hy; exact (H1 0 (Some y) Hy)).
  assert (Hmet' : forall y, met sB y -> In (Mine, Some y) schedule) by (intros y Hy; exact (H2 0 (Some y) Hy)).
  assert (HfirstDB : forall fn fe st more (x : LO * option LO), follows (r_reader (SE := SE) cs cu cn ce fn fe cuts ecuts st more) (lefts m1 ++ lefts m2) x ->
    exists s, r_read fn fe st more x s /\ r_handed2 cs cu cn ce seen (fst d') (fun y => In (Mine, Some y) schedule) ts s /\
      (fst (fst x) = Ok tt -> r_all_nodes2 cs cu cn seen (fst d') (rs_nodes s)) /\ (edges_done x -> r_all_edges2 cs cu ce seen (fst d') (rs_edges s))).
  { intros fn fe st more x Hf.
    assert (Hq : follows (bind (r_reader (SE := SE) cs cu cn ce fn fe cuts ecuts st more) (fun x => Ret (inl x))) (lefts m1 ++ lefts m2)
      (inl x : _ + (list (routcome (S := S) (SE := SE) (BE := BE) (E := E)) * rhandle))).
    { rewrite <- (app_nil_r (lefts m1 ++ lefts m2)). eapply follows_bind; [exact Hf|]. reflexivity. }
    destruct (HA _ _ Hq) as [Er Es].
    assert (Ex : interleave sA (beside (r_reader (SE := SE) cs cu cn ce fn fe cuts ecuts st more) ws) (rs_epochs cs cu cn ce mn me es rdb_new) =
      (Ret (inl x) :: map (fun q => bind q (fun b => Ret (wa b))) psA', fst d')) by exact Er.
    apply (r_reader_beside cs cu cn ce fn fe seqb mn me Hseq Hcs Hcu Hcn Hce Htu es ts wcuts cuts ecuts sA st more x seen _ (fst d') Hd Hcalm); [| |exact Hmet|].
    - unfold has_read. fold ws. rewrite Ex. reflexivity.
    - intros d1 D1. eapply during2_wraps. apply (Es d1). exact D1.
    - fold ws. rewrite Ex. reflexivity. }
  assert (HsecondDB : forall st more (x : RO (entity S * NP)%type * option (RO (triple (entity S) * EP)%type)),
    follows (r_reader (SE := SE) cs' cu' cn' ce' (zip_item nodeq) (zip_item edgeq) cuts' ecuts' st more) (rights m1 ++ rights m2) x ->
    exists s, r_read (zip_item nodeq) (zip_item edgeq) st more x s /\ r_handed2 cs' cu' cn' ce' seen' (snd d') (fun y => In (Mine, Some y) schedule) ts' s /\
      (fst (fst x) = Ok tt -> r_all_nodes2 cs' cu' cn' seen' (snd d') (rs_nodes s)) /\ (edges_done x -> r_all_edges2 cs' cu' ce' seen' (snd d') (rs_edges s))).
  { intros st more x Hf.
    assert (Hq : follows (bind (r_reader (SE := SE) cs' cu' cn' ce' (zip_item nodeq) (zip_item edgeq) cuts' ecuts' st more) (fun x => Ret (inl x))) (rights m1 ++ rights m2)
      (inl x : _ + (list (routcome (S := S) (SE := SE) (BE := BE') (E := E')) * rhandle))).
    { rewrite <- (app_nil_r (rights m1 ++ rights m2)). eapply follows_bind; [exact Hf|]. reflexivity. }
    destruct (HB _ _ Hq) as [Er Es].
    assert (Ex : interleave sB (beside (r_reader (SE := SE) cs' cu' cn' ce' (zip_item nodeq) (zip_item edgeq) cuts' ecuts' st more) ws') (rs_epochs cs' cu' cn' ce' mn' me' es' rdb_new) =
      (Ret (inl x) :: map (fun q => bind q (fun b => Ret (wb b))) psB', snd d')) by exact Er.
    apply (r_reader_beside cs' cu' cn' ce' (zip_item nodeq) (zip_item edgeq) seqb mn' me' Hseq Hcs' Hcu' Hcn' Hce' Htu' es' ts' wcuts' cuts' ecuts' sB st more x seen' _ (snd d') Hd' Hcalm'); [| |exact Hmet'|].
    - unfold has_read. fold ws'. rewrite Ex. reflexivity.
    - intros d1 D1. eapply during2_second_wraps. apply (Es d1). exact D1.
    - fold ws'. rewrite Ex. reflexivity. }
  pose (fnb := by_list (EL := result (lr_error errA errB) bool) (same_next (EA := errA) nodeq nt ni')).
  pose (feb := by_list (EL := result (lr_error errA errB) bool) (same_next (EA := errA) edgeq et ei')).
  destruct (zipped2_loops _ _ _ _ _ _ _ _ _ Hzn) as (stN & rN & stN' & FN & RN).
  destruct Hze as [[-> Hze]|(Hr & -> & ->)].
  - destruct (zipped2_loops _ _ _ _ _ _ _ _ _ Hze) as (stE & rE & stE' & FE & RE).
    destruct (HfirstDB fnb feb stN (Some stE) ((rN, stN'), Some (rE, stE'))) as (s & [EN EE] & Hh & An & Ae).
    { unfold r_reader. eapply follows_bind; [exact FN|]. rewrite <- (app_nil_r (lefts m2)). eapply follows_bind; [exact FE|]. reflexivity. }
    cbn [fst snd] in EN, EE, An. destruct (RN _ (eq_sym EN)) as (outN & FN' & ZN & SN). destruct (RE _ (eq_sym EE)) as (outE & FE' & ZE & SE').
    destruct (HsecondDB (rs_nodes s) (Some (rs_edges s)) (outN, Some outE)) as (s' & [EN' EE'] & Hh' & An' & Ae').
    { unfold r_reader. eapply follows_bind; [exact FN'|]. rewrite <- (app_nil_r (rights m2)). eapply follows_bind; [exact FE'|]. reflexivity. }
    cbn [fst snd] in EN', EE', An'.
    assert (zip_longest_eq nodeq (rs_nodes s) (rs_nodes s') = Ok true) as TN by (rewrite <- zip_other_eq; rewrite EN' in ZN; auto).
    assert (zip_longest_eq edgeq (rs_edges s) (rs_edges s') = a) as TE by (rewrite <- zip_other_eq; rewrite EE' in ZE; auto).
    assert (rN = Ok tt) as HrN by (destruct SN as [SN|SN]; auto; destruct (other_open _ SN); auto).
    assert (fst outN = Ok tt) as HoN by (destruct (ok_tt_dec (fst outN)) as [Ho|Ho]; auto; destruct (other_left _ Ho); auto).
    exists s, s'. split; [symmetry; rewrite <- TE; apply eq_onward; exact TN|]. split; [exact Hh|]. split; [exact Hh'|].
    split; [left; apply An; exact HrN|]. split; [left; apply An'; exact HoN|]. split.
    + destruct SE' as [SE'|SE'].
      * left. apply Ae. exists (rE, stE'). auto.
      * right. intros more. unfold eq. rewrite (eq_onward _ _ _ _ _ _ _ TN). rewrite EE' in SE'. fold edgeq. rewrite (left_settled edgeq _ _ _ SE'). exact TE.
    + destruct (ok_tt_dec (fst outE)) as [Ho|Ho].
      * left. apply Ae'. exists outE. auto.
      * right. intros more. unfold eq. rewrite (eq_onward _ _ _ _ _ _ _ TN). rewrite EE' in Ho. fold edgeq. rewrite (right_settled edgeq _ _ _ Ho). exact TE.
  - destruct (HfirstDB fnb feb stN None ((rN, stN'), None)) as (s & [EN EE] & Hh & An & _).
    { unfold r_reader. eapply follows_bind; [exact FN|]. reflexivity. }
    cbn [fst snd] in EN, EE, An. destruct (RN _ (eq_sym EN)) as (outN & FN' & ZN & SN).
    destruct (HsecondDB (rs_nodes s) None (outN, None)) as (s' & [EN' EE'] & Hh' & An' & _).
    { unfold r_reader. eapply follows_bind; [exact FN'|]. reflexivity. }
    cbn [fst snd] in EN', EE', An'.
    assert (zip_longest_eq nodeq (rs_nodes s) (rs_nodes s') = r) as TN by (rewrite <- zip_other_eq; rewrite EN' in ZN; auto).
    exists s, s'. split; [symmetry; apply eq_decided; auto|]. split; [exact Hh|]. split; [exact Hh'|]. split; [|split; [|split]].
    + destruct SN as [SN|SN]; [left; apply An; exact SN|right]. intros more xs xs'. apply eq_decided; auto. rewrite EN' in SN.
      fold nodeq. rewrite (left_settled nodeq _ _ _ SN). exact TN.
    + destruct (ok_tt_dec (fst outN)) as [Ho|Ho]; [left; apply An'; exact Ho|right]. intros more xs xs'. apply eq_decided; auto. rewrite EN' in Ho.
      fold nodeq. rewrite (right_settled nodeq _ _ _ Ho). exact TN.
    + right. intros more. apply eq_decided; auto.
    + right. intros more. apply eq_decided; auto.
Qed.

Lemma zip_both_true {A P L R} (ea : A -> A -> bool) (ep : P -> P -> bool) (Hea : forall a b, ea a b = true <-> a = b)
    (ls : list (result L (A * P))) (xs : list (result R (A * P))) : zip_longest_eq (pair_eqb ea ep) ls xs = Ok true ->
  (forall a p, In (Ok (a, p)) ls -> exists q, In (Ok (a, q)) xs /\ ep p q = true) /\
  (forall a q, In (Ok (a, q)) xs -> exists p, In (Ok (a, p)) ls /\ ep p q = true).
Proof.
  intros H. destruct (zip_true ea ep Hea ls xs H) as [H1 H2]. split; auto. intros a p Hin.
  destruct (H1 _ Hin) as (a' & p' & q & [= -> ->] & Hq). exists q. auto.
Qed.
Lemma req_two_true : forall S NP EP SE BE BE' E E' (seqb : S -> S -> bool) (neqb : NP -> NP -> bool) (eeqb : EP -> EP -> bool)
  (cs : codec BE S) (cu : codec BE (Id KUlid)) (cn : codec BE NP) (ce : codec BE EP)
  (cs' : codec BE' S) (cu' : codec BE' (Id KUlid)) (cn' : codec BE' NP) (ce' : codec BE' EP) mn me mn' me',
  (forall a b, seqb a b = true <-> a = b) ->
  codec_ok cs -> codec_ok cu -> codec_ok cn -> codec_ok ce -> codec_total cu ->
  codec_ok cs' -> codec_ok cu' -> codec_ok cn' -> codec_ok ce' -> codec_total cu' ->
  forall (es : list (repoch (S := S) (NP := NP) (EP := EP) (SE := SE) (E := E))) (ts : list (rhandle * list (rop S NP EP E))) (wcuts : nat -> nat -> cutting)
    (es' : list (repoch (S := S) (NP := NP) (EP := EP) (SE := SE) (E := E'))) (ts' : list (rhandle * list (rop S NP EP E'))) (wcuts' : nat -> nat -> cutting)
    (cuts ecuts cuts' ecuts' : list bytes) (schedule : list (who * option SE))  psA' psB' d',
  NoDup (flat_map epoch_keys es ++ callers_keys ts) -> Forall RdfSledSpec.calm es ->
  NoDup (flat_map epoch_keys es' ++ callers_keys ts') -> Forall RdfSledSpec.calm es' ->
  let d := (rs_epochs cs cu cn ce mn me es rdb_new, rs_epochs cs' cu' cn' ce' mn' me' es' rdb_new) in
  let p := req_both seqb neqb eeqb cs cu cn ce cs' cu' cn' ce' cuts ecuts cuts' ecuts' in
  let ws := rl_callers cs cu cn ce mn me wcuts 0 ts in
  let ws' := rl_callers cs' cu' cn' ce' mn' me' wcuts' 0 ts' in
  interleave2 schedule p ws ws' d = (Ret (Ok true), psA', psB', d') ->
  let seen := during2 schedule p ws ws' d in
  let seen' := during2_second schedule p ws ws' d in
  let names := id_now (SE := SE) cs cu (fst d') in
  let names' := id_now (SE := SE) cs' cu' (snd d') in
  (forall e, node_stays SE cs cu cn seen names e -> exists e2 q q', by_name names e2 = by_name names e /\
     node_met SE cs cu cn seen e2 q /\ node_met SE cs' cu' cn' seen' e2 q' /\ neqb q q' = true) /\
  (forall e, node_stays SE cs' cu' cn' seen' names' e -> exists e2 q q', by_name names' e2 = by_name names' e /\
     node_met SE cs cu cn seen e2 q /\ node_met SE cs' cu' cn' seen' e2 q' /\ neqb q q' = true) /\
  (forall t, edge_stays SE cs cu ce seen names t -> exists t2 q q', triple_map (by_name names) t2 = triple_map (by_name names) t /\
     edge_met SE cs cu ce seen t2 q /\ edge_met SE cs' cu' ce' seen' t2 q' /\ eeqb q q' = true) /\
  (forall t, edge_stays SE cs' cu' ce' seen' names' t -> exists t2 q q', triple_map (by_name names') t2 = triple_map (by_name names') t /\
     edge_met SE cs cu ce seen t2 q /\ edge_met SE cs' cu' ce' seen' t2 q' /\ eeqb q q' = true).
Proof.
  intros S NP EP SE BE BE' E E' seqb neqb eeqb cs cu cn ce cs' cu' cn' ce' mn me mn' me' Hseq Hcs Hcu Hcn Hce Htu Hcs' Hcu' Hcn' Hce' Htu'
    es ts wcuts es' ts' wcuts' cuts ecuts cuts' ecuts' schedule psA' psB' d' Hd Hcalm Hd' Hcalm' d p ws ws' Hi seen seen' names names'.
  destruct (req_two S NP EP SE BE BE' E E' seqb neqb eeqb cs cu cn ce cs' cu' cn' ce' mn me mn' me' Hseq Hcs Hcu Hcn Hce Htu Hcs' Hcu' Hcn' Hce' Htu'
    es ts wcuts es' ts' wcuts' cuts ecuts cuts' ecuts' schedule (Ok true) psA' psB' d' Hd Hcalm Hd' Hcalm' Hi)
    as (s & s' & T & (A1 & A2 & _) & (B1 & B2 & _) & An & An' & Ae & Ae').
  fold d p ws ws' seen seen' in A1, A2, B1, B2, An, An', Ae, Ae'.
  pose (x := GraphStorageError MissingPropertyData : rdf_error S (sled_index_error S (Id KUlid) SE BE) (sled_error SE BE)).
  pose (x' := GraphStorageError MissingPropertyData : rdf_error S (sled_index_error S (Id KUlid) SE BE') (sled_error SE BE')).
  symmetry in T. destruct (try_true _ _ _ _ _ _ _ T) as [T1 T2].
  destruct An as [An|An]; [|exfalso; destruct (try_true _ _ _ _ _ _ _ (An [Err x] [] [])) as [T3 _]; exact (zip_more' _ _ _ x T1 T3)].
  destruct An' as [An'|An']; [|exfalso; destruct (try_true _ _ _ _ _ _ _ (An' [Err x'] [] [])) as [T3 _]; exact (zip_more _ _ _ x' T1 T3)].
  destruct Ae as [Ae|Ae]; [|exfalso; destruct (try_true _ _ _ _ _ _ _ (Ae [Err x])) as [_ T3]; exact (zip_more' _ _ _ x T2 T3)].
  destruct Ae' as [Ae'|Ae']; [|exfalso; destruct (try_true _ _ _ _ _ _ _ (Ae' [Err x'])) as [_ T3]; exact (zip_more _ _ _ x' T2 T3)].
  destruct (zip_both_true _ _ (RdfTop.entity_eqb_eq seqb Hseq) _ _ T1) as [N1 N2].
  destruct (zip_both_true _ _ (RdfTop.entity3_eqb_eq seqb Hseq) _ _ T2) as [E1 E2].
  split; [|split; [|split]]; intros e He.
  - apply An in He. apply in_map_iff in He. destruct He as ([e2 q] & Ee & Hin). apply ok_items_in in Hin.
    destruct (N1 e2 q Hin) as (q' & Hin' & Eq). exists e2, q, q'. split; [exact Ee|]. split; [exact (A1 _ _ Hin)|]. split; [exact (B1 _ _ Hin')|exact Eq].
  - apply An' in He. apply in_map_iff in He. destruct He as ([e2 q'] & Ee & Hin'). apply ok_items_in in Hin'.
    destruct (N2 e2 q' Hin') as (q & Hin & Eq). exists e2, q, q'. split; [exact Ee|]. split; [exact (A1 _ _ Hin)|]. split; [exact (B1 _ _ Hin')|exact Eq].
  - apply Ae in He. apply in_map_iff in He. destruct He as ([e2 q] & Ee & Hin). apply ok_items_in in Hin.
    destruct (E1 e2 q Hin) as (q' & Hin' & Eq). exists e2, q, q'. split; [exact Ee|]. split; [exact (A2 _ _ Hin)|]. split; [exact (B2 _ _ Hin')|exact Eq].
  - apply Ae' in He. apply in_map_iff in He. destruct He as ([e2 q'] & Ee & Hin'). apply ok_items_in in Hin'.
    destruct (E2 e2 q' Hin') as (q & Hin & Eq). exists e2, q, q'. split; [exact Ee|]. split; [exact (A2 _ _ Hin)|]. split; [exact (B2 _ _ Hin')|exact Eq].
Qed.

(** ** Nobody else *)
Section Alone.
Context {S NP EP SE BE : Type} (cs : codec BE S) (cu : codec BE (Id KUlid)) (cn : codec BE NP) (ce : codec BE EP).
Notation err := (rdf_error S (sled_index_error S (Id KUlid) SE BE) (sled_error SE BE)).
Lemma rexec_map {X Y} (f : X -> prog rdb SE Y) d l : (forall x, still (f x) d) -> exec (map_prog f l) [] d = (map (fun x => ret_of (f x) [] d) l, d, []).
Proof. intros H. induction l as [|x l IH]; cbn [map_prog map exec]; auto. rewrite exec_bind, (H x), exec_bind, IH. reflexivity. Qed.
Lemma shown_still {A B} (item : bytes * bytes -> prog db SE (result (sled_error SE BE) A)) (show : A -> prog rdb SE (result err B)) kv d :
  (forall kv, readonly (item kv)) -> (forall a, readonly (show a)) -> still (shown_item item show kv) d.
Proof.
  intros Hi Hs. apply readonly_still. apply readonly_bind; [now apply ro_graph, ro_next|]. intros [a|e]; [apply Hs|constructor].
Qed.
Lemma ro_node_item kv : readonly (node_item (SE := SE) cn kv).
Proof. apply readonly_bind_ok; [constructor|]. intros. apply readonly_bind_ok; [|intros; constructor]. unfold bincode. constructor. Qed.
Lemma ro_edge_entry kv : readonly (edge_of_entry (SE := SE) ce SPO kv).
Proof. apply readonly_bind_ok; [constructor|]. intros. apply ro_edge_item. Qed.
Lemma rnode_still kv d : still (shown_item (SE := SE) (node_item cn) (rs_show_pair cs cu) kv) d.
Proof. apply shown_still; [apply ro_node_item|apply ro_show_pair]. Qed.
Lemma redge_still kv d : still (shown_item (SE := SE) (edge_of_entry ce SPO) (rs_show_edge cs cu) kv) d.
Proof. apply shown_still; [apply ro_edge_entry|apply ro_show_edge]. Qed.
Lemma rnodes_alone d : ret_of (rs_iter_vertices cs cu cn) [] d = map (fun kv => ret_of (shown_item (SE := SE) (node_item cn) (rs_show_pair cs cu) kv) [] d) (t_node (r_trees d)).
Proof. unfold ret_of at 1, rs_iter_vertices, rs_scan. cbn [exec]. rewrite rexec_map; [reflexivity|]. intros kv. apply rnode_still. Qed.
Lemma redges_alone d : ret_of (rs_iter_edges cs cu ce SPO) [] d = map (fun kv => ret_of (shown_item (SE := SE) (edge_of_entry ce SPO) (rs_show_edge cs cu) kv) [] d) (t_spo (r_trees d)).
Proof. unfold ret_of at 1, rs_iter_edges, rs_scan. cbn [exec]. rewrite rexec_map; [reflexivity|]. intros kv. apply redge_still. Qed.
End Alone.
Lemma req_two_alone : forall S NP EP SE BE BE' (seqb : S -> S -> bool) (neqb : NP -> NP -> bool) (eeqb : EP -> EP -> bool)
  (cs : codec BE S) (cu : codec BE (Id KUlid)) (cn : codec BE NP) (ce : codec BE EP)
  (cs' : codec BE' S) (cu' : codec BE' (Id KUlid)) (cn' : codec BE' NP) (ce' : codec BE' EP) (cuts ecuts cuts' ecuts' : list bytes) (d d' : rdb),
  (forall x, om_sorted bytes_cmp (tbl x (r_trees d))) -> (forall x, om_sorted bytes_cmp (tbl x (r_trees d'))) ->
  ret_of (req_both (SE := SE) seqb neqb eeqb cs cu cn ce cs' cu' cn' ce' cuts ecuts cuts' ecuts') [] (d, d') =
  try_eq (entity_eqb seqb) neqb eeqb (ret_of (rs_iter_vertices cs cu cn) [] d) (ret_of (rs_iter_edges cs cu ce SPO) [] d)
    (ret_of (rs_iter_vertices cs' cu' cn') [] d') (ret_of (rs_iter_edges cs' cu' ce' SPO) [] d').
Proof.
  intros S NP EP SE BE BE' seqb neqb eeqb cs cu cn ce cs' cu' cn' ce' cuts ecuts cuts' ecuts' d d' Hs Hs'.
  unfold ret_of at 1, req_both.
  rewrite exec_bind, (zip_alone _ _ _ _ _ d d' (Hs TNode) (Hs' TNode) (fun kv => rnode_still cs cu cn kv d) (fun kv => rnode_still cs' cu' cn' kv d')).
  unfold try_eq. rewrite !rnodes_alone, !redges_alone. destruct (zip_longest_eq _ _ _) as [[|]|e]; cbn [exec]; auto.
  rewrite (zip_alone _ _ _ _ _ d d' (Hs TSpo) (Hs' TSpo) (fun kv => redge_still cs cu ce kv d) (fun kv => redge_still cs' cu' ce' kv d')). reflexivity.
Qed.
