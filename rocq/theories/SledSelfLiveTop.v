(** What a copy within one sled database does when others are using the database. *)
From Coq Require Import Arith NArith List Bool Lia Sorted.
From Verif Require Import Bytes OMap Core IdType Store Mem Spec History Prog ProgFacts Sled SledHistory SledTables SledTop
  SledLeaf SledLazy SledBeside SledCopy SledCopyFacts SledTwo SledTwoFacts SledTwoTop SledEqSameFacts SledSelfLive SledSelfLiveFacts.
From Verif Require Import SledSched SledRun SledCrash SledConcTop SledTornSpec SledMixSpec SledMixMain SledBeside.
Import ListNotations.

(** ** How many identifiers were drawn *)
Section Count.
Context {k : idkind} {SE BE ER : Type} (N : handle k -> nat).
Notation err := (sled_error SE BE).
Definition adds {A} (c : nat) (body : A -> handle k -> prog db SE (result err unit * handle k)) : Prop :=
  forall a h m (P : Prop) rh m' P', replay (body a h) m P = Some (rh, m', P') -> N (snd rh) = c + N h.
Lemma feed_count {A} c (body : A -> handle k -> prog db SE (result err unit * handle k)) : adds c body ->
  forall (xs : list (result ER A)) h m P a h' m' P', feed (by_list body) xs (Some (h, m, P)) = (a, Some (h', m', P')) ->
  N h' = c * length (before_error (trim (by_list body) xs (Some (h, m, P)))) + N h.
Proof.
  intros Hb. induction xs as [|[x|e] xs IH]; intros h m P a h' m' P' E; cbn [trim feed before_error length] in *.
  - injection E as _ -> _ _. lia.
  - cbn [by_list] in *. destruct (replay (body x h) m P) as [[[[[[]|e] h1] m1] P1]|] eqn:Er; cbn [fst snd] in *.
    + apply Hb in Er. cbn [snd] in Er. rewrite (IH _ _ _ _ _ _ _ E), Er. cbn [before_error length]. lia.
    + injection E as _ -> _ _. apply Hb in Er. cbn [snd] in Er. cbn [before_error length]. lia.
    + apply feed_none in E. discriminate.
  - injection E as _ -> _ _. lia.
Qed.
Lemma adds_and {A} (p : A -> prog db SE (result err unit)) : adds 0 (fun a h => and_handle h (p a)).
Proof.
  intros a h m P rh m' P' E. unfold and_handle in E. rewrite replay_bind in E. destruct (replay (p a) m P) as [[[x m1] P1]|]; [|discriminate].
  injection E as <- <- <-. reflexivity.
Qed.
End Count.
Lemma replay_and {k SE A} (h : handle k) (p : prog db SE A) m P rh m' P' : replay (and_handle h p) m P = Some (rh, m', P') -> snd rh = h.
Proof. unfold and_handle. rewrite replay_bind. destruct (replay p m P) as [[[x m1] P1]|]; [|discriminate]. intros [= <- <- <-]. reflexivity. Qed.

Section Trimmed.
Context {k : idkind} {NP EP SE BE ER H : Type}.
Notation err := (sled_error SE BE).
Definition trim_both {EL} (fn : Id k * NP -> H -> result EL unit * H) (fe : triple (Id k) * EP -> H -> result EL unit * H)
    (s : source k NP EP ER) (h : H) : source k NP EP ER :=
  Source (trim fn (src_nodes s) h)
    (match feed fn (src_nodes s) h with (Ok _, h1) => trim fe (src_edges s) h1 | (Err _, _) => [] end).
Context {EL : Type} (fn : Id k * NP -> H -> result EL unit * H) (fe : triple (Id k) * EP -> H -> result EL unit * H).
Lemma feed_trim_both s h : feed_both fn fe (trim_both fn fe s h) h = feed_both fn fe s h.
Proof.
  unfold feed_both, trim_both. cbn [src_nodes src_edges]. rewrite feed_trim. destruct (feed fn (src_nodes s) h) as [[u|e] h1]; auto. apply feed_trim.
Qed.
Lemma trim_both_prefix s h : (exists r, src_nodes s = src_nodes (trim_both fn fe s h) ++ r) /\ (exists r, src_edges s = src_edges (trim_both fn fe s h) ++ r).
Proof.
  unfold trim_both. cbn [src_nodes src_edges]. split; [apply trim_prefix|]. destruct (feed fn (src_nodes s) h) as [[u|e] h1]; [apply trim_prefix|eexists; reflexivity].
Qed.
Lemma trim_both_all s h : fst (feed_both fn fe s h) = Ok tt -> trim_both fn fe s h = s.
Proof.
  unfold feed_both, trim_both. destruct s as [ns es]. cbn [src_nodes src_edges]. destruct (feed fn ns h) as [[u|e] h1] eqn:E1; [|discriminate]. intros E2.
  f_equal; [eapply trim_all; rewrite E1; reflexivity|eapply trim_all; exact E2].
Qed.
End Trimmed.
Lemma both_count {k NP EP SE BE ER} (N : handle k -> nat) c (fn : Id k * NP -> handle k -> prog db SE (result (sled_error SE BE) unit * handle k))
    (fe : triple (Id k) * EP -> handle k -> prog db SE (result (sled_error SE BE) unit * handle k)) (s : source k NP EP ER) h m P a h' m' P' :
  adds N 0 fn -> adds N c fe -> feed_both (by_list fn) (by_list fe) s (Some (h, m, P)) = (a, Some (h', m', P')) ->
  N h' = c * length (before_error (src_edges (trim_both (by_list fn) (by_list fe) s (Some (h, m, P))))) + N h.
Proof.
  intros Hn He E. unfold feed_both, trim_both in *. cbn [src_edges].
  destruct (feed (by_list fn) (src_nodes s) (Some (h, m, P))) as [[u|e] [[[h1 m1] P1]|]] eqn:E1.
  - apply (feed_count N 0 fn Hn) in E1. rewrite (feed_count N c fe He _ _ _ _ _ _ _ _ E). lia.
  - apply feed_none in E. discriminate.
  - injection E as _ <- _ _. apply (feed_count N 0 fn Hn) in E1. cbn [before_error length]. lia.
  - discriminate.
Qed.

(** ** The reader *)
Lemma take_fed {k NP EP SE BE H EL} (cn : codec BE NP) (ce : codec BE EP) (fn : Id k * NP -> H -> result EL unit * H) fe cuts cuts' h m x :
  follows (take_over (SE := SE) cn ce fn fe cuts cuts' h) m x -> exists s, x = feed_both fn fe s h.
Proof.
  unfold take_over, loop_both. intros F. apply follows_inv in F. destruct F as (m1 & m2 & [r h1] & -> & F1 & F2). cbn [fst snd] in F2.
  apply loop_fed in F1. destruct F1 as [ns E1]. destruct r as [u|e].
  - apply loop_fed in F2. destruct F2 as [es E2]. exists (Source ns es). unfold feed_both. cbn [src_nodes src_edges]. rewrite <- E1. exact E2.
  - destruct m2; simpl in F2; [|contradiction]. exists (Source ns []). unfold feed_both. cbn [src_nodes src_edges]. rewrite <- E1. exact F2.
Qed.
Lemma ro_take {k NP EP SE BE H EL} (cn : codec BE NP) (ce : codec BE EP) (fn : Id k * NP -> H -> result EL unit * H) fe cuts cuts' h :
  readonly (take_over (SE := SE) cn ce fn fe cuts cuts' h).
Proof.
  unfold take_over, loop_both. apply readonly_bind; [apply ro_loop, ro_node_next|]. intros [[u|e] h1]; cbn [fst snd]; [apply ro_loop, ro_edge_next|constructor].
Qed.

(** ** The copy *)
Lemma joined_both {k NP EP SE BE EL H} (cn : codec BE NP) (ce : codec BE EP) (fn : Id k * NP -> H -> prog db SE (result EL unit * H)) fe cuts cuts' h :
  joined (over_both t_node t_spo (fun kv => next (node_read cn kv)) (fun kv => next (edge_read ce kv)) fn fe cuts cuts' h) (loop_both cn ce fn fe cuts cuts' h).
Proof.
  unfold over_both, loop_both. apply joined_bind; [apply joined_loop|]. intros [[u|e] h1]; cbn [fst snd]; [apply joined_loop|constructor].
Qed.

Lemma sorted_prefix {A} (R : A -> A -> Prop) l l' : StronglySorted R (l ++ l') -> StronglySorted R l.
Proof.
  induction l as [|x l IH]; simpl; intros Hs; [constructor|]. inversion Hs; subst. constructor; auto. apply Forall_app in H2. tauto.
Qed.
Lemma ok_items_app {E A} (l l' : list (result E A)) : ok_items (l ++ l') = ok_items l ++ ok_items l'.
Proof. unfold ok_items. induction l as [|[a|e] l IH]; cbn [app filter_map]; auto. now rewrite IH. Qed.

Section Self.
Context {k : idkind} {NP EP SE BE : Type} (cn : codec BE NP) (ce : codec BE EP) (mn : NP -> NP -> NP) (me : EP -> EP -> EP).
Notation err := (sled_error SE BE).
Notation op := (op k NP EP err).
Context (fn : Id k * NP -> handle k -> prog db SE (result err unit * handle k)) (fe : triple (Id k) * EP -> handle k -> prog db SE (result err unit * handle k))
  (mk : source k NP EP err -> op) (cg cu : nat).
Lemma self_beside (ls : list (life (k := k) (NP := NP) (EP := EP) (SE := SE) (E := err))) (cs : list (handle k * list op))
    (wcuts : nat -> nat -> cutting) (cuts cuts' : list bytes) (schedule : list (nat * option SE)) (h h' : handle k) a :
  cg + cu = 1 ->
  adds (fun h => g_pos (h_gen h)) 0 fn -> adds (fun h => g_pos (h_ulid h)) 0 fn ->
  adds (fun h => g_pos (h_gen h)) cg fe -> adds (fun h => g_pos (h_ulid h)) cu fe ->
  (forall s, draws (mk s) = cg * length (before_error (src_edges s))) -> (forall s, draws_ulid (mk s) = cu * length (before_error (src_edges s))) ->
  (forall s t, rewrites (mk s) t <-> exists e, In (t, e) (before_error (src_edges s))) ->
  (forall s, l_history cn ce mn me (wcuts 0) 0 [mk s] h = bind (for_nodes_edges fn fe s h) (fun x => Ret ([fst x], snd x))) ->
  codec_ok cn -> codec_ok ce -> NoDup (life_keys ls ++ drawn_keys h h' ++ session_keys cs) ->
  let d := lives cn ce mn me ls db_new in
  let ps := beside (loop_both cn ce fn fe cuts cuts' h) (l_callers cn ce mn me wcuts 1 cs) in
  has_read (a, h') (fst (interleave schedule ps d)) ->
  exists s, let calls := (h, [mk s]) :: cs in
  handed2 cn ce (during schedule ps d) (met schedule) calls s /\ (a = Ok tt -> complete2 cn ce (during schedule ps d) s) /\
  session_keys calls = drawn_keys h h' ++ session_keys cs /\
  exists schedule' qs, fst (interleave schedule ps d) = Ret (inl (a, h')) :: map (fun q => bind q (fun b => Ret (inr b))) qs /\
    (forall i f, In (i, f) schedule' -> In (i, f) schedule) /\
    interleave schedule' (l_callers cn ce mn me wcuts 0 calls) d = (Ret ([a], h') :: qs, snd (interleave schedule ps d)).
Proof.
  intros Hc N1 N2 E1 E2 Dg Du Hrw Hcall Hn He Hd d ps Hx.
  destruct (interleave schedule ps d) as [ps' d'] eqn:Ei. cbn [fst snd] in *.
  destruct (run_self schedule _ _ _ d _ (a, h') ps' d'
    (alone_both t_node t_spo (fun kv => next (node_read cn kv)) (fun kv => next (edge_read ce kv)) fn fe cuts cuts' h)
    (joined_both cn ce fn fe cuts cuts' h) Ei Hx) as (m & s' & ws' & Eps & HG & H1 & H2).
  destruct (HG [] True) as (P' & HP & Hf). rewrite app_nil_r in Hf. cbn [fst snd] in Hf. specialize (HP Logic.I).
  set (st := Some (h, rights m, True)) in *.
  change (follows (take_over cn ce (by_list fn) (by_list fe) cuts cuts' st) (lefts m) (a, Some (h', [], P'))) in Hf.
  set (reader := take_over cn ce (by_list fn) (by_list fe) cuts cuts' st) in *.
  set (cut := fun s : source k NP EP err => trim_both (by_list fn) (by_list fe) s st).
  (* what a source that was handed over counts *)
  assert (Hcount : forall s, (a, Some (h', [], P')) = feed_both (by_list fn) (by_list fe) s st ->
    g_pos (h_gen h') - g_pos (h_gen h) = cg * length (before_error (src_edges (cut s))) /\
    g_pos (h_ulid h') - g_pos (h_ulid h) = cu * length (before_error (src_edges (cut s)))).
  { intros s E. symmetry in E. unfold st in E. pose proof (both_count _ cg fn fe _ _ _ _ _ _ _ _ N1 E1 E) as G1. pose proof (both_count _ cu fn fe _ _ _ _ _ _ _ _ N2 E2 E) as G2.
    cbv beta in G1, G2. unfold cut, st. rewrite G1, G2. split; apply Nat.add_sub. }
  assert (Hkeys : forall s, (a, Some (h', [], P')) = feed_both (by_list fn) (by_list fe) s st ->
    session_keys ((h, [mk (cut s)]) :: cs) = drawn_keys h h' ++ session_keys cs).
  { intros s E. destruct (Hcount s E) as [G1 G2]. unfold session_keys. cbn [flat_map fst snd]. f_equal. unfold history_keys, drawn_keys. cbn [map sum fold_right].
    unfold sum. cbn [fold_right]. rewrite Dg, Du, G1, G2, !Nat.add_0_r. reflexivity. }
  assert (Hcalls : forall s, (a, Some (h', [], P')) = feed_both (by_list fn) (by_list fe) s st ->
    follows (l_history cn ce mn me (wcuts 0) 0 [mk (cut s)] h) (rights m) ([a], h')).
  { intros s E. rewrite Hcall. rewrite <- (feed_trim_both (by_list fn) (by_list fe) s st) in E. fold (cut s) in E. symmetry in E. unfold st in E. apply feed_both_list in E.
    destruct (replay_follows _ _ _ _ _ _ E HP) as (_ & m0 & -> & Hf0). rewrite app_nil_r. rewrite <- (app_nil_r m0). eapply follows_bind; [exact Hf0|]. reflexivity. }
  destruct (take_fed cn ce (by_list fn) (by_list fe) cuts cuts' st _ _ Hf) as [s0 F0].
  pose (calls0 := (h, [mk (cut s0)]) :: cs).
  assert (Hd0 : NoDup (life_keys ls ++ session_keys calls0)). { unfold calls0. now rewrite (Hkeys s0 F0). }
  assert (Fa : follows (bind reader (fun x => Ret (inl x))) (lefts m) (inl (a, Some (h', [], P')) : _ + (list (outcome (SE := SE) (BE := BE) (E := err)) * handle k))).
  { rewrite <- (app_nil_r (lefts m)). eapply follows_bind; [exact Hf|]. reflexivity. }
  assert (Fb : follows (bind (l_history cn ce mn me (wcuts 0) 0 [mk (cut s0)] h) (fun x => Ret (inr x))) (rights m)
    (inr ([a], h') : (result (lr_error err err) unit * option (handle k * list (ev (SE := SE) db) * Prop)) + _)).
  { rewrite <- (app_nil_r (rights m)). eapply follows_bind; [apply (Hcalls s0 F0)|]. reflexivity. }
  destruct (H2 _ _ (step1_wrap inr) _ _ _ _ Fa Fb) as [Er Es].
  destruct (taken_beside k NP EP SE BE err _ _ cn ce mn me (by_list fn) (by_list fe) ls calls0 wcuts cuts cuts' s'
    st a (Some (h', [], P')) Hn He Hd0) as (s & Ef & Hh & Hcm).
  { unfold has_read. unfold beside. fold reader. fold d.
    match goal with |- nth_error (fst ?x) _ = _ => assert (Ex : x = (Ret (inl (a, Some (h', [], P'))) :: Ret (inr ([a], h')) :: map (fun q => bind q (fun b => Ret (inr b))) ws', d')) by exact Er; rewrite Ex end.
    reflexivity. }
  assert (Hseen : forall d1, during s' (beside reader (l_callers cn ce mn me wcuts 0 calls0)) d d1 <-> during schedule ps d d1).
  { intros d1. exact (Es d1). }
  assert (Hmet : forall y, met s' y -> met schedule y). { intros y Hy. exact (H1 0 (Some y) Hy). }
  destruct (trim_both_prefix (by_list fn) (by_list fe) s st) as [[rn Pn] [re Pe]]. fold (cut s) in Pn, Pe.
  exists (cut s). cbv zeta. split; [|split; [|split]].
  - destruct Hh as (A1 & A2 & A3 & A4 & A5 & A6). rewrite Pn in A1, A3, A5. rewrite Pe in A2, A4, A6. split; [|split; [|split; [|split; [|split]]]].
    + intros i q Hin. destruct (A1 i q) as (d1 & D1 & L1); [apply in_app_iff; auto|]. exists d1. split; [now apply Hseen|exact L1].
    + intros t e Hin. destruct (A2 t e) as (d1 & D1 & L1); [apply in_app_iff; auto|]. exists d1. split; [now apply Hseen|exact L1].
    + rewrite ok_items_app, map_app in A3. eapply sorted_prefix; exact A3.
    + rewrite ok_items_app, map_app in A4. eapply sorted_prefix; exact A4.
    + intros x Hin. destruct (A5 x) as (y & Hy & ->); [apply in_app_iff; auto|]. exists y. auto.
    + intros x Hin. destruct (A6 x) as [(y & Hy & ->)|[-> [t Ht]]]; [apply in_app_iff; auto|left; exists y; auto|right]. split; auto.
      destruct Ht as (hl & o & [<-|Hhl] & Ho & Hr).
      * destruct Ho as [<-|[]]. apply Hrw in Hr. destruct Hr as [e Hr].
        destruct (Hcount s0 F0) as [G1 G2]. destruct (Hcount s Ef) as [G3 G4].
        destruct (before_error (src_edges (cut s))) as [|[t' e'] l] eqn:El.
        -- exfalso. cbn [length] in G3, G4. rewrite Nat.mul_0_r in G3, G4. rewrite G3 in G1. rewrite G4 in G2.
           destruct (before_error (src_edges (cut s0))); [contradiction|]. cbn [length] in G1, G2. nia.
        -- exists t', (h, [mk (cut s)]), (mk (cut s)). split; [left; reflexivity|]. split; [left; reflexivity|]. apply Hrw. exists e'. rewrite El. left; reflexivity.
      * exists t, hl, o. split; [right; exact Hhl|auto].
  - intros Ea. assert (Ecut : cut s = s). { apply trim_both_all. rewrite <- Ef. exact Ea. }
    rewrite Ecut. destruct (Hcm Ea) as [C1 C2]. split.
    + intros i Hall. apply C1. intros d1 D1. now apply Hall, Hseen.
    + intros t Hall. apply C2. intros d1 D1. now apply Hall, Hseen.
  - now apply Hkeys.
  - assert (Fa' : follows (bind reader (fun _ => Ret ([a], h'))) (lefts m) ([a], h')).
    { rewrite <- (app_nil_r (lefts m)). eapply follows_bind; [exact Hf|]. reflexivity. }
    destruct (H2 _ (fun q => q) (fun f q d => surjective_pairing (step1 f q d)) _ _ _ _ Fa' (Hcalls s Ef)) as [Er' _]. rewrite !map_id in Er'.
    assert (Hro : readonly (bind reader (fun _ => Ret ([a], h')))). { apply readonly_bind; [apply ro_take|]. intros; constructor. }
    destruct (drop_reader _ _ _ _ _ _ _ Hro Er') as (sB & B1 & B2).
    exists sB, ws'. split; [exact Eps|]. split; [|exact B2]. intros i f Hin. exact (H1 _ _ (B1 _ _ Hin)).
Qed.
End Self.

Lemma self_extend_live : forall k NP EP SE BE (cn : codec BE NP) (ce : codec BE EP) mn me
    (ls : list (life (k := k) (NP := NP) (EP := EP) (SE := SE) (E := sled_error SE BE))) (cs : list (handle k * list (op k NP EP (sled_error SE BE))))
    (wcuts : nat -> nat -> cutting) (cuts cuts' : list bytes) (schedule : list (nat * option SE)) (h h' : handle k) a,
  codec_ok cn -> codec_ok ce -> NoDup (life_keys ls ++ drawn_keys h h' ++ session_keys cs) ->
  let d := lives cn ce mn me ls db_new in
  let ps := beside (s_extend_self cn ce cuts cuts' h) (l_callers cn ce mn me wcuts 1 cs) in
  has_read (a, h') (fst (interleave schedule ps d)) ->
  exists s, let calls := (h, [OExtend s]) :: cs in
  handed2 cn ce (during schedule ps d) (met schedule) calls s /\ (a = Ok tt -> complete2 cn ce (during schedule ps d) s) /\
  session_keys calls = drawn_keys h h' ++ session_keys cs /\
  exists schedule' qs, fst (interleave schedule ps d) = Ret (inl (a, h')) :: map (fun q => bind q (fun b => Ret (inr b))) qs /\
    (forall i f, In (i, f) schedule' -> In (i, f) schedule) /\
    interleave schedule' (l_callers cn ce mn me wcuts 0 calls) d = (Ret ([a], h') :: qs, snd (interleave schedule ps d)).
Proof.
  intros k NP EP SE BE cn ce mn me ls cs wcuts cuts cuts' schedule h h' a Hn He Hd.
  apply (self_beside cn ce mn me (fun (ip : Id k * NP) h => and_handle h (s_extend_node cn (fst ip) (snd ip))) (fun te h => s_extend_edge ce (fst te) (snd te) h)
    OExtend 0 1 ls cs wcuts cuts cuts' schedule h h' a); auto.
  - apply adds_and.
  - apply adds_and.
  - intros te h0 m P rh m' P' E. unfold s_extend_edge in E. apply replay_and in E. rewrite E. reflexivity.
  - intros te h0 m P rh m' P' E. unfold s_extend_edge in E. apply replay_and in E. rewrite E. reflexivity.
  - intros s. cbn [draws_ulid]. lia.
  - intros s t. reflexivity.
Qed.

Lemma self_merge_live : forall k NP EP SE BE (cn : codec BE NP) (ce : codec BE EP) mn me
    (ls : list (life (k := k) (NP := NP) (EP := EP) (SE := SE) (E := sled_error SE BE))) (cs : list (handle k * list (op k NP EP (sled_error SE BE))))
    (wcuts : nat -> nat -> cutting) (cuts cuts' : list bytes) (schedule : list (nat * option SE)) (h h' : handle k) a,
  codec_ok cn -> codec_ok ce -> NoDup (life_keys ls ++ drawn_keys h h' ++ session_keys cs) ->
  let d := lives cn ce mn me ls db_new in
  let ps := beside (s_merge_self cn ce mn me cuts cuts' h) (l_callers cn ce mn me wcuts 1 cs) in
  has_read (a, h') (fst (interleave schedule ps d)) ->
  exists s, let calls := (h, [OMerge s]) :: cs in
  handed2 cn ce (during schedule ps d) (met schedule) calls s /\ (a = Ok tt -> complete2 cn ce (during schedule ps d) s) /\
  session_keys calls = drawn_keys h h' ++ session_keys cs /\
  exists schedule' qs, fst (interleave schedule ps d) = Ret (inl (a, h')) :: map (fun q => bind q (fun b => Ret (inr b))) qs /\
    (forall i f, In (i, f) schedule' -> In (i, f) schedule) /\
    interleave schedule' (l_callers cn ce mn me wcuts 0 calls) d = (Ret ([a], h') :: qs, snd (interleave schedule ps d)).
Proof.
  intros k NP EP SE BE cn ce mn me ls cs wcuts cuts cuts' schedule h h' a Hn He Hd.
  apply (self_beside cn ce mn me (fun (ip : Id k * NP) h => and_handle h (s_merge_node cn mn (fst ip) (snd ip))) (fun te h => s_merge_edge ce me (fst te) (snd te) h)
    OMerge 1 0 ls cs wcuts cuts cuts' schedule h h' a); auto.
  - apply adds_and.
  - apply adds_and.
  - intros te h0 m P rh m' P' E. unfold s_merge_edge in E. cbn [draw fresh] in E. apply replay_and in E. rewrite E. reflexivity.
  - intros te h0 m P rh m' P' E. unfold s_merge_edge in E. cbn [draw fresh] in E. apply replay_and in E. rewrite E. reflexivity.
  - intros s. cbn [draws]. lia.
  - intros s t. reflexivity.
Qed.

(** A merge, next to callers that neither extend nor remove. *)
Lemma self_merge_end : forall k NP EP SE BE (cn : codec BE NP) (ce : codec BE EP) mn me
    (ls : list (life (k := k) (NP := NP) (EP := EP) (SE := SE) (E := sled_error SE BE))) (cs : list (handle k * list (op k NP EP (sled_error SE BE))))
    (wcuts : nat -> nat -> cutting) (cuts cuts' : list bytes) (schedule : list (nat * option SE)) (h h' : handle k) a,
  codec_ok cn -> codec_ok ce -> NoDup (life_keys ls ++ drawn_keys h h' ++ session_keys cs) ->
  extends_done cn ce mn me ls db_new ->
  (forall h l o, In (h, l) cs -> In o l -> match o with ORemoveNode _ | ORemoveEdge _ | OExtend _ => False | _ => True end) ->
  let d := lives cn ce mn me ls db_new in
  let ps := beside (s_merge_self cn ce mn me cuts cuts' h) (l_callers cn ce mn me wcuts 1 cs) in
  let ran := interleave schedule ps d in
  has_read (a, h') (fst ran) -> (forall q, In q (fst ran) -> exists r, q = Ret r) ->
  exists s, let calls := (h, [OMerge s]) :: cs in
  handed2 cn ce (during schedule ps d) (met schedule) calls s /\ (a = Ok tt -> complete2 cn ce (during schedule ps d) s) /\
  exists qs, fst ran = Ret (inl (a, h')) :: map (fun q => bind q (fun b => Ret (inr b))) qs /\
  exists g g' lgs l, sled_shows SE cn ce d g /\ Forall2 accounts (logs calls (Ret ([a], h') :: qs)) lgs /\ shuffle lgs l /\
    moves mn me l g g' /\ sled_shows SE cn ce (snd ran) g'.
Proof.
  intros k NP EP SE BE cn ce mn me ls cs wcuts cuts cuts' schedule h h' a Hn He Hd Hx Hc d ps ran Hr Hq.
  destruct (self_merge_live _ _ _ _ _ cn ce mn me ls cs wcuts cuts cuts' schedule h h' a Hn He Hd Hr) as (s & H1 & H2 & Hk & sB & qs & H3 & H4 & H5).
  exists s. split; [exact H1|]. split; [exact H2|]. exists qs. split; [exact H3|].
  pose proof (mix_merge cn ce mn me ls ((h, [OMerge s]) :: cs) wcuts sB Hn He) as Hm. cbv zeta in Hm.
  rewrite Hk in Hm. specialize (Hm Hd Hx). rewrite H5 in Hm. apply Hm.
  - intros h0 l o [[= <- <-]|Hin] Ho; [|eapply Hc; eauto]. destruct Ho as [<-|[]]. exact Logic.I.
  - intros q [<-|Hin]; [eexists; reflexivity|].
    destruct (Hq (bind q (fun b => Ret (inr b)))) as [r Er].
    { assert (H3' : fst ran = Ret (inl (a, h')) :: map (fun q => bind q (fun b => Ret (inr b))) qs) by exact H3. rewrite H3'. right. apply in_map_iff. exists q. auto. }
    destruct q as [b| |]; [exists b; reflexivity|discriminate|discriminate].
Qed.
