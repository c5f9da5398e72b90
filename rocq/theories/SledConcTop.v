(** Any calls but extend and merge at the same time, no caller writing an edge that another
    one takes away. *)
From Coq Require Import Arith NArith List Bool Sorted Lia.
From Verif Require Import Bytes BytesFacts OMap OMapFacts Core IdType IdTypeFacts Store Mem Spec
  CodecFacts ListFacts MemSim History Prog ProgFacts Sled SledHistory SledSched SledDb SledOps SledBulk
  SledRun SledRead SledTop SledMain SledCrash SledLeak SledConc SledLeaf SledConcRm.
Import ListNotations.

Section Phase.
Context {k : idkind} {NP EP SE BE E : Type} (cn : codec BE NP) (ce : codec BE EP).
Context (mn : NP -> NP -> NP) (me : EP -> EP -> EP).
Notation I := (Id k).
Notation T := (triple (Id k)).
Notation G := (graph k NP EP).
Notation err := (sled_error SE BE).
Notation P A := (prog db SE A).
Notation PR A := (prog db SE (result err A)).
Notation op := (op k NP EP E).
Notation outcome := (outcome (SE := SE) (BE := BE) (E := E)).
Notation thread := (thread (k := k) (NP := NP) (EP := EP) (SE := SE) (BE := BE) (E := E)).
Notation apply := (sled_apply (SE := SE) (E := E) cn ce mn me).
Notation hist := (sled_history (SE := SE) cn ce mn me).
Notation seq_run := (one_at_a_time cn ce mn me).
Notation prog_of := (prog_of cn ce mn me).
Notation fair := (fair (k := k) cn ce).
Notation agree := (indexes_agree (k := k)).
Notation no_batches := (no_batches).
Notation lapply := (l_apply (SE := SE) (E := E) cn ce mn me).
Implicit Types ts : list thread.
Implicit Types d x : db.
Implicit Types h : handle k.
Implicit Types l ops : list op.
Implicit Types t : T.
Implicit Types n : I.
Implicit Types U : bytes -> Prop.
Implicit Types order : list (nat * list (option SE)).
Implicit Types rs : list outcome.

(** ** The parts of the removals *)
Inductive quiet t h : nat -> P (outcome * handle k) -> Prop :=
| Quiet_end : quiet t h 0 (Ret (Ok tt, h))
| Quiet_step m u c e :
    (forall d, absent t d -> u d = d) -> (forall d, absent t d -> quiet t h m (c d)) ->
    (forall y, e y = Ret (Err (LeftE (SledError y)), h)) -> quiet t h (S m) (Act u c e).

Lemma quiet_0 t h q : quiet t h 0 q -> q = Ret (Ok tt, h).
Proof. inversion 1. reflexivity. Qed.

Fixpoint answer (m : nat) (fs : list (option SE)) : outcome :=
  match m, fs with
  | S _, Some y :: _ => Err (LeftE (SledError y))
  | S m', None :: fs' => answer m' fs'
  | _, _ => Ok tt
  end.

Lemma quiet_exec t h m q : quiet t h m q -> forall fs d, absent t d ->
  ret_of q fs d = (answer m fs, h) /\ db_of q fs d = d.
Proof.
  induction 1 as [|m u c e Hu Hc IH He]; intros fs d A; [destruct fs; auto|].
  unfold ret_of, db_of. simpl. rewrite (Hu d A). destruct fs as [|[y|] fs].
  - destruct (IH d A [] d A) as [H1 H2]. unfold ret_of, db_of in *. rewrite H1, H2. destruct m; auto.
  - rewrite He. auto.
  - apply (IH d A fs d A).
Qed.

Lemma remove_edge_quiet t h : exists u c e,
  apply (ORemoveEdge t) h = Act u c e /\ (forall d, u d = d_rm_edge t d) /\
  (forall d, quiet t h 3 (c d)) /\ (forall y, e y = Ret (Err (LeftE (SledError y)), h)).
Proof.
  eexists _, _, _. split; [reflexivity|]. split; [|split].
  - intros d. now rewrite remove_edge_txn_eq.
  - intros d. rewrite remove_edge_txn_eq. simpl.
    apply Quiet_step; [intros x A; apply (rm_absent TSpo), (A SPO) | | intros y; reflexivity].
    intros x A. simpl. pose proof (A SPO) as As. unfold rid, idx in As. simpl in As. rewrite As.
    apply Quiet_step; [intros x' A'; apply (rm_absent TPos), (A' POS) | | intros y; reflexivity].
    intros x' A'. simpl.
    apply Quiet_step; [intros x'' A''; apply (rm_absent TOsp), (A'' OSP) | | intros y; reflexivity].
    intros x'' A''. simpl. apply Quiet_end.
  - reflexivity.
Qed.

Definition fin n (f b : batches) : PR unit :=
  bind_ok (transaction (remove_node_txn n f b)) (fun _ => Ret (Ok tt)).
Definition spo_range n d := brange (key_bounds_1 n) (t_spo d).
Definition osp_range n d := brange (key_bounds_1 n) (t_osp d).
Definition back n (c : list bytes) (f : batches) : PR unit :=
  bind_ok (l_for c (osp_range n) (backward_entry (k := k)) no_batches) (fin n f).

(** A scan in the middle of a leaf: what is left of the leaf, and where it goes on. *)
Notation onward := (option (bytes * list bytes)).
Definition go_on {S A} (ent : db -> list (bytes * bytes)) (g : bytes * bytes -> S -> PR S) (R : S -> PR A)
    (nx : onward) (s : S) : PR A :=
  match nx with None => R s | Some (lo, cs) => bind_ok (for_from ent g (Some lo) cs s) R end.
Definition end_of (cuts : list bytes) : option bytes := match cuts with [] => None | c :: _ => Some c end.
Definition nxt (lo : option bytes) (cuts : list bytes) : onward :=
  match cuts with [] => None | c :: cs => Some (later lo c, cs) end.
Definition lim (nx : onward) : option bytes := option_map fst nx.

Definition fw n c2 nx rem done : PR unit :=
  bind_ok (for_ok (forward_entry (k := k)) rem (fwd (k := k) done no_batches)) (go_on (spo_range n) (forward_entry (k := k)) (back n c2) nx).
Definition bw n f nx rem done : PR unit :=
  bind_ok (for_ok (backward_entry (k := k)) rem (bwd (k := k) done no_batches)) (go_on (osp_range n) (backward_entry (k := k)) (fin n f) nx).

Notation call h p := (lift (and_handle h p) : P (outcome * handle k)).
Notation bad y := (Err (LeftE (SledError y)) : outcome).

Lemma scan_look {S} h ent (g : bytes * bytes -> S -> PR S) (R : S -> PR unit) lo cuts s {A} (K : outcome * handle k -> P A) f d :
  exists q, step1 f (bind (call h (bind_ok (for_from ent g lo cuts s) R)) K) d = (q, d) /\
    peq q (bind (call h (bind_ok (for_ok g (piece lo (end_of cuts) (ent d)) s) (go_on ent g R (nxt lo cuts)))) K).
Proof.
  destruct cuts as [|c cuts]; eexists; (split; [reflexivity|]).
  - apply peq_refl.
  - unfold lift, and_handle, bind_ok. repeat (apply peq_bind; [|intros; apply peq_refl]).
    eapply peq_trans; [apply bind_assoc|]. apply peq_bind; [apply peq_refl|]. intros [x|e]; apply peq_refl.
Qed.

Lemma remove_node_look c n h {A} (K : outcome * handle k -> P A) f d :
  exists q, step1 f (bind (lapply c (ORemoveNode n) h) K) d = (q, d) /\
    peq q (bind (call h (fw n (snd c) (nxt None (fst c)) (piece None (end_of (fst c)) (spo_range n d)) [])) K).
Proof. apply (scan_look h (spo_range n) (forward_entry (k := k)) (back n (snd c)) None (fst c) no_batches). Qed.

Lemma fw_next n c2 lo cs done h {A} (K : outcome * handle k -> P A) f d :
  exists q, step1 f (bind (call h (fw n c2 (Some (lo, cs)) [] done)) K) d = (q, d) /\
    peq q (bind (call h (fw n c2 (nxt (Some lo) cs) (piece (Some lo) (end_of cs) (spo_range n d)) done)) K).
Proof. apply (scan_look h (spo_range n) (forward_entry (k := k)) (back n c2) (Some lo) cs (fwd done no_batches)). Qed.
Lemma back_look n c2 done h {A} (K : outcome * handle k -> P A) f d :
  exists q, step1 f (bind (call h (fw n c2 None [] done)) K) d = (q, d) /\
    peq q (bind (call h (bw n (fwd (k := k) done no_batches) (nxt None c2) (piece None (end_of c2) (osp_range n d)) [])) K).
Proof. apply (scan_look h (osp_range n) (backward_entry (k := k)) (fin n (fwd (k := k) done no_batches)) None c2 no_batches). Qed.
Lemma bw_next n fb lo cs done h {A} (K : outcome * handle k -> P A) f d :
  exists q, step1 f (bind (call h (bw n fb (Some (lo, cs)) [] done)) K) d = (q, d) /\
    peq q (bind (call h (bw n fb (nxt (Some lo) cs) (piece (Some lo) (end_of cs) (osp_range n d)) done)) K).
Proof. apply (scan_look h (osp_range n) (backward_entry (k := k)) (fin n fb) (Some lo) cs (bwd done no_batches)). Qed.
Lemma bw_done n f done : bw n f None [] done = fin n f (bwd (k := k) done no_batches).
Proof. reflexivity. Qed.

Lemma fw_step n c2 nx kv rem done h {A} (K : outcome * handle k -> P A) f d : good_len (k := k) kv ->
  step1 f (bind (call h (fw n c2 nx (kv :: rem) done)) K) d =
  match f with
  | None => (bind (call h (fw n c2 nx rem (done ++ [kv]))) K, d)
  | Some y => (K (bad y, h), d)
  end.
Proof.
  intros Hl. destruct f as [y|]; [reflexivity|]. unfold fw at 1. cbn [for_ok forward_entry next bind_ok bind lift and_handle step1].
  destruct (decode_key_spec (k := k) (SE := SE) (BE := BE) decode_spo (fst kv)) as [[_ ->]|[Hx _]]; [|contradiction].
  cbn [bind]. unfold fw, lift, and_handle, bind_ok.
  replace (fwd (done ++ [kv]) no_batches) with (Batches (b_spo (fwd (k := k) done no_batches) ++ [fst kv])
    (b_pos (fwd (k := k) done no_batches) ++ [encode_pos (decode_spo (fst kv) : T)])
    (b_osp (fwd (k := k) done no_batches) ++ [encode_osp (decode_spo (fst kv) : T)])
    (b_edge (fwd (k := k) done no_batches) ++ [snd kv])).
  - reflexivity.
  - unfold fwd. simpl. now rewrite !map_app.
Qed.

Lemma bw_step n fb nx kv rem done h {A} (K : outcome * handle k -> P A) f d : good_len (k := k) kv ->
  step1 f (bind (call h (bw n fb nx (kv :: rem) done)) K) d =
  match f with
  | None => (bind (call h (bw n fb nx rem (done ++ [kv]))) K, d)
  | Some y => (K (bad y, h), d)
  end.
Proof.
  intros Hl. destruct f as [y|]; [reflexivity|]. unfold bw at 1. cbn [for_ok backward_entry next bind_ok bind lift and_handle step1].
  destruct (decode_key_spec (k := k) (SE := SE) (BE := BE) decode_osp (fst kv)) as [[_ ->]|[Hx _]]; [|contradiction].
  cbn [bind]. unfold bw, lift, and_handle, bind_ok.
  replace (bwd (done ++ [kv]) no_batches) with (Batches (b_spo (bwd (k := k) done no_batches) ++ [encode_spo (decode_osp (fst kv) : T)])
    (b_pos (bwd (k := k) done no_batches) ++ [encode_pos (decode_osp (fst kv) : T)])
    (b_osp (bwd (k := k) done no_batches) ++ [fst kv])
    (b_edge (bwd (k := k) done no_batches) ++ [snd kv])).
  - reflexivity.
  - unfold bwd. simpl. now rewrite !map_app.
Qed.

Lemma fin_step n fb bb h {A} (K : outcome * handle k -> P A) f d d' :
  remove_node_txn (SE := SE) (BE := BE) n fb bb d = Ok (tt, d') ->
  step1 f (bind (call h (fin n fb bb)) K) d =
  match f with None => (K (Ok tt, h), d') | Some y => (K (bad y, h), d) end.
Proof.
  intros Hd. destruct f as [y|]; [reflexivity|].
  unfold fin, transaction, lift, and_handle, bind_ok. cbn [bind step1]. now rewrite Hd.
Qed.

(** The first storage step of remove_node fails. *)
Lemma remove_node_fault n h y d :
  ret_of (apply (ORemoveNode n) h) [Some y] d = (bad y, h) /\ db_of (apply (ORemoveNode n) h) [Some y] d = d.
Proof.
  unfold ret_of, db_of. cbn [sled_apply]. unfold lift, and_handle, s_remove_node, bind_ok. cbn [bind exec].
  destruct (brange (key_bounds_1 n) (t_spo d)) as [|kv es]; [|split; reflexivity].
  cbn [for_ok bind exec]. destruct (brange (key_bounds_1 n) (t_osp d)) as [|kv es]; split; reflexivity.
Qed.

Lemma remove_node_works U n h d : fair U d ->
  ret_of (apply (ORemoveNode n) h) [] d = (Ok tt, h) /\ db_of (apply (ORemoveNode n) h) [] d = d_rm_node n d.
Proof.
  intros H.
  assert (wp (fun _ : SE => False) (fun _ => True) (fun rh x => rh = (Ok tt, h) /\ x = d_rm_node n d) (apply (ORemoveNode n) h) d) as W.
  { cbn [sled_apply]. unfold lift, and_handle. apply wp_bind. apply wp_bind.
    eapply wp_mono; [| |apply (y_remove_node (SE := SE) (BE := BE) cn ce U n d H)]; auto.
    intros r x _ [-> ->]. simpl. auto. }
  destruct (wp_exec _ _ _ _ [] d (allowed_nil _) W) as (_ & [H1 H2] & _). auto.
Qed.

(** ** Where a caller is *)
Section One.
Variable cuts : nat -> cutting.
Definition lprog (th : thread) : P (list outcome * handle k) :=
  bind (l_history cn ce mn me cuts (length (th_done th)) (th_todo th) (th_handle th)) (fun rsh => Ret (th_done th ++ fst rsh, snd rsh)).
Definition after l rs (rh : outcome * handle k) : P (list outcome * handle k) :=
  lprog (Thread (snd rh) l (rs ++ [fst rh])).

Lemma lprog_call h o l rs : peq (lprog (Thread h (o :: l) rs)) (bind (lapply (cuts (length rs)) o h) (after l rs)).
Proof.
  unfold after, lprog. simpl. eapply peq_trans; [apply bind_assoc|].
  apply peq_bind; [apply peq_refl|]. intros rh. eapply peq_trans; [apply bind_assoc|].
  rewrite app_length, Nat.add_1_r.
  apply peq_bind; [apply peq_refl|]. intros rsh. simpl. rewrite <- app_assoc. apply peq_refl.
Qed.

Lemma lprog_ret r : forall l h rs, peq (Ret r) (lprog (Thread h l rs)) -> peq (Ret r) (prog_of (Thread h l rs)).
Proof.
  induction l as [|o l IH]; intros h rs H; [exact H|].
  pose proof (peq_trans _ _ H _ (lprog_call h o l rs)) as H1.
  eapply peq_trans; [|apply peq_sym, prog_of_call].
  assert ((exists n, o = ORemoveNode n) \/ lapply (cuts (length rs)) o h = apply o h) as [[n ->]|Eo].
  { destruct o; eauto. }
  - exfalso. revert H1. cbn [l_apply]. unfold l_remove_node, l_for.
    destruct (fst (cuts (length rs))); intros H1; inversion H1.
  - rewrite Eo in H1. destruct (apply o h) as [rh|c|u c e]; [|inversion H1|inversion H1]. simpl in *. apply IH. exact H1.
Qed.

Inductive rel ops U d (fut : list (option SE)) (p : P (list outcome * handle k)) : thread -> Prop :=
| R_idle th : peq p (lprog th) -> rel ops U d fut p th
| R_edge t h l rs m q :
    In (ORemoveEdge t) ops -> quiet t h (S m) q -> absent t d -> peq p (bind q (after l rs)) ->
    rel ops U d fut p (Thread h l (rs ++ [answer (S m) fut]))
| R_fwd n h l rs c2 nx rem done :
    In (ORemoveNode n) ops -> covers U SPO n (lim nx) (done ++ rem) d ->
    peq p (bind (call h (fw n c2 nx rem done)) (after l rs)) ->
    rel ops U d fut p (Thread h (ORemoveNode n :: l) rs)
| R_bwd n h l rs Lf nx rem done :
    In (ORemoveNode n) ops -> covers U SPO n None Lf d -> covers U OSP n (lim nx) (done ++ rem) d ->
    peq p (bind (call h (bw n (fwd (k := k) Lf no_batches) nx rem done)) (after l rs)) ->
    rel ops U d fut p (Thread h (ORemoveNode n :: l) rs).

(** It does not matter to the others. *)
Lemma rel_stable (Q : T -> Prop) ops U U' d x fut p th : (forall r, U r -> U' r) -> calm Q U d x ->
  (forall o t, In o ops -> erases o t -> Q t) -> rel ops U d fut p th -> rel ops U' x fut p th.
Proof.
  intros HU Hc HQ H. destruct H as [th Hp|t h l rs m q Ho Hq Ha Hp|n h l rs c2 nx rem done Ho Hf Hp|n h l rs Lf nx rem done Ho Hf Hb Hp].
  - now apply R_idle.
  - eapply R_edge; eauto. eapply absent_calm; [|exact Hc|exact Ha]. eapply HQ; [exact Ho|reflexivity].
  - eapply R_fwd; eauto. eapply covers_calm; [|exact HU|exact Hc|exact Hf].
    intros t Ht. eapply HQ; [exact Ho|]. left. exact Ht.
  - eapply R_bwd; eauto.
    + eapply covers_calm; [|exact HU|exact Hc|exact Hf]. intros t Ht. eapply HQ; [exact Ho|]. left. exact Ht.
    + eapply covers_calm; [|exact HU|exact Hc|exact Hb]. intros t Ht. eapply HQ; [exact Ho|]. right. exact Ht.
Qed.

Definition mine (i : nat) (f : option SE) (fut : list (option SE)) (x : nat * list (option SE)) : Prop :=
  fst x = i /\ forall y, In (Some y) (snd x) -> f = Some y \/ In (Some y) fut.

Lemma step_idle ops U fut i l : Forall one_call l -> incl l ops -> forall h rs f d ts,
  fair U d -> nth_error ts i = Some (Thread h l rs) ->
  exists order (t' : thread),
    seq_run order ts d = (replace_nth i t' ts, snd (step1 f (lprog (Thread h l rs)) d)) /\
    rel ops U (snd (step1 f (lprog (Thread h l rs)) d)) fut (fst (step1 f (lprog (Thread h l rs)) d)) t' /\
    Forall (mine i f fut) order.
Proof.
  induction 1 as [|o l Ho Hl IH]; intros Hin h rs f d ts Hf Hi.
  - exists [], (Thread h [] rs). simpl. rewrite (replace_same _ _ _ Hi). split; auto. split; [|constructor].
    apply R_idle, peq_refl.
  - assert (In o ops) as Hoin by (apply Hin; simpl; auto).
    assert (incl l ops) as Hlin by (intros a Ha; apply Hin; simpl; auto).
    pose proof (peq_step f _ _ d (lprog_call h o l rs)) as [Hp ->].
    assert (forall fs, turn cn ce mn me i fs ts d =
      (replace_nth i (Thread (snd (ret_of (apply o h) fs d)) l (rs ++ [fst (ret_of (apply o h) fs d)])) ts, db_of (apply o h) fs d)) as Ht.
    { intros fs. unfold turn. now rewrite Hi. }
    assert (transactional o \/ (exists t, o = ORemoveEdge t) \/ exists n, o = ORemoveNode n) as [Htr|[[t ->]|[n ->]]].
    { destruct o; simpl in *; eauto; contradiction. }
    + pose proof (single_apply (SE := SE) cn ce mn me o h Htr) as Hs.
      assert (lapply (cuts (length rs)) o h = apply o h) as El by (destruct o; try contradiction; reflexivity). rewrite El in *.
      destruct (apply o h) as [rh|c|u c e] eqn:Ea; [|destruct Hs|].
      * simpl in Hp |- *. specialize (Ht []). cbn in Ht.
        destruct (IH Hlin (snd rh) (rs ++ [fst rh]) f d (replace_nth i (Thread (snd rh) l (rs ++ [fst rh])) ts)) as (order & t' & H1 & H2 & H3); auto.
        { eapply nth_replace_eq; eauto. }
        exists ((i, []) :: order), t'. simpl. rewrite Ht, H1, replace_twice. split; auto. split.
        -- inversion H2; subst; [apply R_idle|eapply R_edge|eapply R_fwd|eapply R_bwd]; eauto; eapply peq_trans; eauto.
        -- constructor; auto. split; auto. intros e [].
      * destruct Hs as [Hc He]. simpl in Hp |- *. destruct f as [y|]; simpl in *.
        -- destruct (He y) as [rh Er]. rewrite Er in Hp. simpl in Hp.
           specialize (Ht [Some y]). unfold ret_of, db_of in Ht. simpl in Ht. rewrite Er in Ht. simpl in Ht.
           exists [(i, [Some y])], (Thread (snd rh) l (rs ++ [fst rh])). simpl. rewrite Ht. split; auto.
           split; [now apply R_idle|]. constructor; auto. split; auto. simpl. intros e0 [H|[]]. auto.
        -- destruct (Hc d) as [rh Er]. rewrite Er in Hp. simpl in Hp.
           specialize (Ht [None]). unfold ret_of, db_of in Ht. simpl in Ht. rewrite Er in Ht. simpl in Ht.
           exists [(i, [None])], (Thread (snd rh) l (rs ++ [fst rh])). simpl. rewrite Ht. split; auto.
           split; [now apply R_idle|]. constructor; auto. split; auto. simpl. intros e0 [H|[]]. discriminate.
    + destruct (remove_edge_quiet t h) as (u & c & e & Ea & Hu & Hc & He).
      change (lapply (cuts (length rs)) (ORemoveEdge t) h) with (apply (ORemoveEdge t) h) in *. rewrite Ea in *. simpl in Hp |- *.
      destruct f as [y|]; simpl in *.
      * rewrite He in Hp. simpl in Hp. specialize (Ht [Some y]). unfold ret_of, db_of in Ht. simpl in Ht. rewrite He in Ht. simpl in Ht.
        exists [(i, [Some y])], (Thread h l (rs ++ [bad y])). simpl. rewrite Ht. split; auto. split; [now apply R_idle|].
        constructor; auto. split; auto. simpl. intros e0 [H|[]]. auto.
      * specialize (Ht (None :: fut)).
        assert (absent t (u d)) as Ha.
        { rewrite Hu. intros o. rewrite rid_rm_edge. now destruct (triple_eq_dec t t). }
        destruct (quiet_exec t h 3 (c d) (Hc d) fut (u d) Ha) as [Q1 Q2].
        assert (ret_of (Act u c e) (None :: fut) d = ret_of (c d) fut (u d)) as E1 by reflexivity.
        assert (db_of (Act u c e) (None :: fut) d = db_of (c d) fut (u d)) as E2 by reflexivity.
        rewrite E1, E2, Q1, Q2 in Ht. cbn [fst snd] in Ht.
        exists [(i, None :: fut)], (Thread h l (rs ++ [answer 3 fut])). cbn [one_at_a_time]. rewrite Ht. split; auto. split.
        -- eapply R_edge; eauto.
        -- constructor; [|constructor]. split; [reflexivity|]. simpl. intros e0 [H|H]; [discriminate|now right].
    + exists [], (Thread h (ORemoveNode n :: l) rs).
      destruct (remove_node_look (cuts (length rs)) n h (after l rs) f d) as (q & Eq & Hq). rewrite Eq in *. simpl fst in *. simpl snd in *.
      rewrite (replace_same _ _ _ Hi). split; auto. split; auto. eapply R_fwd; eauto; [|eapply peq_trans; eauto].
      simpl app. pose proof (covers_first cn ce U SPO n (end_of (fst (cuts (length rs)))) d Hf) as Hc.
      destruct (fst (cuts (length rs))); exact Hc.
Qed.

(** One step of a caller. *)
Lemma step_rel ops U fut i p th : Forall one_call (th_todo th) -> incl (th_todo th) ops -> forall f d ts,
  fair U d -> agree d -> nth_error ts i = Some th -> rel ops U d (f :: fut) p th ->
  exists order (t' : thread),
    seq_run order ts d = (replace_nth i t' ts, snd (step1 f p d)) /\
    rel ops U (snd (step1 f p d)) fut (fst (step1 f p d)) t' /\
    Forall (mine i f fut) order.
Proof.
  intros Ho Hin f d ts Hf Ag Hi Hr.
  assert (forall n h l rs y (Hi : nth_error ts i = Some (Thread h (ORemoveNode n :: l) rs)),
    f = Some y -> seq_run [(i, [f])] ts d = (replace_nth i (Thread h l (rs ++ [bad y])) ts, d)) as Hfault.
  { intros n h l rs y Hi' ->. cbn [one_at_a_time]. unfold turn. rewrite Hi'.
    destruct (remove_node_fault n h y d) as [-> ->]. reflexivity. }
  assert (forall y, f = Some y -> Forall (mine i f fut) [(i, [f])]) as Hmine.
  { intros y ->. constructor; auto. split; auto. simpl. intros e [H|[]]. auto. }
  inversion Hr as [th' Hp|t h l rs m q Hop Hq Ha Hp|n h l rs c2 nx rem done Hop Cf Hp|n h l rs Lf nx rem done Hop Cf Cb Hp]; subst.
  - destruct th as [h l rs]. destruct (step_idle ops U fut i l Ho Hin h rs f d ts Hf Hi) as (order & t' & H1 & H2 & H3).
    destruct (peq_step f _ _ d Hp) as [Hs1 Hs2]. rewrite <- Hs2 in H1, H2. exists order, t'. split; auto. split; auto.
    inversion H2; subst; [apply R_idle|eapply R_edge|eapply R_fwd|eapply R_bwd]; eauto; eapply peq_trans; eauto.
  - inversion Hq as [|m' u c e Hu Hc He]; subst. destruct (peq_step f _ _ d Hp) as [Hs1 Hs2]. simpl in Hs1, Hs2.
    exists [], (Thread h l (rs ++ [answer (S m) (f :: fut)])). rewrite (replace_same _ _ _ Hi).
    destruct f as [y|]; simpl in Hs1, Hs2; rewrite Hs2.
    + split; auto. split; auto. rewrite He in Hs1. simpl in Hs1. now apply R_idle.
    + rewrite (Hu d Ha). split; auto. split; auto. cbn [answer].
      pose proof (Hc d Ha) as Hq'. destruct m as [|m].
      * rewrite (quiet_0 _ _ _ Hq') in Hs1. simpl in Hs1. destruct fut; now apply R_idle.
      * eapply R_edge; eauto.
  - destruct (peq_step f _ _ d Hp) as [Hs1 Hs2]. destruct rem as [|kv rem].
    + exists [], (Thread h (ORemoveNode n :: l) rs). rewrite (replace_same _ _ _ Hi). rewrite app_nil_r in Cf.
      destruct nx as [[lo cs]|].
      * destruct (fw_next n c2 lo cs done h (after l rs) f d) as (q & Eq & Hq). rewrite Eq in *. simpl fst in *. simpl snd in *. rewrite Hs2.
        split; auto. split; auto. eapply R_fwd; eauto; [|eapply peq_trans; eauto].
        destruct cs as [|c cs]; [apply (covers_last cn ce U SPO)|apply (covers_next cn ce U SPO)]; auto.
      * destruct (back_look n c2 done h (after l rs) f d) as (q & Eq & Hq). rewrite Eq in *. simpl fst in *. simpl snd in *. rewrite Hs2.
        split; auto. split; auto. eapply R_bwd; eauto; [|eapply peq_trans; eauto].
        simpl app. pose proof (covers_first cn ce U OSP n (end_of c2) d Hf) as Hc. destruct c2; exact Hc.
    + assert (good_len (k := k) kv) as Hg.
      { pose proof (covers_good U SPO n _ _ d Cf) as HG. rewrite Forall_forall in HG. apply HG. apply in_app_iff. simpl. auto. }
      rewrite (fw_step n c2 nx kv rem done h (after l rs) f d Hg) in Hs1, Hs2. destruct f as [y|]; simpl in Hs1, Hs2; rewrite Hs2.
      * exists [(i, [Some y])], (Thread h l (rs ++ [bad y])). split; [eapply Hfault; eauto|]. split; [now apply R_idle|eauto].
      * exists [], (Thread h (ORemoveNode n :: l) rs). rewrite (replace_same _ _ _ Hi). split; auto. split; auto.
        apply (R_fwd ops U d fut _ n h l rs c2 nx rem (done ++ [kv])); auto. now rewrite <- app_assoc.
  - destruct (peq_step f _ _ d Hp) as [Hs1 Hs2]. destruct rem as [|kv rem].
    + rewrite app_nil_r in Cb. destruct nx as [[lo cs]|].
      { exists [], (Thread h (ORemoveNode n :: l) rs). rewrite (replace_same _ _ _ Hi).
        destruct (bw_next n (fwd (k := k) Lf no_batches) lo cs done h (after l rs) f d) as (q & Eq & Hq). rewrite Eq in *. simpl fst in *. simpl snd in *. rewrite Hs2.
        split; auto. split; auto. eapply R_bwd; eauto; [|eapply peq_trans; eauto].
        destruct cs as [|c cs]; [apply (covers_last cn ce U OSP)|apply (covers_next cn ce U OSP)]; auto. }
      rewrite bw_done in Hs1, Hs2.
      rewrite (fin_step n _ _ h (after l rs) f d _ (late_remove_node cn ce U n Lf done d Hf (fun oo u _ => Ag oo u) Cf Cb)) in Hs1, Hs2.
      destruct f as [y|]; simpl in Hs1, Hs2; rewrite Hs2.
      * exists [(i, [Some y])], (Thread h l (rs ++ [bad y])). split; [eapply Hfault; eauto|]. split; [now apply R_idle|eauto].
      * exists [(i, [])], (Thread h l (rs ++ [Ok tt])). cbn [one_at_a_time]. unfold turn. rewrite Hi.
        destruct (remove_node_works U n h d Hf) as [-> ->]. split; auto. split; [now apply R_idle|].
        constructor; auto. split; auto. simpl. intros e [].
    + assert (good_len (k := k) kv) as Hg.
      { pose proof (covers_good U OSP n _ _ d Cb) as HG. rewrite Forall_forall in HG. apply HG. apply in_app_iff. simpl. auto. }
      rewrite (bw_step n _ nx kv rem done h (after l rs) f d Hg) in Hs1, Hs2. destruct f as [y|]; simpl in Hs1, Hs2; rewrite Hs2.
      * exists [(i, [Some y])], (Thread h l (rs ++ [bad y])). split; [eapply Hfault; eauto|]. split; [now apply R_idle|eauto].
      * exists [], (Thread h (ORemoveNode n :: l) rs). rewrite (replace_same _ _ _ Hi). split; auto. split; auto.
        apply (R_bwd ops U d fut _ n h l rs Lf nx rem (done ++ [kv])); auto. now rewrite <- app_assoc.
Qed.

Lemma rel_rests ops U d fs p th : rel ops U d fs p th -> resting cn ce mn me p th.
Proof.
  intros H r ->. inversion H as [th' Hp|t h l rs m q Ho Hq Ha Hp|n h l rs c2 nx rem done Ho Hf Hp|n h l rs Lf nx rem done Ho Hf Hb Hp]; subst.
  - destruct th as [h l rs]. now apply lprog_ret.
  - inversion Hq; subst. inversion Hp.
  - exfalso. destruct rem as [|kv rem]; [|inversion Hp]. destruct nx as [[lo [|c cs]]|]; [inversion Hp|inversion Hp|].
    revert Hp. unfold fw, back, l_for. destruct c2; intros Hp; inversion Hp.
  - exfalso. destruct rem as [|kv rem]; [|inversion Hp]. destruct nx as [[lo [|c cs]]|]; inversion Hp.
Qed.
End One.

(** ** All of them *)
Context (Hcn : codec_ok cn) (Hce : codec_ok ce).

Definition fut (i : nat) (schedule : list (nat * option SE)) : list (option SE) :=
  map snd (filter (fun z => Nat.eqb (fst z) i) schedule).

Definition world ts d U : Prop :=
  fair U d /\ agree d /\ NoDup (keys_left ts) /\ (forall r, In r (keys_left ts) -> ~ U r) /\
  Forall (fun th : thread => Forall one_call (th_todo th)) ts.

Definition within i ops ts : Prop := forall th, nth_error ts i = Some th -> incl (th_todo th) ops.

Definition leaves ops (t : T) : Prop := forall o, In o ops -> ~ writes o t.

Lemma turn_world ops i fs ts d U : world ts d U -> within i ops ts ->
  exists U', world (fst (turn cn ce mn me i fs ts d)) (snd (turn cn ce mn me i fs ts d)) U' /\ (forall r, U r -> U' r) /\
    calm (leaves ops) U d (snd (turn cn ce mn me i fs ts d)) /\ within i ops (fst (turn cn ce mn me i fs ts d)).
Proof.
  intros (Hf & A & Hnd & HU & Ho) Hin. unfold turn. destruct (nth_error ts i) as [[h [|o l] rs]|] eqn:Hi;
    try (exists U; repeat (split; auto using calm_refl); fail).
  assert (Forall one_call (o :: l)) as Hol.
  { rewrite Forall_forall in Ho. apply (Ho _ (nth_error_In _ _ Hi)). }
  assert (one_call o) as Ho1 by (inversion Hol; auto).
  specialize (Hin _ Hi). simpl in Hin.
  pose proof (apply_handle (SE := SE) cn ce mn me o h fs d Ho1) as Hh.
  destruct (keys_turn_nodup ts i h o l rs (fst (ret_of (apply o h) fs d)) Hi Hol Hnd) as (N1 & N2 & N3).
  pose proof (keys_turn ts i h o l rs (fst (ret_of (apply o h) fs d)) Hi Hol) as Hk.
  assert (forall r, In r (history_keys h [o]) -> ~ U r) as HUo by (intros r Hr; apply HU, Hk; auto).
  destruct (call_moves cn ce mn me Hcn Hce U o h fs d Ho1 Hf A N1 HUo) as (F1 & A1 & _).
  exists (plus_keys U (history_keys h [o])). cbn [fst snd]. rewrite Hh. split; [|split; [|split]].
  - split; [exact F1|]. split; [exact A1|]. split; [exact N2|]. split.
    + intros r Hr [H|H]; [|now apply (N3 r)]. apply (HU r); auto. apply Hk. auto.
    + apply Forall_replace; auto. simpl. inversion Hol; auto.
  - intros r Hr. left. exact Hr.
  - eapply calm_weak; [|apply (call_calm cn ce Hce mn me U o h fs d Ho1 Hf A HUo)].
    intros t Ht. apply Ht, Hin. simpl. auto.
  - intros th Hth. erewrite nth_replace_eq in Hth by exact Hi. injection Hth as <-. simpl. intros a Ha. apply Hin. simpl. auto.
Qed.

Lemma order_world ops i order : forall ts d U, Forall (fun z => fst z = i) order -> world ts d U -> within i ops ts ->
  exists U', world (fst (seq_run order ts d)) (snd (seq_run order ts d)) U' /\ (forall r, U r -> U' r) /\
    calm (leaves ops) U d (snd (seq_run order ts d)) /\ within i ops (fst (seq_run order ts d)).
Proof.
  induction order as [|[j fs] order IH]; intros ts d U Hj Hw Hin.
  - exists U. simpl. repeat (split; auto using calm_refl).
  - apply Forall_cons_iff in Hj. destruct Hj as [Hj1 Hj2]. simpl in Hj1. subst j.
    destruct (turn_world ops i fs ts d U Hw Hin) as (U1 & W1 & S1 & C1 & I1).
    simpl. destruct (turn cn ce mn me i fs ts d) as [ts1 d1]. simpl in *.
    destruct (IH ts1 d1 U1 Hj2 W1 I1) as (U2 & W2 & S2 & C2 & I2). exists U2.
    split; auto. split; auto. split; auto. eapply calm_trans; [exact (proj1 Hw)|exact S1|exact C1|exact C2].
Qed.

Section Main.
Variable cuts : nat -> nat -> cutting.
Variable cs : list (handle k * list op).
Hypothesis Hind : independent cs.

Definition joint (ps : list (P (list outcome * handle k))) ts d U schedule : Prop :=
  length ps = length ts /\
  forall i p, nth_error ps i = Some p -> exists h ops th,
    nth_error cs i = Some (h, ops) /\ nth_error ts i = Some th /\ incl (th_todo th) ops /\
    rel (cuts i) ops U d (fut i schedule) p th.

Lemma interleave_joint schedule : forall ps ts d U, world ts d U -> joint ps ts d U schedule ->
  exists order ts' U', seq_run order ts d = (ts', snd (interleave schedule ps d)) /\
    world ts' (snd (interleave schedule ps d)) U' /\
    joint (fst (interleave schedule ps d)) ts' (snd (interleave schedule ps d)) U' [] /\
    Forall (fun z => forall e, In (Some e) (snd z) -> In (fst z, Some e) schedule) order.
Proof.
  induction schedule as [|[i f] schedule IH]; intros ps ts d U Hw Hj.
  - exists [], ts, U. simpl. auto.
  - simpl. destruct Hj as [Hlen Hj]. destruct (nth_error ps i) as [p|] eqn:Hp.
    + destruct (Hj i p Hp) as (h & ops & th & Hc & Ht & Hin & Hr).
      assert (fut i ((i, f) :: schedule) = f :: fut i schedule) as Ef.
      { unfold fut. simpl. now rewrite Nat.eqb_refl. }
      rewrite Ef in Hr. destruct Hw as (Hf & A & Hnd & HU & Ho).
      assert (Forall one_call (th_todo th)) as Hoc.
      { rewrite Forall_forall in Ho. apply (Ho _ (nth_error_In _ _ Ht)). }
      destruct (step_rel (cuts i) ops U (fut i schedule) i p th Hoc Hin f d ts Hf A Ht Hr) as (o1 & t' & H1 & H2 & H3).
      destruct (step1 f p d) as [p' d1]. simpl in H1, H2.
      assert (within i ops ts) as Hwi by (intros th' Hth'; rewrite Ht in Hth'; injection Hth' as <-; exact Hin).
      destruct (order_world ops i o1 ts d U) as (U1 & W1 & S1 & C1 & I1); auto.
      { rewrite Forall_forall in *. intros x Hx. apply (H3 x Hx). }
      { split; auto. }
      rewrite H1 in W1, C1, I1. simpl in W1, C1, I1.
      destruct (IH (replace_nth i p' ps) (replace_nth i t' ts) d1 U1 W1) as (o2 & ts' & U' & R1 & R2 & R3 & R4).
      * split; [now rewrite !replace_length|]. intros j q Hq. destruct (Nat.eq_dec i j) as [<-|Hne].
        -- erewrite nth_replace_eq in Hq by exact Hp. injection Hq as <-.
           exists h, ops, t'. split; auto. split; [eapply nth_replace_eq; eauto|].
           split; [apply I1; eapply nth_replace_eq; eauto|].
           apply (rel_stable (cuts i) (fun _ => True) ops U U1 d1 d1); auto. apply calm_refl.
        -- rewrite nth_replace_neq in Hq by auto. destruct (Hj j q Hq) as (hj & opsj & tj & Hcj & Htj & Hinj & Hrj).
           exists hj, opsj, tj. split; auto. split; [now rewrite nth_replace_neq by auto|]. split; auto.
           assert (fut j ((i, f) :: schedule) = fut j schedule) as Efj.
           { unfold fut. simpl. apply Nat.eqb_neq in Hne. now rewrite Hne. }
           rewrite Efj in Hrj. eapply rel_stable; [exact S1|exact C1| |exact Hrj].
           intros o t Ho1 He o' Ho'. eapply (Hind j i); eauto.
      * exists (o1 ++ o2), ts', U'. rewrite seq_app, H1. split; auto. split; auto. split; auto.
        apply Forall_app. split.
        -- rewrite Forall_forall in *. intros x Hx e He. destruct (H3 x Hx) as [-> Hx'].
           destruct (Hx' e He) as [->|Hin']; [left; reflexivity|]. right. unfold fut in Hin'.
           apply in_map_iff in Hin'. destruct Hin' as ([j g] & Hg & Hjg). simpl in Hg. subst g.
           apply filter_In in Hjg. destruct Hjg as [Hjg Hb]. simpl in Hb. apply Nat.eqb_eq in Hb. now subst j.
        -- eapply Forall_impl; [|exact R4]. intros x Hx e He. right. auto.
    + destruct (IH ps ts d U Hw) as (o2 & ts' & U' & R1 & R2 & R3 & R4).
      * split; auto. intros j q Hq. destruct (Hj j q Hq) as (hj & opsj & tj & Hcj & Htj & Hinj & Hrj).
        exists hj, opsj, tj. split; auto. split; auto. split; auto.
        assert (fut j ((i, f) :: schedule) = fut j schedule) as Efj.
        { unfold fut. simpl. destruct (Nat.eqb_spec i j); [congruence|reflexivity]. }
        now rewrite <- Efj.
      * exists o2, ts', U'. split; auto. split; auto. split; auto.
        eapply Forall_impl; [|exact R4]. intros x Hx e He. right. auto.
Qed.

Lemma callers_length (ts : list (handle k * list op)) : forall i0, length (l_callers (SE := SE) cn ce mn me cuts i0 ts) = length ts.
Proof. induction ts as [|hl ts IH]; intros i0; simpl; auto. Qed.
Lemma callers_nth (ts : list (handle k * list op)) : forall i0 i, nth_error (l_callers (SE := SE) cn ce mn me cuts i0 ts) i =
  option_map (fun hl => l_history cn ce mn me (cuts (i0 + i)) 0 (snd hl) (fst hl)) (nth_error ts i).
Proof.
  induction ts as [|hl ts IH]; intros i0 [|i]; simpl; auto.
  - now rewrite Nat.add_0_r.
  - now rewrite IH, Nat.add_succ_r.
Qed.

Lemma removals_serial U schedule d : fair U d -> agree d ->
  NoDup (session_keys cs) -> (forall r, In r (session_keys cs) -> ~ U r) ->
  Forall (fun hl => Forall one_call (snd hl)) cs ->
  exists order ts,
    seq_run order (map start cs) d = (ts, snd (interleave schedule (l_callers cn ce mn me cuts 0 cs) d)) /\
    (forall i r, nth_error (fst (interleave schedule (l_callers cn ce mn me cuts 0 cs) d)) i = Some (Ret r) -> exists th,
       nth_error ts i = Some th /\ th_todo th = [] /\ r = (th_done th, th_handle th)) /\
    (forall i fs e, In (i, fs) order -> In (Some e) fs -> In (i, Some e) schedule).
Proof.
  intros Hf A Hnd HU Ho.
  assert (keys_left (SE := SE) (BE := BE) (map start cs) = session_keys cs) as Ek.
  { unfold keys_left, session_keys. clear. induction cs as [|[h l] cs' IH]; simpl; auto. now rewrite IH. }
  destruct (interleave_joint schedule (l_callers cn ce mn me cuts 0 cs) (map start cs) d U) as (o1 & ts1 & U1 & H1 & H2 & H3 & H4).
  - unfold world. rewrite Ek. repeat (split; auto). rewrite Forall_forall in *. intros th Hth.
    apply in_map_iff in Hth. destruct Hth as (hl & <- & Hin). apply (Ho hl Hin).
  - split; [now rewrite callers_length, map_length|]. intros i p Hp. rewrite callers_nth in Hp.
    destruct (nth_error cs i) as [[h l]|] eqn:Hc; [|discriminate]. injection Hp as <-.
    exists h, l, (start (h, l)). split; auto. rewrite nth_error_map, Hc. split; auto. split; [apply incl_refl|].
    apply R_idle. unfold lprog. simpl. apply peq_sym. eapply peq_trans; [|apply bind_ret].
    apply peq_bind; [apply peq_refl|]. intros [rs h']. apply peq_refl.
  - destruct (interleave schedule (l_callers cn ce mn me cuts 0 cs) d) as [ps d']. simpl in *.
    destruct H3 as [Hlen Hj].
    assert (Forall2 (resting cn ce mn me) ps ts1) as Hrest.
    { assert (forall i p th, nth_error ps i = Some p -> nth_error ts1 i = Some th -> resting cn ce mn me p th) as Hr.
      { intros i p th Hp Ht. destruct (Hj i p Hp) as (h & ops & th' & _ & Ht' & _ & Hr). rewrite Ht in Ht'. injection Ht' as <-.
        eapply rel_rests; eauto. }
      clear -Hlen Hr. revert ts1 Hlen Hr. induction ps as [|p ps IH]; intros [|th ts1] Hlen Hr; try discriminate; constructor.
      - apply (Hr 0); auto.
      - apply IH; [simpl in Hlen; congruence|]. intros i p' th' Hp Ht. apply (Hr (S i)); auto. }
    destruct (settle cn ce mn me ps ts1 d' Hrest) as (o2 & ts & H5 & H6 & H7).
    exists (o1 ++ o2), ts. rewrite seq_app, H1. split; auto. split.
    + intros i r Hr. destruct (Forall2_nth_l _ _ _ _ _ H7 Hr) as (th & Ht & Hs). exists th. split; auto.
    + intros i fs e Hin He. apply in_app_iff in Hin. rewrite Forall_forall in H4, H6. destruct Hin as [Hin|Hin].
      * now apply (H4 (i, fs)).
      * apply H6 in Hin. simpl in Hin. subst. destruct He.
Qed.
End Main.

End Phase.

Section End.
Context {k : idkind} {NP EP SE BE E : Type} (cn : codec BE NP) (ce : codec BE EP).
Context (mn : NP -> NP -> NP) (me : EP -> EP -> EP).
Notation op := (op k NP EP E).
Notation life := (life (k := k) (NP := NP) (EP := EP) (SE := SE) (E := E)).

Lemma mixed_serial (ls : list life) (cs : list (handle k * list op)) (cuts : nat -> nat -> cutting) (schedule : list (nat * option SE)) :
  codec_ok cn -> codec_ok ce -> NoDup (life_keys ls ++ session_keys cs) ->
  extends_done cn ce mn me ls db_new ->
  Forall (fun hl => Forall one_call (snd hl)) cs -> independent cs ->
  let d := lives cn ce mn me ls db_new in
  let (ps, d') := interleave schedule (l_callers cn ce mn me cuts 0 cs) d in
  exists order ts,
    one_at_a_time cn ce mn me order (map start cs) d = (ts, d') /\
    (forall i r, nth_error ps i = Some (Ret r) -> exists t,
       nth_error ts i = Some t /\ th_todo t = [] /\ r = (th_done t, th_handle t)) /\
    (forall i fs e, In (i, fs) order -> In (Some e) fs -> In (i, Some e) schedule).
Proof.
  intros Hn He Hd Hx Ho Hi. cbv zeta. apply NoDup_app_iff in Hd. destruct Hd as (D1 & D2 & D3).
  destruct (good_new (k := k) cn ce nothing) as [G0 A0].
  pose proof (fair_lives cn ce Hn He mn me ls nothing db_new D1 (fun _ _ H => H) G0) as Hf.
  destruct (moments_lives cn ce Hn He mn me ls nothing db_new D1 (fun _ _ H => H) G0 A0 Hx) as [A _].
  pose proof (removals_serial cn ce mn me Hn He cuts cs Hi _ schedule _ Hf A D2) as H.
  destruct (interleave schedule (l_callers cn ce mn me cuts 0 cs) (lives cn ce mn me ls db_new)) as [ps d']. apply H; auto.
  intros r Hr [[]|Hl]. now apply (D3 r).
Qed.

Lemma mixed_shows (ls : list life) (cs : list (handle k * list op)) (cuts : nat -> nat -> cutting) (schedule : list (nat * option SE)) :
  codec_ok cn -> codec_ok ce -> NoDup (life_keys ls ++ session_keys cs) ->
  extends_done cn ce mn me ls db_new ->
  Forall (fun hl => Forall one_call (snd hl)) cs -> independent cs ->
  let d := lives cn ce mn me ls db_new in
  let (ps, d') := interleave schedule (l_callers cn ce mn me cuts 0 cs) d in
  (forall p, In p ps -> exists r, p = Ret r) ->
  exists g g' s, sled_shows SE cn ce d g /\ shuffle (logs cs ps) s /\ moves mn me s g g' /\
    sled_shows SE cn ce d' g'.
Proof.
  intros Hn He Hd Hx Ho Hi. pose proof (mixed_serial ls cs cuts schedule Hn He Hd Hx Ho Hi) as Hs. cbv zeta in *.
  apply NoDup_app_iff in Hd. destruct Hd as (D1 & D2 & D3).
  destruct (good_new (k := k) cn ce nothing) as [G0 A0].
  pose proof (fair_lives cn ce Hn He mn me ls nothing db_new D1 (fun _ _ H => H) G0) as Hf.
  destruct (moments_lives cn ce Hn He mn me ls nothing db_new D1 (fun _ _ H => H) G0 A0 Hx) as [A _].
  set (d := lives cn ce mn me ls db_new) in *.
  pose proof (interleave_length schedule (l_callers (SE := SE) cn ce mn me cuts 0 cs) d) as Hlen.
  rewrite callers_length in Hlen.
  destruct (interleave schedule (l_callers cn ce mn me cuts 0 cs) d) as [ps d']. simpl in Hlen. intros Hret.
  destruct Hs as (order & ts & H1 & H2 & _).
  destruct (serial_moves cn ce mn me Hn He (fun _ => True) order (map start cs) d (plus_keys nothing (life_keys ls)) ts d') as (lgs & s & U & R1 & R2 & R3 & R4 & R5 & R6); auto.
  - apply Forall_forall. intros t Hin. apply in_map_iff in Hin. destruct Hin as (hl & <- & Hin). simpl.
    rewrite Forall_forall in Ho. eapply Forall_impl; [|apply Ho, Hin]. auto.
  - assert (keys_left (SE := SE) (BE := BE) (map start cs) = session_keys cs) as ->; auto.
    unfold keys_left, session_keys. clear. induction cs as [|[h l] cs' IH]; simpl; auto. now rewrite IH.
  - assert (keys_left (SE := SE) (BE := BE) (map start cs) = session_keys cs) as ->.
    { unfold keys_left, session_keys. clear. induction cs as [|[h l] cs' IH]; simpl; auto. now rewrite IH. }
    intros r Hr [[]|Hl]. now apply (D3 r).
  - rewrite (logs_done cs ps ts lgs Hlen Hret H2 R1) in R2. exists (sabs cn ce d), (sabs cn ce d'), s.
    split; [eapply good_shows; split; eauto|]. split; auto. split; auto. eapply good_shows; split; eauto.
Qed.

End End.
