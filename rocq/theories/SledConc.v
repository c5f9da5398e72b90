(** Handles running at the same time. *)
From Coq Require Import Arith NArith List Bool Sorted Lia.
From Verif Require Import Bytes BytesFacts OMap OMapFacts Core IdType IdTypeFacts Store Mem Spec
  CodecFacts ListFacts MemSim History Prog ProgFacts Sled SledHistory SledSched SledDb SledOps SledBulk
  SledRun SledRead SledTop SledMain SledCrash.
Import ListNotations.

(** ** Programs up to what cannot be observed *)
Section Peq.
Context {D SE : Type}.
Notation P A := (prog D SE A).

Inductive peq {A} : P A -> P A -> Prop :=
| Pq_ret a : peq (Ret a) (Ret a)
| Pq_look c c' : (forall d, peq (c d) (c' d)) -> peq (Look c) (Look c')
| Pq_act u c c' e e' : (forall d, peq (c d) (c' d)) -> (forall x, peq (e x) (e' x)) ->
    peq (Act u c e) (Act u c' e').

Lemma peq_refl {A} (p : P A) : peq p p.
Proof. induction p; constructor; auto. Qed.

Lemma peq_trans {A} (p q : P A) : peq p q -> forall r, peq q r -> peq p r.
Proof.
  induction 1 as [a|c c' H IH|u c c' e e' H IH He IHe]; intros r Hr; inversion Hr; subst; constructor; auto.
Qed.

Lemma peq_sym {A} (p q : P A) : peq p q -> peq q p.
Proof. induction 1; constructor; auto. Qed.

Lemma peq_bind {A B} (p q : P A) (f g : A -> P B) :
  peq p q -> (forall a, peq (f a) (g a)) -> peq (bind p f) (bind q g).
Proof. intros H Hf. induction H; simpl; auto; constructor; auto. Qed.

Lemma bind_assoc {A B C} (p : P A) (f : A -> P B) (g : B -> P C) :
  peq (bind (bind p f) g) (bind p (fun a => bind (f a) g)).
Proof. induction p; simpl; [apply peq_refl | |]; constructor; auto. Qed.

Lemma bind_ret {A} (p : P A) : peq (bind p (fun a => Ret a)) p.
Proof. induction p; simpl; constructor; auto. Qed.

Lemma peq_step {A} f (p q : P A) d : peq p q ->
  peq (fst (step1 f p d)) (fst (step1 f q d)) /\ snd (step1 f p d) = snd (step1 f q d).
Proof.
  intros H. inversion H; subst; simpl.
  - split; constructor.
  - auto.
  - destruct f; simpl; auto.
Qed.
End Peq.

(** ** Lists *)
Section Nth.
Context {A : Type}.
Implicit Types l : list A.

Lemma nth_replace_eq l : forall i x y, nth_error l i = Some y -> nth_error (replace_nth i x l) i = Some x.
Proof. induction l as [|z l IH]; intros [|i] x y H; simpl in *; try discriminate; eauto. Qed.

Lemma nth_replace_neq l : forall i j x, i <> j -> nth_error (replace_nth i x l) j = nth_error l j.
Proof. induction l as [|z l IH]; intros [|i] [|j] x N; simpl in *; auto; try congruence. Qed.

Lemma replace_same l : forall i x, nth_error l i = Some x -> replace_nth i x l = l.
Proof.
  induction l as [|z l IH]; intros [|i] x H; simpl in *; try discriminate; auto.
  - congruence.
  - f_equal. auto.
Qed.

Lemma replace_twice l : forall i x y, replace_nth i x (replace_nth i y l) = replace_nth i x l.
Proof. induction l as [|z l IH]; intros [|i] x y; simpl; auto. f_equal. auto. Qed.

Lemma replace_length l : forall i x, length (replace_nth i x l) = length l.
Proof. induction l as [|z l IH]; intros [|i] x; simpl; auto. Qed.

Lemma map_replace {B} (f : A -> B) l : forall i x, map f (replace_nth i x l) = replace_nth i (f x) (map f l).
Proof. induction l as [|z l IH]; intros [|i] x; simpl; auto. f_equal. auto. Qed.

Lemma Forall_replace (Q : A -> Prop) l : forall i x, Forall Q l -> Q x -> Forall Q (replace_nth i x l).
Proof.
  induction l as [|z l IH]; intros [|i] x H Hx; simpl; auto; inversion H; subst; constructor; auto.
Qed.

Lemma Forall2_nth {B} (R : A -> B -> Prop) l (l' : list B) i x y :
  Forall2 R l l' -> nth_error l i = Some x -> nth_error l' i = Some y -> R x y.
Proof.
  intros H. revert i. induction H; intros [|i] H1 H2; simpl in *; try discriminate; eauto. congruence.
Qed.

Lemma Forall2_nth_l {B} (R : A -> B -> Prop) l (l' : list B) i x :
  Forall2 R l l' -> nth_error l i = Some x -> exists y, nth_error l' i = Some y /\ R x y.
Proof.
  intros H. revert i. induction H; intros [|i] H1; simpl in *; try discriminate; eauto.
  injection H1 as <-. eauto.
Qed.

Lemma Forall2_nth_r {B} (R : A -> B -> Prop) l (l' : list B) i y :
  Forall2 R l l' -> nth_error l' i = Some y -> exists x, nth_error l i = Some x /\ R x y.
Proof.
  intros H. revert i. induction H; intros [|i] H1; simpl in *; try discriminate; eauto.
  injection H1 as <-. eauto.
Qed.

Lemma Forall2_replace {B} (R : A -> B -> Prop) l (l' : list B) : Forall2 R l l' -> forall i x y,
  R x y -> Forall2 R (replace_nth i x l) (replace_nth i y l').
Proof.
  intros H. induction H; intros [|i] a b Hab; simpl; try constructor; auto.
Qed.

Lemma Forall2_replace_r {B} (R : A -> B -> Prop) l (l' : list B) : Forall2 R l l' -> forall i x y,
  nth_error l i = Some x -> R x y -> Forall2 R l (replace_nth i y l').
Proof.
  intros H i x y Hx Hxy. rewrite <- (replace_same l i x Hx). now apply Forall2_replace.
Qed.
End Nth.

Section Conc.
Context {k : idkind} {NP EP SE BE E : Type} (cn : codec BE NP) (ce : codec BE EP).
Context (mn : NP -> NP -> NP) (me : EP -> EP -> EP).
Notation I := (Id k).
Notation T := (triple (Id k)).
Notation G := (graph k NP EP).
Notation err := (sled_error SE BE).
Notation P A := (prog db SE A).
Notation op := (op k NP EP E).
Notation outcome := (outcome (SE := SE) (BE := BE) (E := E)).
Notation thread := (thread (k := k) (NP := NP) (EP := EP) (SE := SE) (BE := BE) (E := E)).
Notation apply := (sled_apply (SE := SE) cn ce mn me).
Notation hist := (sled_history (SE := SE) cn ce mn me).
Notation seq_run := (one_at_a_time cn ce mn me).
Implicit Types ts : list thread.
Implicit Types d : db.
Implicit Types h : handle k.
Implicit Types l : list op.
Implicit Types o : op.
Implicit Types order : list (nat * list (option SE)).

(** What a thread between two calls is going to do. *)
Definition prog_of (t : thread) : P (list outcome * handle k) :=
  bind (hist (th_todo t) (th_handle t)) (fun rsh => Ret (th_done t ++ fst rsh, snd rsh)).

(** The same after the first call. *)
Lemma prog_of_call h o l rs :
  peq (prog_of (Thread h (o :: l) rs))
      (bind (apply o h) (fun rh => prog_of (Thread (snd rh) l (rs ++ [fst rh])))).
Proof.
  unfold prog_of. simpl. eapply peq_trans; [apply bind_assoc|].
  apply peq_bind; [apply peq_refl|]. intros rh. eapply peq_trans; [apply bind_assoc|].
  apply peq_bind; [apply peq_refl|]. intros rsh. simpl. rewrite <- app_assoc. apply peq_refl.
Qed.

Lemma seq_app a b ts d :
  seq_run (a ++ b) ts d = let (ts', d') := seq_run a ts d in seq_run b ts' d'.
Proof.
  revert ts d. induction a as [|[i f] a IH]; intros ts d; simpl; auto.
  destruct (turn cn ce mn me i f ts d) as [ts' d']. apply IH.
Qed.

(** At most one storage step. *)
Definition single {A} (p : P A) : Prop :=
  match p with
  | Ret _ => True
  | Look _ => False
  | Act u c e => (forall d, exists a, c d = Ret a) /\ (forall x, exists a, e x = Ret a)
  end.

Lemma single_apply o h : transactional o -> single (apply o h).
Proof.
  destruct o as [v p|t e|v|t|v p|t e|s|s]; simpl; try contradiction; intros _;
    unfold lift, and_handle, s_insert_node, s_insert_edge, s_merge_node, s_merge_edge, draw, fresh, transaction,
      bind_ok, bincode, tree_insert, bind_ok; simpl.
  - destruct (ser cn p) as [b|b]; simpl; auto. split; intros; eauto.
  - destruct (ser ce e) as [b|b]; simpl; auto. split; intros; eauto.
  - split; intros; eauto. destruct (merge_node_txn cn mn (to_be_bytes v) p d) as [[]|]; simpl; eauto.
  - split; intros; eauto.
    match goal with |- context [merge_edge_txn ?a ?b ?c ?f ?g d] => destruct (merge_edge_txn a b c f g d) as [[]|] end; simpl; eauto.
Qed.

(** One step of a thread is some of its calls made at once. *)
Lemma step_thread l : Forall transactional l -> forall h rs f d ts i,
  nth_error ts i = Some (Thread h l rs) ->
  exists order (t' : thread),
    seq_run order ts d = (replace_nth i t' ts, snd (step1 f (prog_of (Thread h l rs)) d)) /\
    peq (fst (step1 f (prog_of (Thread h l rs)) d)) (prog_of t') /\
    Forall transactional (th_todo t') /\
    Forall (fun x => fst x = i /\ forall e, In (Some e) (snd x) -> f = Some e) order.
Proof.
  induction 1 as [|o l Ho Hl IH]; intros h rs f d ts i Hi.
  - exists [], (Thread h [] rs). simpl. rewrite (replace_same _ _ _ Hi). split; auto. split; [apply peq_refl|].
    split; constructor.
  - destruct (peq_step f _ _ d (prog_of_call h o l rs)) as [Hp ->].
    pose proof (single_apply o h Ho) as Hs.
    assert (forall fs, turn cn ce mn me i fs ts d =
      (replace_nth i (Thread (snd (ret_of (apply o h) fs d)) l (rs ++ [fst (ret_of (apply o h) fs d)])) ts, db_of (apply o h) fs d)) as Ht.
    { intros fs. unfold turn. now rewrite Hi. }
    destruct (apply o h) as [rh|c|u c e] eqn:Ea; [|destruct Hs|].
    + simpl in Hp |- *. specialize (Ht []). cbn in Ht.
      destruct (IH (snd rh) (rs ++ [fst rh]) f d (replace_nth i (Thread (snd rh) l (rs ++ [fst rh])) ts) i) as (order & t' & H1 & H2 & H3 & H4).
      { eapply nth_replace_eq; eauto. }
      exists ((i, []) :: order), t'. simpl. rewrite Ht, H1, replace_twice. split; auto.
      split; [eapply peq_trans; eauto|]. split; auto. constructor; auto. simpl. split; auto. intros e [].
    + destruct Hs as [Hc He]. simpl in Hp |- *. destruct f as [x|]; simpl in *.
      * destruct (He x) as [rh Er]. rewrite Er in Hp. simpl in Hp.
        specialize (Ht [Some x]). unfold ret_of, db_of in Ht. simpl in Ht. rewrite Er in Ht. simpl in Ht.
        exists [(i, [Some x])], (Thread (snd rh) l (rs ++ [fst rh])). simpl. rewrite Ht. split; auto. split; auto. split; auto.
        constructor; auto. split; auto. simpl. intros e0 [H|[]]. auto.
      * destruct (Hc d) as [rh Er]. rewrite Er in Hp. simpl in Hp.
        specialize (Ht [None]). unfold ret_of, db_of in Ht. simpl in Ht. rewrite Er in Ht. simpl in Ht.
        exists [(i, [None])], (Thread (snd rh) l (rs ++ [fst rh])). simpl. rewrite Ht. split; auto. split; auto. split; auto.
        constructor; auto. split; auto. simpl. intros e0 [H|[]]. discriminate.
Qed.

(** A thread whose remaining calls do nothing. *)
Lemma finish_thread l : forall h rs r d ts i,
  nth_error ts i = Some (Thread h l rs) -> peq (Ret r) (prog_of (Thread h l rs)) ->
  exists order, seq_run order ts d = (replace_nth i (Thread (snd r) [] (fst r)) ts, d) /\
    Forall (fun x => fst x = i /\ snd x = []) order.
Proof.
  induction l as [|o l IH]; intros h rs r d ts i Hi Hp.
  - exists []. unfold prog_of in Hp. simpl in Hp. inversion Hp; subst. simpl. rewrite app_nil_r.
    rewrite (replace_same _ _ _ Hi). split; auto.
  - pose proof (peq_trans _ _ Hp _ (prog_of_call h o l rs)) as Hp'.
    destruct (apply o h) as [rh|c|u c e] eqn:Ea; [|inversion Hp'|inversion Hp']. simpl in Hp'.
    destruct (IH (snd rh) (rs ++ [fst rh]) r d (replace_nth i (Thread (snd rh) l (rs ++ [fst rh])) ts) i) as (order & H1 & H2); auto.
    { eapply nth_replace_eq; eauto. }
    exists ((i, []) :: order). simpl. unfold turn. rewrite Hi, Ea. cbn [ret_of db_of exec fst snd]. rewrite H1, replace_twice. auto.
Qed.

Definition follows (p : P (list outcome * handle k)) (t : thread) : Prop :=
  peq p (prog_of t) /\ Forall transactional (th_todo t).
Definition settled (p : P (list outcome * handle k)) (t : thread) : Prop :=
  forall r, p = Ret r -> th_todo t = [] /\ r = (th_done t, th_handle t).

Definition resting (p : P (list outcome * handle k)) (t : thread) : Prop :=
  forall r, p = Ret r -> peq p (prog_of t).

Lemma settle (ps : list (P (list outcome * handle k))) : forall ts d, Forall2 resting ps ts ->
  exists order ts', seq_run order ts d = (ts', d) /\ Forall (fun x => snd x = []) order /\ Forall2 settled ps ts'.
Proof.
  assert (forall n ts d, n <= length ps -> Forall2 resting ps ts ->
    exists order ts', seq_run order ts d = (ts', d) /\ Forall (fun x => snd x = []) order /\ Forall2 resting ps ts' /\
      forall i p t, i < n -> nth_error ps i = Some p -> nth_error ts' i = Some t -> settled p t) as H.
  { induction n as [|n IH]; intros ts d Hn Hf.
    - exists [], ts. split; auto. split; auto. split; auto. intros i p t Hi. lia.
    - destruct (IH ts d) as (order & ts' & H1 & H2 & H3 & H4); auto; [lia|].
      destruct (nth_error ps n) as [p|] eqn:Hp; [|apply nth_error_None in Hp; lia].
      destruct (Forall2_nth_l _ _ _ _ _ H3 Hp) as ([h l rs] & Ht & Hpq).
      destruct p as [r|c|u c e].
      2,3: exists order, ts'; split; [exact H1|]; split; [exact H2|]; split; [exact H3|]; intros i p t Hi Hp' Ht';
        destruct (Nat.eq_dec i n) as [->|Ni]; [rewrite Hp in Hp'; injection Hp' as <-; intros r Hr; discriminate |
          apply (H4 i p t); auto; lia].
      destruct (finish_thread l h rs r d ts' n Ht (Hpq r eq_refl)) as (order' & H5 & H6).
      exists (order ++ order'), (replace_nth n (Thread (snd r) [] (fst r)) ts'). rewrite seq_app, H1. split; auto. split; [|split].
      + apply Forall_app. split; auto. eapply Forall_impl; [|exact H6]. intros x Hx. apply Hx.
      + eapply Forall2_replace_r; eauto. intros r' [= <-]. unfold prog_of. simpl. rewrite app_nil_r, <- surjective_pairing. constructor.
      + intros i p t Hi Hp' Ht'. destruct (Nat.eq_dec i n) as [->|Ni].
        * rewrite Hp in Hp'. injection Hp' as <-. rewrite (nth_replace_eq _ _ _ _ Ht) in Ht'. injection Ht' as <-.
          intros r' [= ->]. simpl. split; auto. apply surjective_pairing.
        * rewrite nth_replace_neq in Ht' by auto. apply (H4 i p t); auto. lia. }
  intros ts d Hf. destruct (H (length ps) ts d (le_n _) Hf) as (order & ts' & H1 & H2 & H3 & H4).
  exists order, ts'. split; auto. split; auto. clear -H3 H4.
  revert H4. induction H3 as [|p t ps ts' Hpt H3 IH]; intros H4; constructor.
  - apply (H4 0 p t); simpl; auto. lia.
  - apply IH. intros i p' t' Hi Hp Ht. apply (H4 (S i) p' t'); simpl; auto. lia.
Qed.

(** Whatever the schedule, the database is at every moment what it would be had some of the
    calls been made one after the other. *)
Lemma interleave_seq schedule : forall (ps : list (P (list outcome * handle k))) ts d,
  Forall2 follows ps ts ->
  exists order ts', seq_run order ts d = (ts', snd (interleave schedule ps d)) /\
    Forall2 follows (fst (interleave schedule ps d)) ts' /\
    Forall (fun x => forall e, In (Some e) (snd x) -> In (fst x, Some e) schedule) order.
Proof.
  induction schedule as [|[i f] schedule IH]; intros ps ts d Hf.
  - exists [], ts. simpl. auto.
  - simpl. destruct (nth_error ps i) as [p|] eqn:Hp.
    + destruct (Forall2_nth_l _ _ _ _ _ Hf Hp) as ([h l rs] & Ht & [Hpq Htr]). simpl in Htr.
      destruct (step_thread l Htr h rs f d ts i Ht) as (order1 & t' & H1 & H2 & H3 & H4).
      destruct (peq_step f _ _ d Hpq) as [Hs1 Hs2]. destruct (step1 f p d) as [p' d']. simpl in Hs1, Hs2. rewrite <- Hs2 in H1.
      destruct (IH (replace_nth i p' ps) (replace_nth i t' ts) d') as (order2 & ts' & H5 & H6 & H7).
      { apply Forall2_replace; auto. split; auto. eapply peq_trans; eauto. }
      exists (order1 ++ order2), ts'. rewrite seq_app, H1. split; auto. split; auto. apply Forall_app. split.
      * eapply Forall_impl; [|exact H4]. intros [j fs] [-> Hx] e He. simpl in *. rewrite (Hx e He). auto.
      * eapply Forall_impl; [|exact H7]. intros [j fs] Hx e He. right. auto.
    + destruct (IH ps ts d Hf) as (order & ts' & H5 & H6 & H7). exists order, ts'. split; auto. split; auto.
      eapply Forall_impl; [|exact H7]. intros [j fs] Hx e He. right. auto.
Qed.

Lemma follows_start (cs : list (handle k * list op)) :
  Forall (fun hl => Forall transactional (snd hl)) cs ->
  Forall2 follows (callers cn ce mn me cs) (map start cs).
Proof.
  induction 1 as [|[h l] cs H Hcs IH]; simpl; constructor; auto. split; auto.
  unfold prog_of. simpl. apply peq_sym. eapply peq_trans; [|apply bind_ret].
  apply peq_bind; [apply peq_refl|]. intros [rs h']. apply peq_refl.
Qed.

Lemma concurrent_serial (cs : list (handle k * list op)) schedule d :
  Forall (fun hl => Forall transactional (snd hl)) cs ->
  let (ps, d') := interleave schedule (callers cn ce mn me cs) d in
  exists order ts,
    one_at_a_time cn ce mn me order (map start cs) d = (ts, d') /\
    (forall i r, nth_error ps i = Some (Ret r) -> exists t,
       nth_error ts i = Some t /\ th_todo t = [] /\ r = (th_done t, th_handle t)) /\
    (forall i fs e, In (i, fs) order -> In (Some e) fs -> In (i, Some e) schedule).
Proof.
  intros Hcs. destruct (interleave_seq schedule _ _ d (follows_start cs Hcs)) as (o1 & ts1 & H1 & H2 & H3).
  destruct (interleave schedule (callers cn ce mn me cs) d) as [ps d']. simpl in *.
  assert (Forall2 resting ps ts1) as H2' by (clear -H2; induction H2; constructor; auto; intros r _; apply H).
  destruct (settle ps ts1 d' H2') as (o2 & ts & H4 & H5 & H6).
  exists (o1 ++ o2), ts. rewrite seq_app, H1. split; auto. split.
  - intros i r Hr. destruct (Forall2_nth_l _ _ _ _ _ H6 Hr) as (t & Ht & Hs). exists t. split; auto.
  - intros i fs e Hin He. apply in_app_iff in Hin. rewrite Forall_forall in H3, H5. destruct Hin as [Hin|Hin].
    + now apply (H3 (i, fs)).
    + apply H5 in Hin. simpl in Hin. subst. destruct He.
Qed.

(** ** What the calls made one after the other do to the graph *)
Context (Hcn : codec_ok cn) (Hce : codec_ok ce).
Notation fair := (fair (k := k) cn ce).
Notation agree := (indexes_agree (k := k)).
Notation sabs := (sabs (k := k) cn ce).
Notation expected := (expected (SE := SE) (BE := BE)).

Notation moved := (moved (SE := SE) (BE := BE) (E := E) mn me).
Notation moves := (moves (SE := SE) (BE := BE) (E := E) mn me).

Definition advance h (n : nat) : handle k := Handle (Gen (g_seq (h_gen h)) (g_pos (h_gen h) + n)) (h_ulid h).

Lemma advance_0 h : advance h 0 = h.
Proof. destruct h as [[s p] u]. unfold advance. simpl. now rewrite Nat.add_0_r. Qed.

Lemma ret_of_lift_handle h (p : P (result err unit)) fs d :
  snd (ret_of (lift (and_handle h p) : P (outcome * handle k)) fs d) = h.
Proof.
  unfold lift, and_handle. rewrite !ret_of_bind. reflexivity.
Qed.

Lemma apply_handle o h fs d : one_call o -> snd (ret_of (apply o h) fs d) = advance h (draws o).
Proof.
  assert (advance h 1 = step_gen h) as E1 by (unfold advance, step_gen; now rewrite Nat.add_1_r).
  destruct o; intros Ho; try contradiction; cbn [sled_apply draws]; rewrite ?advance_0, ?E1; try apply ret_of_lift_handle.
Qed.

Lemma one_call_ulids o : one_call o -> draws_ulid o = 0.
Proof. destruct o; simpl; auto; contradiction. Qed.

Lemma calls_ulids l : Forall one_call l -> sum (map draws_ulid l) = 0.
Proof. induction 1; simpl; auto. rewrite one_call_ulids; auto. Qed.

Lemma keys_call o l h : Forall one_call (o :: l) ->
  history_keys h (o :: l) = history_keys h [o] ++ history_keys (advance h (draws o)) l.
Proof.
  intros H. inversion H as [|? ? H1 H2]; subst. unfold history_keys. rewrite (calls_ulids (o :: l)), (calls_ulids l), (calls_ulids [o]) by auto.
  unfold next_ids. simpl. rewrite !app_nil_r, Nat.add_0_r, List.seq_app, !map_app. reflexivity.
Qed.

Lemma call_moves U o h fs d : one_call o -> fair U d -> agree d ->
  NoDup (history_keys h [o]) -> (forall x, In x (history_keys h [o]) -> ~ U x) ->
  let rh := ret_of (apply o h) fs d in
  let x := db_of (apply o h) fs d in
  fair (plus_keys U (history_keys h [o])) x /\ agree x /\ moved o (fst rh) (sabs d) (sabs x).
Proof.
  intros Ho Hf A Hnd HU. cbv zeta.
  assert (not_extend o) as Hx by (destruct o; simpl in *; auto).
  pose proof (wp_op cn ce Hcn Hce mn me U h (sum (map draws [o])) (sum (map draws_ulid [o])) Hnd HU (fun _ : SE => True) (part cn ce) (between_part cn ce)
    (fun _ _ _ Hp => Hp) o (or_introl Hx) 0 0 d) as W. rewrite at_00 in W.
  assert (0 + draws o <= sum (map draws [o])) as L1 by (simpl; lia).
  assert (0 + draws_ulid o <= sum (map draws_ulid [o])) as L2 by (simpl; lia).
  specialize (W L1 L2 (start_fair cn ce U h d Hf)).
  pose proof (wp_exec _ _ (fun (rh : outcome * handle k) x => after cn ce U h (fun _ : SE => True) (op_steps mn me o)
    (expected o) 0 0 (draws o) (draws_ulid o) d rh x) _ fs d (allowed_all _) W) as W'.
  destruct W' as ([H1 H2] & H3 & _).
  specialize (H2 A). destruct H2 as [A' [c Hc]].
  assert (SledCrash.single o -> failed (fst (ret_of (apply o h) fs d)) -> db_of (apply o h) fs d = d) as Hun.
  { intros Hs Hr. eapply careful_unchanged; [now apply careful_single|exact Hr]. }
  revert H3 Hun. generalize (ret_of (apply o h) fs d). intros [r h'] (i' & j' & _ & _ & _ & _ & H3) Hun. cbn [fst] in *.
  split; [|split; [exact A'|]].
  - eapply fair_mono; [|exact H1]. intros x. apply used_keys.
  - unfold moved. rewrite op_steps_spec in H3.
    destruct r as [[]|[e|e]]; cbn [succeeded]; try (destruct H3 as [H3 H4]; split; [exact H3|]; now apply H4).
    destruct o; try contradiction; try (left; rewrite Hun by exact Logic.I; apply g_equiv_refl).
    destruct c as [|c]; [left; exact Hc|]. right. split; auto. simpl in Hc. now rewrite firstn_nil in Hc.
Qed.

Definition ran (t : thread) (lg : list (op * outcome)) (t' : thread) : Prop :=
  th_todo t = map fst lg ++ th_todo t' /\ th_done t' = th_done t ++ map snd lg.

Definition all_ran ts (lgs : list (list (op * outcome))) ts' : Prop :=
  forall i, match nth_error ts i, nth_error lgs i, nth_error ts' i with
  | Some t, Some lg, Some t' => ran t lg t'
  | None, None, None => True
  | _, _, _ => False
  end.

Definition keys_left ts : list bytes := flat_map (fun t => history_keys (th_handle t) (th_todo t)) ts.

Lemma keys_turn ts i h o l rs r : nth_error ts i = Some (Thread h (o :: l) rs) -> Forall one_call (o :: l) ->
  forall x, In x (keys_left ts) <->
    In x (history_keys h [o]) \/ In x (keys_left (replace_nth i (Thread (advance h (draws o)) l (rs ++ [r])) ts)).
Proof.
  intros Hi Hl x. revert i Hi. induction ts as [|t ts IH]; intros [|i] Hi; simpl in Hi; try discriminate.
  - injection Hi as ->. cbn [keys_left flat_map replace_nth th_handle th_todo].
    rewrite (keys_call o l h Hl), !in_app_iff. tauto.
  - specialize (IH i Hi). unfold keys_left in *. cbn [flat_map replace_nth]. rewrite !in_app_iff, IH. tauto.
Qed.

Lemma keys_turn_nodup ts i h o l rs r : nth_error ts i = Some (Thread h (o :: l) rs) -> Forall one_call (o :: l) ->
  NoDup (keys_left ts) ->
  NoDup (history_keys h [o]) /\ NoDup (keys_left (replace_nth i (Thread (advance h (draws o)) l (rs ++ [r])) ts)) /\
  forall x, In x (history_keys h [o]) -> ~ In x (keys_left (replace_nth i (Thread (advance h (draws o)) l (rs ++ [r])) ts)).
Proof.
  intros Hi Hl. revert i Hi. induction ts as [|t ts IH]; intros [|i] Hi Hnd; simpl in Hi; try discriminate.
  - injection Hi as ->. cbn [keys_left flat_map replace_nth th_handle th_todo] in *.
    rewrite (keys_call o l h Hl), <- app_assoc in Hnd. apply NoDup_app_iff in Hnd. exact Hnd.
  - pose proof (keys_turn ts i h o l rs r Hi Hl) as Hk. unfold keys_left in *. cbn [flat_map replace_nth] in *.
    apply NoDup_app_iff in Hnd. destruct Hnd as (N1 & N2 & N3). destruct (IH i Hi N2) as (M1 & M2 & M3).
    split; auto. split.
    + apply NoDup_app_iff. split; auto. split; auto. intros x H1 H2. apply (N3 x H1), Hk. auto.
    + intros x H1 H2. apply in_app_iff in H2. destruct H2 as [H2|H2]; [|now apply (M3 x)].
      apply (N3 x H2), Hk. auto.
Qed.

Lemma serial_moves (Q : op -> Prop) order : forall ts d U ts' d',
  Forall (fun t => Forall (fun o => one_call o /\ Q o) (th_todo t)) ts ->
  fair U d -> agree d -> NoDup (keys_left ts) -> (forall x, In x (keys_left ts) -> ~ U x) ->
  seq_run order ts d = (ts', d') ->
  exists lgs s U', all_ran ts lgs ts' /\ shuffle lgs s /\ moves s (sabs d) (sabs d') /\
    Forall (fun x => Q (fst x)) s /\ fair U' d' /\ agree d'.
Proof.
  induction order as [|[i fs] order IH]; intros ts d U ts' d' Hq Hf A Hnd HU Hrun; simpl in Hrun.
  - injection Hrun as <- <-. exists (map (fun _ => []) ts), [], U. split; [|split; [|split; [|split; [|split]]]]; auto.
    + intros i. rewrite nth_error_map. destruct (nth_error ts i); simpl; auto. split; simpl; auto. now rewrite app_nil_r.
    + constructor. apply Forall_forall. intros x Hx. apply in_map_iff in Hx. destruct Hx as (y & <- & _). auto.
    + apply g_equiv_refl.
  - unfold turn in Hrun. destruct (nth_error ts i) as [[h [|o l] rs]|] eqn:Hi.
    { now apply (IH ts d U). }
    2: { now apply (IH ts d U). }
    assert (Forall (fun o => one_call o /\ Q o) (o :: l)) as Hol.
    { rewrite Forall_forall in Hq. apply (Hq (Thread h (o :: l) rs)). eapply nth_error_In; eauto. }
    assert (Forall one_call (o :: l)) as Hol1 by (eapply Forall_impl; [|exact Hol]; intros a [H _]; exact H).
    inversion Hol as [|? ? [Ho HQ] Hl]; subst.
    set (r := fst (ret_of (apply o h) fs d)) in *. rewrite (apply_handle o h fs d Ho) in Hrun.
    set (x := db_of (apply o h) fs d) in *.
    destruct (keys_turn_nodup ts i h o l rs r Hi Hol1 Hnd) as (N1 & N2 & N3).
    pose proof (keys_turn ts i h o l rs r Hi Hol1) as Hk.
    set (t1 := Thread (advance h (draws o)) l (rs ++ [r])) in *.
    destruct (call_moves U o h fs d Ho Hf A N1) as (F1 & A1 & M1).
    { intros y Hy. apply HU, Hk. auto. }
    fold r x in F1, A1, M1.
    destruct (IH (replace_nth i t1 ts) x (plus_keys U (history_keys h [o])) ts' d') as (lgs & s & U' & H1 & H2 & H3 & H4 & H5); auto.
    { apply Forall_replace; auto. }
    { intros y Hy [Hy'|Hy']; [apply (HU y); auto; apply Hk; auto | now apply (N3 y)]. }
    pose proof (H1 i) as H1i. rewrite (nth_replace_eq _ _ _ _ Hi) in H1i.
    destruct (nth_error lgs i) as [lg|] eqn:Hlg; [|contradiction]. destruct (nth_error ts' i) as [t'|] eqn:Ht'; [|contradiction].
    exists (replace_nth i ((o, r) :: lg) lgs), ((o, r) :: s), U'. split; [|split; [|split; [|split]]]; auto.
    + intros j. destruct (Nat.eq_dec i j) as [<-|Nj].
      * rewrite Hi, (nth_replace_eq _ _ _ _ Hlg), Ht'. destruct H1i as [R1 R2]. split; simpl in *; [now rewrite R1|].
        rewrite R2, <- app_assoc. reflexivity.
      * specialize (H1 j). rewrite nth_replace_neq in H1 by auto. rewrite nth_replace_neq by auto. exact H1.
    + apply (Shuffle_cons _ i (o, r) lg s); [eapply nth_replace_eq; eauto|].
      rewrite replace_twice, (replace_same _ _ _ Hlg). exact H2.
    + exists (sabs x). split; auto.
Qed.

Lemma moves_exact (s : list (op * outcome)) : Forall (fun x => transactional (fst x)) s -> forall g g',
  moves s g g' ->
  g_equiv g' (spec_history mn me (map fst (filter (fun x => succeeded (snd x)) s)) g) /\
  Forall (fun x => succeeded (snd x) = true -> snd x = expected (fst x)) s.
Proof.
  induction 1 as [|[o r] s Ho Hs IH]; intros g g' H.
  - simpl in *. split; auto.
  - destruct H as (g1 & H1 & H2). apply IH in H2. destruct H2 as [H2 H3]. unfold moved in H1.
    cbn [filter fst snd]. destruct (succeeded r) eqn:Er.
    + destruct H1 as [E1 H1]. split.
      * simpl. eapply g_equiv_trans; [exact H2|]. now apply spec_history_equiv.
      * constructor; auto.
    + destruct H1 as [H1|[H1 _]]; [|destruct o; simpl in *; contradiction]. split.
      * eapply g_equiv_trans; [exact H2|]. now apply spec_history_equiv.
      * constructor; auto. simpl. congruence.
Qed.

End Conc.

Lemma nth_error_ext {A} (l l' : list A) : (forall i, nth_error l i = nth_error l' i) -> l = l'.
Proof.
  revert l'. induction l as [|x l IH]; intros [|y l'] H; auto.
  - specialize (H 0). discriminate.
  - specialize (H 0). discriminate.
  - f_equal; [now injection (H 0)|]. apply IH. intros i. apply (H (S i)).
Qed.

Section Top.
Context {k : idkind} {NP EP SE BE E : Type} (cn : codec BE NP) (ce : codec BE EP).
Context (mn : NP -> NP -> NP) (me : EP -> EP -> EP).
Notation op := (op k NP EP E).

Lemma interleave_length {D A} schedule : forall (ps : list (prog D SE A)) d,
  length (fst (interleave schedule ps d)) = length ps.
Proof.
  induction schedule as [|[i f] schedule IH]; intros ps d; simpl; auto.
  destruct (nth_error ps i); auto. destruct (step1 f p d) as [p' d']. rewrite IH. apply replace_length.
Qed.

Lemma combine_split {A B} (l : list (A * B)) : combine (map fst l) (map snd l) = l.
Proof. induction l as [|[a b] l IH]; simpl; auto. now rewrite IH. Qed.

Lemma nth_combine {A B} (l : list A) : forall (l' : list B) i,
  nth_error (combine l l') i = match nth_error l i, nth_error l' i with Some a, Some b => Some (a, b) | _, _ => None end.
Proof.
  induction l as [|a l IH]; intros [|b l'] [|i]; simpl; auto. now destruct (nth_error l i).
Qed.

(** The logs of callers that are all through. *)
Lemma logs_done (cs : list (handle k * list op)) ps ts lgs :
  length ps = length cs ->
  (forall p, In p ps -> exists r, p = Ret r) ->
  (forall i r, nth_error ps i = Some (Ret r) -> exists t,
     nth_error ts i = Some t /\ th_todo t = [] /\ r = (th_done t, th_handle t)) ->
  all_ran (map start cs) lgs ts -> lgs = logs (SE := SE) (BE := BE) cs ps.
Proof.
  intros Hlen Hret Hdone Hran. apply nth_error_ext. intros i. unfold logs. rewrite nth_error_map, nth_combine.
  specialize (Hran i). rewrite nth_error_map in Hran. destruct (nth_error cs i) as [[h l]|] eqn:Hc; simpl in *.
  - destruct (nth_error ps i) as [p|] eqn:Hp.
    2: { apply nth_error_None in Hp. assert (i < length cs) by (apply nth_error_Some; congruence). lia. }
    destruct (Hret p) as [r ->]; [eapply nth_error_In; eauto|].
    destruct (Hdone i r Hp) as (t & Ht & Ht1 & ->). rewrite Ht in Hran.
    destruct (nth_error lgs i) as [lg|]; [|contradiction]. destruct Hran as [R1 R2]. simpl in *.
    rewrite Ht1, app_nil_r in R1. rewrite R1, R2, combine_split. reflexivity.
  - destruct (nth_error lgs i); [destruct (nth_error ts i); contradiction|]. reflexivity.
Qed.

Lemma concurrent_shows (cs : list (handle k * list op)) (schedule : list (nat * option SE)) :
  codec_ok cn -> codec_ok ce -> NoDup (session_keys cs) ->
  Forall (fun hl => Forall transactional (snd hl)) cs ->
  let (ps, d) := interleave schedule (callers cn ce mn me cs) db_new in
  (forall p, In p ps -> exists r, p = Ret r) ->
  exists s, shuffle (logs cs ps) s /\
    Forall (fun x => succeeded (snd x) = true -> snd x = expected (fst x)) s /\
    sled_shows SE cn ce d (spec_history mn me (map fst (filter (fun x => succeeded (snd x)) s)) g_empty).
Proof.
  intros Hn He Hk Ht. pose proof (concurrent_serial cn ce mn me cs schedule db_new Ht) as Hs.
  pose proof (interleave_length schedule (callers (SE := SE) cn ce mn me cs) db_new) as Hlen.
  unfold callers in Hlen at 2. rewrite map_length in Hlen.
  destruct (interleave schedule (callers cn ce mn me cs) db_new) as [ps d]. simpl in Hlen. intros Hret.
  destruct Hs as (order & ts & H1 & H2 & _).
  destruct (good_new (k := k) cn ce nothing) as [G0 A0].
  destruct (serial_moves cn ce mn me Hn He transactional order (map start cs) db_new nothing ts d) as (lgs & s & U & R1 & R2 & R3 & R4 & R5 & R6); auto.
  - apply Forall_forall. intros t Hin. apply in_map_iff in Hin. destruct Hin as (hl & <- & Hin). simpl.
    rewrite Forall_forall in Ht. eapply Forall_impl; [|apply Ht, Hin]. intros o Ho. split; auto. destruct o; simpl in *; auto.
  - assert (keys_left (SE := SE) (BE := BE) (map start cs) = session_keys cs) as ->; auto.
    unfold keys_left, session_keys. clear. induction cs as [|[h l] cs IH]; simpl; auto. now rewrite IH.
  - rewrite (logs_done cs ps ts lgs Hlen Hret H2 R1) in R2. exists s.
    destruct (moves_exact mn me s R4 _ _ R3) as [R7 R8]. split; auto. split; auto.
    apply stands_shows. exists U. split; [split; auto|]. eapply g_equiv_trans; [exact R7|].
    apply spec_history_equiv, abs_new.
Qed.

End Top.
