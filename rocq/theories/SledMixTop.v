(** All calls at the same time. *)
From Coq Require Import Arith NArith List Bool Sorted Lia.
From Verif Require Import Bytes BytesFacts OMap OMapFacts Core IdType IdTypeFacts Store Mem Spec
  CodecFacts ListFacts MemSim History Prog ProgFacts Sled SledHistory SledSched SledDb SledOps SledBulk
  SledRun SledRead SledTop SledMain SledCrash SledLeak SledConc SledLeaf SledConcRm SledConcTop SledTornSpec
  SledMixSpec SledMixTree SledMixStep.
Import ListNotations.

Section Sim.
Context {k : idkind} {NP EP SE BE E : Type} (cn : codec BE NP) (ce : codec BE EP).
Context (Hcn : codec_ok cn) (Hce : codec_ok ce).
Context (mn : NP -> NP -> NP) (me : EP -> EP -> EP).
Notation I := (Id k).
Notation T := (triple (Id k)).
Notation G := (graph k NP EP).
Notation err := (sled_error SE BE).
Notation P A := (prog db SE A).
Notation PR A := (prog db SE (result err A)).
Notation op := (op k NP EP E).
Notation outcome := (outcome (SE := SE) (BE := BE) (E := E)).
Notation lapply := (l_apply (SE := SE) (E := E) cn ce mn me).
Notation apply := (sled_apply (SE := SE) (E := E) cn ce mn me).
Notation fair := (fair (k := k) cn ce).
Notation sabs := (sabs (k := k) cn ce).
Notation ct := (ct (k := k) (NP := NP) (EP := EP) (SE := SE) (BE := BE) (E := E) (list outcome)).
Notation call := (call (k := k) (NP := NP) (EP := EP) (E := E)).
Notation run := (run_ct cn ce mn me).
Notation bytes_dec := (list_eq_dec Byte.byte_eq_dec).
Notation loose := (loose (k := k)).
Notation moves := (moves (k := k) (NP := NP) (EP := EP) (SE := SE) (BE := BE) (E := E) mn me).
Let BC := bytes_cmp_ok.
Implicit Types d x : db.
Implicit Types h : handle k.
Implicit Types t : T.
Implicit Types v : I.
Implicit Types U D N : bytes -> Prop.
Implicit Types o : edge_order.
Implicit Types ops : list op.
Implicit Types K : outcome -> ct.

(** ** What a caller does to edges *)
Definition wrote ops t : Prop := exists (o : op) (a : op), In o ops /\ In a (elements o) /\ writes a t.
Definition erased ops t : Prop := exists (o : op) (a : op), In o ops /\ In a (elements o) /\ erases a t.
Definition ext_by ops t : Prop := exists o : op, In o ops /\ extends o t.
Definition from_ops ops (a : call) : Prop := exists o : op, In o ops /\ from o a.
Definition plain ops n m (c : ct) : Prop := all_calls (from_ops ops) c /\ fits n m c.

Lemma plain_call ops n m a K : plain ops n m (CCall a K) ->
  from_ops ops a /\ exists n' m', n = gdraw a + n' /\ m = udraw a + m' /\ forall r, plain ops n' m' (K r).
Proof.
  intros [H1 H2]. inversion H1; subst. inversion H2; subst. split; auto. eexists _, _. split; [reflexivity|]. split; [reflexivity|].
  intros r. split; auto.
Qed.

(** ** Keys *)
Definition keys h n m : list bytes := map to_be_bytes (next_ids (h_gen h) n) ++ map to_be_bytes (next_ids (h_ulid h) m).

Lemma keys_split h i j n m :
  (forall r, In r (keys h (i + n) (j + m)) <-> In r (keys h i j) \/ In r (keys (at_ h i j) n m)) /\
  (NoDup (keys h (i + n) (j + m)) -> NoDup (keys h i j) /\ NoDup (keys (at_ h i j) n m) /\
     forall r, In r (keys h i j) -> ~ In r (keys (at_ h i j) n m)).
Proof.
  assert (forall (q : idkind) (g : gen q) a b, next_ids g (a + b) = next_ids g a ++ next_ids (Gen (g_seq g) (g_pos g + a)) b) as Hs.
  { intros q g a b. unfold next_ids. simpl. now rewrite List.seq_app, map_app. }
  unfold keys, at_. cbn [h_gen h_ulid]. rewrite !Hs, !map_app. set (A := map _ _). set (B := map _ _). set (C := map _ _). set (F := map _ _).
  clear. split; [intros r; rewrite !in_app_iff; tauto|].
  rewrite !NoDup_app_iff. setoid_rewrite in_app_iff. intros ((A1 & A2 & A3) & (B1 & B2 & B3) & C1).
  split; [split; auto; split; auto; intros y Hy Hz; apply (C1 y); auto|].
  split; [split; auto; split; auto; intros y Hy Hz; apply (C1 y); auto|].
  intros r [H|H] [H'|H']; [apply (A3 r)|apply (C1 r)|apply (C1 r)|apply (B3 r)]; auto.
Qed.

(** ** Where a caller is *)
Record st : Type := St { s_c : ct; s_h : handle k; s_n : nat; s_m : nat; s_p : option T }.
Definition skeys (s : st) : list bytes := keys (s_h s) (s_n s) (s_m s).
Definition late_of (c : ct) : list bytes := match c with CCall (Late _ _ r) _ => [r] | _ => [] end.
Definition owned (s : st) : list bytes := late_of (s_c s) ++ skeys s.

Lemma plain_late ops n m c : plain ops n m c -> late_of c = [].
Proof.
  intros H. destruct c as [a|a K]; auto. destruct (plain_call _ _ _ _ _ H) as [(o & _ & Ho) _].
  destruct a; auto. destruct Ho.
Qed.

Definition Kk K (rh : outcome * handle k) : P (list outcome * handle k) := run (K (fst rh)) (snd rh).
Notation calls h p := (lift (and_handle h p) : P (outcome * handle k)).

Definition aged D (old : option bytes) t (r : bytes) d : Prop :=
  match old with None => True | Some y => D y /\ y <> r /\ forall o u, rid o d u = Some y -> u = t end.

Inductive rel ops U D d (fut : list (option SE)) (p : P (list outcome * handle k)) : st -> Prop :=
| R_idle c h n m : plain ops n m c -> peq p (run c h) -> rel ops U D d fut p (St c h n m None)
| R_edge t h K n m j q : erased ops t -> (forall r, plain ops n m (K r)) -> quiet t h (S j) q -> absent t d ->
    peq p (bind q (Kk K)) -> rel ops U D d fut p (St (K (answer (S j) fut)) h n m None)
| R_fwd v cc h K n m c2 nx rem done : plain ops n m (CCall (One cc (ORemoveNode v)) K) ->
    covers U SPO v (lim nx) (done ++ rem) d -> peq p (bind (calls h (fw v c2 nx rem done)) (Kk K)) ->
    rel ops U D d fut p (St (CCall (One cc (ORemoveNode v)) K) h n m None)
| R_bwd v cc h K n m Lf nx rem done : plain ops n m (CCall (One cc (ORemoveNode v)) K) ->
    covers U SPO v None Lf d -> covers U OSP v (lim nx) (done ++ rem) d ->
    peq p (bind (calls h (bw v (fwd (k := k) Lf no_batches) nx rem done)) (Kk K)) ->
    rel ops U D d fut p (St (CCall (One cc (ORemoveNode v)) K) h n m None)
| R_late t e r h K n m b : ext_by ops t -> (forall a, plain ops n m (K a)) -> U r -> ~ D r -> loose r d ->
    bget r (t_edge d) = Some b -> de ce b = Ok e -> peq p (bind (calls h (rest_spo t r)) (Kk K)) ->
    rel ops U D d fut p (St (CCall (Late t e r) K) h n m None)
| R_pos t r old h K n m : ext_by ops t -> (forall a, plain ops n m (K a)) -> rid SPO d t = Some r -> aged D old t r d ->
    peq p (bind (calls h (rest_pos t r old)) (Kk K)) -> rel ops U D d fut p (St (K (Ok tt)) h n m (Some t))
| R_osp t r old h K n m : ext_by ops t -> (forall a, plain ops n m (K a)) -> rid SPO d t = Some r -> rid POS d t = Some r ->
    aged D old t r d -> peq p (bind (calls h (rest_osp t r old)) (Kk K)) -> rel ops U D d fut p (St (K (Ok tt)) h n m (Some t))
| R_drop y h K n m : (exists t, ext_by ops t) -> (forall a, plain ops n m (K a)) -> D y -> loose y d ->
    peq p (bind (calls h (rest_drop (Some y))) (Kk K)) -> rel ops U D d fut p (St (K (Ok tt)) h n m None).

Lemma rel_peq ops U D d fut p q s : peq p q -> rel ops U D d fut q s -> rel ops U D d fut p s.
Proof.
  intros Hp H. destruct H; [eapply R_idle|eapply R_edge|eapply R_fwd|eapply R_bwd|eapply R_late|eapply R_pos|eapply R_osp|eapply R_drop];
    eauto; eapply peq_trans; eauto.
Qed.

Lemma rel_pend ops U D d fut p s t : rel ops U D d fut p s -> s_p s = Some t -> ext_by ops t.
Proof. destruct 1; simpl; intros [= <-]; auto. Qed.

(** The others do not matter. *)
Lemma rel_stable W X N U U' D D' d x ops fut p s : frame W X N U D d x ->
  (forall r, U r -> U' r) -> (forall r, D r -> D' r) -> (forall r, D' r -> D r \/ exists o t, rid o d t = Some r) ->
  (forall t, erased ops t -> ~ W t) -> (forall t, ext_by ops t -> ~ W t /\ ~ X t) ->
  (forall r, In r (owned s) -> ~ N r) -> rel ops U D d fut p s -> rel ops U' D' x fut p s.
Proof.
  intros [F1 F2 F3 F4] HU HD HD' HE HX HN H.
  assert (forall v cc K n m, plain ops n m (CCall (One cc (ORemoveNode v)) K) -> forall t, sub t = v \/ obj t = v -> ~ W t) as Hrm.
  { intros v cc K n m Hp t Ht. destruct (plain_call _ _ _ _ _ Hp) as [(a & Ha & Hin & _) _]. apply HE.
    exists a, (ORemoveNode v). simpl. auto. }
  assert (forall r, (D r \/ ~ N r) -> loose r d -> loose r x) as Hloose.
  { intros r Hr Hl o t Ht. destruct (F3 o t r Ht) as [[o' H']|[H1 H2]]; [now apply (Hl o' t)|tauto]. }
  assert (forall old t r, aged D old t r d -> aged D' old t r x) as Haged.
  { intros [y|] t r; simpl; auto. intros (A1 & A2 & A3). split; auto. split; auto. intros o u Hu.
    destruct (F3 o u y Hu) as [[o' H']|[H1 H2]]; [eauto|contradiction]. }
  assert (forall t, ext_by ops t -> forall o, rid o x t = rid o d t) as Hsame.
  { intros t Ht o. destruct (HX t Ht). auto. }
  destruct H as [c h n m Hp Hq|t h K n m j q He Hp Hq Ha Hr|v cc h K n m c2 nx rem done Hp Cf Hq|v cc h K n m Lf nx rem done Hp Cf Cb Hq
    |t e r h K n m b He Hp Hu Hd Hl Hb Hde Hq|t r old h K n m He Hp Hs Ho Hq|t r old h K n m He Hp Hs Hs' Ho Hq|y h K n m He Hp Hy Hl Hq].
  - now apply R_idle.
  - eapply R_edge; eauto. eapply absent_calm; [|exact F1|exact Ha]. simpl. auto.
  - eapply R_fwd; eauto. eapply covers_calm; [|exact HU|exact F1|exact Cf]. intros t Ht. simpl. eapply Hrm; eauto.
  - eapply R_bwd; eauto; (eapply covers_calm; [|exact HU|exact F1|eassumption]; intros t Ht; simpl; eapply Hrm; eauto).
  - assert (~ N r) as Hn by (apply HN; simpl; auto). eapply (R_late _ _ _ _ _ _ t e r h K n m b); auto.
    + intros H'. destruct (HD' r H') as [H''|(o & u & H'')]; [contradiction|]. now apply (Hl o u).
    + rewrite F4; auto.
  - eapply R_pos; eauto. now rewrite Hsame.
  - eapply R_osp; eauto; now rewrite Hsame.
  - eapply R_drop; eauto.
Qed.

(** ** One step *)
Definition stepped ops U D d (s : st) (fut : list (option SE)) (p : P (list outcome * handle k)) x : Prop :=
  exists lg s' U' D',
    path (s_c s) lg (s_c s') /\ moves lg (sabs d) (sabs x) /\ rel ops U' D' x fut p s' /\ fair U' x /\
    (forall r, U r -> U' r) /\ (forall r, U' r -> U r \/ In r (owned s)) /\
    (forall r, D r -> D' r) /\ (forall r, D' r -> U' r) /\ (forall r, D' r -> D r \/ exists o t, rid o d t = Some r) /\
    NoDup (skeys s') /\ (forall r, In r (skeys s') -> ~ U' r) /\ incl (owned s') (owned s) /\
    frame (wrote ops) (erased ops) (fun r => In r (owned s)) U D d x /\
    (forall t, s_p s = Some t \/ agreed t d -> s_p s' = Some t \/ agreed t x).

Lemma stepped_peq ops U D d s fut p q x : peq p q -> stepped ops U D d s fut q x -> stepped ops U D d s fut p x.
Proof.
  intros Hp (lg & s' & U' & D' & H1 & H2 & H3 & H). exists lg, s', U', D'. split; auto. split; auto. split; auto.
  eapply rel_peq; eauto.
Qed.

Section At.
Context (ops : list op) (U D : bytes -> Prop) (d : db) (f : option SE) (fut : list (option SE)).
Context (Hf : fair U d) (HD : forall r, D r -> U r).
Context (Hsp : f = None \/ forall t, ~ ext_by ops t).

(** A step that draws nothing and dooms nothing. *)
Lemma stepped_same s s' lg p x :
  path (s_c s) lg (s_c s') -> moves lg (sabs d) (sabs x) -> rel ops U D x fut p s' -> fair U x ->
  skeys s' = skeys s -> NoDup (skeys s) -> (forall r, In r (skeys s) -> ~ U r) ->
  incl (late_of (s_c s')) (late_of (s_c s)) -> frame (wrote ops) (erased ops) (fun r => In r (owned s)) U D d x ->
  (forall t, s_p s = Some t \/ agreed t d -> s_p s' = Some t \/ agreed t x) ->
  stepped ops U D d s fut p x.
Proof.
  intros H1 H2 H3 H4 H5 H6 H7 H8 H9 H10. exists lg, s', U, D. rewrite H5.
  repeat (split; [solve [auto]|]). split; [|auto]. unfold owned. rewrite H5. apply incl_app_app; auto. apply incl_refl.
Qed.

Lemma keys_after i j n m h : NoDup (keys h (i + n) (j + m)) -> (forall r, In r (keys h (i + n) (j + m)) -> ~ U r) ->
  NoDup (keys (at_ h i j) n m) /\ (forall r, In r (keys (at_ h i j) n m) -> ~ plus_keys U (keys h i j) r) /\
  incl (keys (at_ h i j) n m) (keys h (i + n) (j + m)) /\ incl (keys h i j) (keys h (i + n) (j + m)).
Proof.
  destruct (keys_split h i j n m) as [K1 K2]. intros Hn Hu. destruct (K2 Hn) as (N1 & N2 & N3).
  split; auto. split; [|split; intros r Hr; apply K1; auto].
  intros r Hr [H|H]; [apply (Hu r); auto; apply K1; auto|now apply (N3 r)].
Qed.

(** A call that only answered. *)
Lemma stepped_answer a K h n m r h' n' m' i j p x :
  n = i + n' -> m = j + m' -> h' = at_ h i j -> of_call r -> moved mn me (what a) r (sabs d) (sabs d) ->
  (forall r, plain ops n' m' (K r)) -> late_of (CCall a K) = [] ->
  stepped ops U D d (St (K r) h' n' m' None) fut p x -> stepped ops U D d (St (CCall a K) h n m None) fut p x.
Proof.
  intros -> -> -> Hr Hm Hp Hl (lg & s' & U' & D' & H1 & H2 & H3 & H4 & H5 & H6 & H7 & H8 & H9 & H10 & H11 & H12 & H13 & H14).
  assert (incl (owned (St (K r) (at_ h i j) n' m' None)) (owned (St (CCall a K) h (i + n') (j + m') None))) as Hi.
  { unfold owned. cbn [s_c]. rewrite Hl, (plain_late _ _ _ _ (Hp r)). simpl. unfold skeys. simpl.
    intros y Hy. apply (proj1 (keys_split h i j n' m')). auto. }
  exists ((what a, r) :: lg), s', U', D'. split; [now apply Pa_call|].
  split; [exists (sabs d); auto|]. repeat (split; [solve [auto]|]).
  split; [intros y Hy; destruct (H6 y Hy); auto|]. repeat (split; [solve [auto]|]).
  split; [eapply incl_tran; eauto|]. split; auto.
  eapply frame_weak; [| | |exact H13]; auto.
Qed.

(** A call of one storage step. *)
Lemma stepped_one a K h n m r h' n' m' i j p x :
  n = i + n' -> m = j + m' -> h' = at_ h i j -> of_call r -> moved mn me (what a) r (sabs d) (sabs x) ->
  (forall r, plain ops n' m' (K r)) -> late_of (CCall a K) = [] ->
  NoDup (keys h n m) -> (forall r, In r (keys h n m) -> ~ U r) ->
  peq p (run (K r) h') -> fair (plus_keys U (keys h i j)) x ->
  frame (wrote ops) (erased ops) (fun r => In r (keys h i j)) U D d x -> (forall t, agreed t d -> agreed t x) ->
  stepped ops U D d (St (CCall a K) h n m None) fut p x.
Proof.
  intros -> -> -> Hr Hm Hp Hl Hnd HU Hq Hfx Hfr Hag.
  destruct (keys_after i j n' m' h Hnd HU) as (K1 & K2 & K3 & K4).
  exists [(what a, r)], (St (K r) (at_ h i j) n' m' None), (plus_keys U (keys h i j)), D.
  unfold owned, skeys. cbn [s_c s_h s_n s_m s_p]. rewrite Hl, (plain_late _ _ _ _ (Hp r)). simpl app.
  split; [apply Pa_call; auto; apply Pa_here|]. split; [exists (sabs x); split; auto; apply g_equiv_refl|].
  split; [apply R_idle; auto|]. split; auto. split; [left; auto|].
  split; [intros y [Hy|Hy]; auto|]. split; auto. split; [left; auto|]. split; auto. split; auto. split; auto. split; auto.
  split; [|intros t [Ht|Ht]; [discriminate|auto]].
  eapply frame_weak; [| | |exact Hfr]; auto.
Qed.

Lemma at_gen h i : advance h i = at_ h i 0.
Proof. unfold advance, at_. rewrite Nat.add_0_r. now destruct (h_ulid h). Qed.
Lemma at_ulid h : step_ulid h = at_ h 0 1.
Proof. unfold step_ulid, at_. rewrite Nat.add_0_r, Nat.add_1_r. now destruct (h_gen h). Qed.

Definition erasable : Prop := forall t, erased ops t -> agreed t d.

Lemma step_idle c : forall h n m, plain ops n m c -> NoDup (keys h n m) -> (forall r, In r (keys h n m) -> ~ U r) -> erasable ->
  stepped ops U D d (St c h n m None) fut (fst (step1 f (run c h) d)) (snd (step1 f (run c h) d)).
Proof.
  induction c as [a|a K IH]; intros h n m Hp Hnd HU Her.
  - simpl. eapply (stepped_same _ (St (CRet a) h n m None) []); simpl; auto.
    + apply Pa_here.
    + apply g_equiv_refl.
    + apply R_idle; auto. apply peq_refl.
    + apply incl_refl.
    + apply frame_refl.
  - destruct (plain_call _ _ _ _ _ Hp) as [(oo & Hoo & Hfrom) (n' & m' & -> & -> & Hp')].
    destruct a as [cc o1|t e|t e r]; [| |destruct Hfrom].
    + destruct Hfrom as (Hin & Hone & _). cbn [gdraw udraw] in *.
      assert (late_of (CCall (One cc o1) K) = []) as Hl by reflexivity.
      assert (transactional o1 \/ (exists t, o1 = ORemoveEdge t) \/ exists v, o1 = ORemoveNode v) as [Htr|[[t ->]|[v ->]]].
      { destruct o1; simpl in *; eauto; contradiction. }
      * assert (lapply cc o1 h = apply o1 h) as El by (destruct o1; try contradiction; reflexivity).
        assert (drawn o1 h = keys h (draws o1) 0) as Ed.
        { rewrite drawn_keys by auto. unfold history_keys, keys. simpl. rewrite Nat.add_0_r. rewrite (one_call_ulids o1 Hone). reflexivity. }
        assert (forall t, writes o1 t -> wrote ops t) as Hw by (intros t Ht; exists oo, o1; auto).
        assert (0 + m' = m') as E0 by lia.
        cbn [run_ct do_call]. rewrite El.
        destruct (one_step (SE := SE) cn ce Hcn Hce mn me o1 h Htr) as [[b Ea]|(u & c & e & Ea & He & Hu)]; rewrite Ea.
        -- cbn [bind fst snd]. eapply (stepped_answer (One cc o1) K h _ _ (Err (LeftE (SerializationError b))) (advance h (draws o1)) n' m' (draws o1) 0); eauto using at_gen, moved_not.
           { exact Logic.I. }
           rewrite at_gen. destruct (keys_after (draws o1) 0 n' m' h Hnd HU) as (K1 & K2 & K3 & K4). apply IH; auto.
        -- assert (forall r, In r (drawn o1 h) -> ~ U r) as Hdr.
           { intros r Hr. apply HU. rewrite Ed in Hr. apply (proj1 (keys_split h (draws o1) 0 n' m')). auto. }
           cbn [bind step1]. destruct f as [y|]; cbn [fst snd].
           ++ rewrite He. cbn [bind].
              eapply (stepped_one (One cc o1) K h _ _ (Err (LeftE (SledError y))) (advance h (draws o1)) n' m' (draws o1) 0); eauto using at_gen, moved_not, frame_refl, peq_refl.
              { exact Logic.I. }
              eapply fair_mono; [|exact Hf]. left. auto.
           ++ destruct (Hu U D d Hf HD Hdr) as [(z & Ec & ->)|(Ec & H1 & H2 & H3 & H4)]; rewrite Ec; cbn [bind].
              { eapply (stepped_one (One cc o1) K h _ _ (Err (LeftE z)) (advance h (draws o1)) n' m' (draws o1) 0); eauto using at_gen, moved_not, frame_refl, peq_refl.
                { exact Logic.I. }
                eapply fair_mono; [|exact Hf]. left. auto. }
              { rewrite Ed in H1, H3.
                eapply (stepped_one (One cc o1) K h _ _ (Ok tt) (advance h (draws o1)) n' m' (draws o1) 0); eauto using at_gen, peq_refl.
                - exact Logic.I.
                - split; [|exact H2]. destruct o1; try contradiction; reflexivity.
                - eapply frame_weak; [| | |exact H3]; auto. intros ? []. }
      * destruct (remove_edge_quiet (SE := SE) (BE := BE) (E := E) cn ce mn me t h) as (u & c & e & Ea & Hu & Hc & He).
        cbn [run_ct do_call l_apply]. change (sled_apply cn ce mn me (ORemoveEdge t) h) with (apply (ORemoveEdge t) h). rewrite Ea.
        assert (erased ops t) as Het by (exists oo, (ORemoveEdge t); simpl; auto).
        assert (h = at_ h 0 0) as E0 by (symmetry; apply at_00).
        cbn [bind step1]. destruct f as [y|]; cbn [fst snd draws Nat.add] in *.
        -- rewrite He. cbn [bind].
           eapply (stepped_one (One cc (ORemoveEdge t)) K h _ _ (Err (LeftE (SledError y))) h n' m' 0 0); eauto using moved_not, frame_refl, peq_refl.
           all: try exact Logic.I.
           eapply fair_mono; [|exact Hf]. left. auto.
        -- rewrite Hu. destruct (rm_edge_abs cn ce U d t Hf) as [H1 H2].
           eapply (stepped_same _ (St (K (answer 3 fut)) h n' m' None) [(ORemoveEdge t, answer 3 fut)]); cbn [s_c s_p]; auto.
           ++ apply (Pa_call (One cc (ORemoveEdge t))); [|apply Pa_here]. destruct fut as [|[y|] [|[y'|] [|[y''|] ?]]]; exact Logic.I.
           ++ exists (sabs (d_rm_edge t d)). split; [|apply g_equiv_refl]. unfold moved.
              destruct (succeeded (answer 3 fut)) eqn:Es; [split; [|exact H2]|right; auto].
              destruct fut as [|[y|] [|[y'|] [|[y''|] ?]]]; try discriminate; reflexivity.
           ++ apply (R_edge ops U D _ _ _ t h K n' m' 2 (c d)); auto.
              ** intros o. rewrite rid_rm_edge. now destruct (triple_eq_dec t t).
              ** apply peq_refl.
           ++ rewrite (plain_late _ _ _ _ (Hp' _)). apply incl_refl.
           ++ eapply frame_weak; [| | |apply (frame_rm_edge (fun _ => False) U D (fun _ => False) d t); apply Her, Het]; [intros ? []|intros u' ->; exact Het|intros ? []].
           ++ intros u' [Hx|Hx]; [discriminate|]. right. now apply rm_edge_agreed.
      * cbn [run_ct do_call]. destruct (remove_node_look (SE := SE) cn ce mn me cc v h (Kk K) f d) as (q & Eq & Hq).
        change (fun rh : outcome * handle k => run (K (fst rh)) (snd rh)) with (Kk K).
        rewrite Eq. cbn [fst snd draws Nat.add] in *.
        eapply (stepped_same _ (St (CCall (One cc (ORemoveNode v)) K) h n' m' None) []); cbn [s_c s_p]; auto.
        -- apply Pa_here.
        -- apply g_equiv_refl.
        -- eapply R_fwd; eauto. simpl app. pose proof (covers_first cn ce U SPO v (end_of (fst cc)) d Hf) as Hc.
           destruct (fst cc); exact Hc.
        -- apply incl_refl.
        -- apply frame_refl.
    + destruct Hfrom as [Hext Hin]. assert (ext_by ops t) as Hxt by (exists oo; auto).
      assert (f = None) as -> by (destruct Hsp as [|Hx]; auto; exfalso; now apply (Hx t)).
      cbn [gdraw udraw Nat.add] in *. destruct (ser ce e) as [b|b] eqn:Es.
      * set (r := next_ulid h).
        assert (In r (keys h n' (S m'))) as Hrk by (unfold keys; apply in_app_iff; right; simpl; auto).
        assert (~ U r) as Hr by auto.
        destruct (keys_after 0 1 n' m' h Hnd HU) as (K1 & K2 & K3 & K4).
        assert (keys h 0 1 = [r]) as Ek by reflexivity. rewrite Ek in *.
        assert (step1 None (run (CCall (Ext t e) K) h) d = (bind (calls (step_ulid h) (rest_spo t r)) (Kk K), d_put_rec r b d)) as ->.
        { cbn [run_ct do_call]. unfold lift, s_extend_edge, draw_ulid, fresh, and_handle, bind_ok, bincode. rewrite Es. reflexivity. }
        exists [], (St (CCall (Late t e r) K) (step_ulid h) n' m' None), (fun y => U y \/ y = r), D.
        rewrite at_ulid in *. unfold owned, skeys. cbn [s_c s_h s_n s_m s_p late_of]. simpl app.
        cbn [fst snd].
        split; [eapply Pa_late; apply Pa_here|]. split.
        { split; [reflexivity|]. intros u. simpl. eapply view_put_rec; eauto. apply Hf. }
        split.
        { assert (~ D r) as Hdr by auto. eapply (R_late _ _ _ _ _ _ t e r (at_ h 0 1) K n' m' b); auto.
          - intros o u. unfold d_put_rec. rewrite rid_edge. exact (fresh_unused ce U d r (proj2 Hf) Hr o u).
          - apply (get_insert_eq BC).
          - apply peq_refl. }
        split; [destruct Hf as [F1 F2]; split; [now apply fairn_other|eapply faire_put_rec; eauto]|].
        split; [auto|]. split; [intros y [Hy| ->]; auto|]. split; auto. split; auto. split; auto. split; auto.
        split; [intros y Hy [H|H]; apply (K2 y Hy); [left; auto|right; simpl; auto]|].
        split; [intros y [<-|Hy]; auto|]. split.
        { eapply frame_weak; [| | |apply (frame_put_rec (fun _ => False) (fun _ => False) U D d r b Hr)]; [intros ? []|intros ? []|intros y ->; exact Hrk]. }
        intros u [Hx|Hx]; [discriminate|]. right. intros o. unfold d_put_rec. rewrite !rid_edge. apply Hx.
      * assert (run (CCall (Ext t e) K) h = run (K (Err (LeftE (SerializationError b)))) (step_ulid h)) as ->.
        { cbn [run_ct do_call]. unfold lift, s_extend_edge, draw_ulid, fresh, and_handle, bind_ok, bincode. rewrite Es. reflexivity. }
        eapply (stepped_answer (Ext t e) K h _ _ (Err (LeftE (SerializationError b))) (step_ulid h) n' m' 0 1); eauto using at_ulid, moved_not.
        { exact Logic.I. }
        rewrite at_ulid. destruct (keys_after 0 1 n' m' h Hnd HU) as (K1 & K2 & K3 & K4). apply IH; auto.
Qed.

Lemma of_answer j fs : of_call (answer (SE := SE) (BE := BE) (E := E) j fs).
Proof. revert fs. induction j as [|j IH]; intros [|[y|] fs]; simpl; auto. Qed.

Lemma fair_put_idx o t r : record ce d r <> None -> (forall o' u, rid o' d u = Some r -> u = t) -> fair U (d_put_idx o t r d).
Proof.
  intros H1 H2. destruct Hf as [F1 F2]. split; [|now apply faire_put_idx].
  destruct F1 as [G1 G2]. split; unfold d_put_idx; rewrite t_node_set; auto.
Qed.

Lemma nod_put_idx o t r v : nod cn (d_put_idx o t r d) v = nod cn d v.
Proof. unfold nod, d_put_idx. now rewrite t_node_set. Qed.

Lemma step_rel p s : rel ops U D d (f :: fut) p s -> NoDup (skeys s) -> (forall r, In r (skeys s) -> ~ U r) ->
  (s_p s = None -> erasable) -> stepped ops U D d s fut (fst (step1 f p d)) (snd (step1 f p d)).
Proof.
  intros Hr Hnd HU Her.
  assert (forall t, ext_by ops t -> f = None) as Hnone by (intros t Ht; destruct Hsp as [|Hx]; auto; exfalso; now apply (Hx t)).
  assert (forall t, ext_by ops t -> wrote ops t) as Hwr.
  { intros t (o & Ho & Hx). destruct o as [| | | | | |s0|s0]; try destruct Hx. exists (OExtend s0), (OInsertEdge t x). simpl. auto. }
  assert (forall v cc K h n m r x, plain ops n m (CCall (One cc (ORemoveNode v)) K) -> NoDup (keys h n m) -> (forall r, In r (keys h n m) -> ~ U r) ->
    of_call r -> moved mn me (ORemoveNode v) r (sabs d) (sabs x) -> fair U x ->
    frame (wrote ops) (erased ops) (fun r => In r (keys h 0 0)) U D d x -> (forall t, agreed t d -> agreed t x) ->
    stepped ops U D d (St (CCall (One cc (ORemoveNode v)) K) h n m None) fut (Kk K (r, h)) x) as Hrm.
  { intros v cc K h n m r x Hp N1 N2 Hr1 Hm Hfx Hfr Hag. destruct (plain_call _ _ _ _ _ Hp) as (_ & n' & m' & -> & -> & Hp').
    eapply (stepped_one (One cc (ORemoveNode v)) K h _ _ r h n' m' 0 0); eauto using peq_refl.
    - symmetry. apply at_00.
    - eapply fair_mono; [|exact Hfx]. left. auto. }
  destruct Hr as [c h n m Hp Hq|t h K n m j q He Hp Hq Ha Hr|v cc h K n m c2 nx rem done Hp Cf Hq|v cc h K n m Lf nx rem done Hp Cf Cb Hq
    |t e r h K n m b He Hp Hu Hd Hl Hb Hde Hq|t r old h K n m He Hp Hs Ho Hq|t r old h K n m He Hp Hs Hs' Ho Hq|y h K n m He Hp Hy Hl Hq];
    destruct (peq_step f _ _ d Hq) as [Q1 Q2] || destruct (peq_step f _ _ d Hr) as [Q1 Q2]; rewrite Q2; (eapply stepped_peq; [exact Q1|]); cbn [s_p] in Her;
    unfold skeys in Hnd, HU; cbn [s_h s_n s_m] in Hnd, HU.
  - apply step_idle; auto.
  - inversion Hq as [|m' u c e Hu Hc Hee]; subst. cbn [bind step1]. destruct f as [y|]; cbn [fst snd].
    + rewrite Hee. cbn [bind]. eapply (stepped_same _ (St (K (answer (S j) (Some y :: fut))) h n m None) []); simpl; auto.
      * apply Pa_here.
      * apply g_equiv_refl.
      * apply R_idle; auto. apply peq_refl.
      * apply incl_refl.
      * apply frame_refl.
    + rewrite (Hu d Ha). eapply (stepped_same _ (St (K (answer (S j) (None :: fut))) h n m None) []); cbn [s_c s_p]; auto.
      * apply Pa_here.
      * apply g_equiv_refl.
      * cbn [answer]. pose proof (Hc d Ha) as Hq'. destruct j as [|j].
        -- rewrite (quiet_0 _ _ _ Hq'). cbn [bind]. destruct fut; apply R_idle; auto; apply peq_refl.
        -- eapply R_edge; eauto using peq_refl.
      * apply incl_refl.
      * apply frame_refl.
  - destruct rem as [|kv rem].
    + rewrite app_nil_r in Cf. destruct nx as [[lo cs]|].
      * destruct (fw_next (SE := SE) (BE := BE) (E := E) v c2 lo cs done h (Kk K) f d) as (q & Eq & Hq'). rewrite Eq. cbn [fst snd].
        eapply (stepped_same _ (St (CCall (One cc (ORemoveNode v)) K) h n m None) []); cbn [s_c s_p]; auto.
        -- apply Pa_here.
        -- apply g_equiv_refl.
        -- eapply R_fwd; eauto.
           destruct cs as [|c cs]; [apply (covers_last cn ce U SPO)|apply (covers_next cn ce U SPO)]; auto.
        -- apply incl_refl.
        -- apply frame_refl.
      * destruct (back_look (SE := SE) (BE := BE) (E := E) v c2 done h (Kk K) f d) as (q & Eq & Hq'). rewrite Eq. cbn [fst snd].
        eapply (stepped_same _ (St (CCall (One cc (ORemoveNode v)) K) h n m None) []); cbn [s_c s_p]; auto.
        -- apply Pa_here.
        -- apply g_equiv_refl.
        -- eapply R_bwd; eauto. simpl app. pose proof (covers_first cn ce U OSP v (end_of c2) d Hf) as Hc. destruct c2; exact Hc.
        -- apply incl_refl.
        -- apply frame_refl.
    + assert (good_len (k := k) kv) as Hg.
      { pose proof (covers_good U SPO v _ _ d Cf) as HG. rewrite Forall_forall in HG. apply HG. apply in_app_iff. simpl. auto. }
      rewrite (fw_step v c2 nx kv rem done h (Kk K) f d Hg). destruct f as [y|]; cbn [fst snd].
      * apply (Hrm v cc K h n m); auto; [exact Logic.I|apply moved_not|apply frame_refl].
      * eapply (stepped_same _ (St (CCall (One cc (ORemoveNode v)) K) h n m None) []); cbn [s_c s_p]; auto.
        -- apply Pa_here.
        -- apply g_equiv_refl.
        -- eapply (R_fwd ops U D d fut _ v cc h K n m c2 nx rem (done ++ [kv])); auto using peq_refl. now rewrite <- app_assoc.
        -- apply incl_refl.
        -- apply frame_refl.
  - destruct rem as [|kv rem].
    + rewrite app_nil_r in Cb. destruct nx as [[lo cs]|].
      { destruct (bw_next (SE := SE) (BE := BE) (E := E) v (fwd (k := k) Lf no_batches) lo cs done h (Kk K) f d) as (q & Eq & Hq'). rewrite Eq. cbn [fst snd].
        eapply (stepped_same _ (St (CCall (One cc (ORemoveNode v)) K) h n m None) []); cbn [s_c s_p]; auto.
        -- apply Pa_here.
        -- apply g_equiv_refl.
        -- eapply R_bwd; eauto. destruct cs as [|c cs]; [apply (covers_last cn ce U OSP)|apply (covers_next cn ce U OSP)]; auto.
        -- apply incl_refl.
        -- apply frame_refl. }
      assert (forall t, sub t = v \/ obj t = v -> erased ops t) as Hed.
      { intros t Ht. destruct (plain_call _ _ _ _ _ Hp) as [(a & Ha & Hin & _) _]. exists a, (ORemoveNode v). simpl. auto. }
      assert (agree_at v d) as Ag by (intros o t Ht; now apply Her, Hed).
      rewrite bw_done. rewrite (fin_step v _ _ h (Kk K) f d _ (late_remove_node cn ce U v Lf done d Hf Ag Cf Cb)).
      destruct f as [y|]; cbn [fst snd].
      * apply (Hrm v cc K h n m); auto; [exact Logic.I|apply moved_not|apply frame_refl].
      * destruct (rm_node_abs cn ce U d v Hf Ag) as [G1 G2].
        apply (Hrm v cc K h n m); auto.
        -- exact Logic.I.
        -- split; [reflexivity|exact G2].
        -- eapply frame_weak; [| | |apply (frame_rm_node cn ce (fun _ => False) (fun _ => False) U D d v Hf Ag)]; [intros ? []|exact Hed|intros ? []].
        -- intros t. apply (rm_node_agreed cn ce).
    + assert (good_len (k := k) kv) as Hg.
      { pose proof (covers_good U OSP v _ _ d Cb) as HG. rewrite Forall_forall in HG. apply HG. apply in_app_iff. simpl. auto. }
      rewrite (bw_step v _ nx kv rem done h (Kk K) f d Hg). destruct f as [y|]; cbn [fst snd].
      * apply (Hrm v cc K h n m); auto; [exact Logic.I|apply moved_not|apply frame_refl].
      * eapply (stepped_same _ (St (CCall (One cc (ORemoveNode v)) K) h n m None) []); cbn [s_c s_p]; auto.
        -- apply Pa_here.
        -- apply g_equiv_refl.
        -- eapply (R_bwd ops U D d fut _ v cc h K n m Lf nx rem (done ++ [kv])); auto using peq_refl. now rewrite <- app_assoc.
        -- apply incl_refl.
        -- apply frame_refl.
  - pose proof (Hnone t He) as ->.
    assert (step1 None (bind (calls h (rest_spo t r)) (Kk K)) d = (bind (calls h (rest_pos t r (rid SPO d t))) (Kk K), d_put_idx SPO t r d)) as -> by reflexivity.
    cbn [fst snd]. assert (record ce d r = Some e) as Hrec by (unfold record; now rewrite Hb, Hde).
    exists [(OInsertEdge t e, Ok tt)], (St (K (Ok tt)) h n m (Some t)), U, (fun y => D y \/ rid SPO d t = Some y).
    unfold owned, skeys. cbn [s_c s_h s_n s_m s_p late_of]. rewrite (plain_late _ _ _ _ (Hp _)). simpl app.
    split; [apply (Pa_call (Late t e r)); [exact Logic.I|apply Pa_here]|]. split.
    { exists (sabs (d_put_idx SPO t r d)). split; [|apply g_equiv_refl]. split; [reflexivity|]. split.
      - intros i. apply nod_put_idx.
      - intros u. cbn [g_edge SledDb.sabs spec_apply g_put_edge]. rewrite view_put_idx. cbn [order_dec].
        destruct (order_dec SPO SPO) as [_|Nx]; [|congruence]. destruct (triple_eq_dec u t); auto. }
    split.
    { eapply (R_pos _ _ _ _ _ _ t r (rid SPO d t)); auto.
      - rewrite rid_put. destruct (order_dec SPO SPO); [|congruence]. destruct (triple_eq_dec t t); auto; congruence.
      - destruct (rid SPO d t) as [y|] eqn:Ey; simpl; auto. split; auto. split; [intros ->; now apply (Hl SPO t)|].
        intros o u. rewrite rid_put. destruct (order_dec o SPO); [destruct (triple_eq_dec u t); auto|]; intros Hx; eapply (fe_inj ce _ _ (proj2 Hf)); eauto.
      - apply peq_refl. }
    split.
    { apply fair_put_idx; [congruence|]. intros o' u Hx. exfalso. now apply (Hl o' u). }
    split; auto. split; auto. split; auto. split; [intros y [Hy|Hy]; auto; eapply rid_used; [apply Hf|exact Hy]|].
    split; [intros y [Hy|Hy]; eauto|]. split; auto. split; auto. split; [intros y Hy; simpl; auto|]. split.
    { eapply frame_weak; [| | |apply (frame_put_idx (fun _ => False) (fun y => y = r) U D d SPO t r); auto]; [intros u ->; auto|intros ? []|intros y ->; simpl; auto]. }
    intros u [Hx|Hx]; [discriminate|]. destruct (triple_eq_dec u t) as [->|Nu]; [left; auto|right].
    intros o. rewrite !rid_put. destruct (triple_eq_dec u t); [congruence|]. destruct (order_dec o SPO); destruct (order_dec SPO SPO); auto.
  - pose proof (Hnone t He) as ->.
    assert (step1 None (bind (calls h (rest_pos t r old)) (Kk K)) d = (bind (calls h (rest_osp t r old)) (Kk K), d_put_idx POS t r d)) as -> by reflexivity.
    cbn [fst snd]. assert (record ce d r <> None) as Hrec by (eapply (fe_rec ce _ _ (proj2 Hf)); eauto).
    assert (forall o' u, rid o' d u = Some r -> u = t) as Hone by (intros o' u Hx; eapply (fe_inj ce _ _ (proj2 Hf)); eauto).
    eapply (stepped_same _ (St (K (Ok tt)) h n m (Some t)) []); cbn [s_c s_p]; auto.
    + apply Pa_here.
    + split; [intros i; apply nod_put_idx|]. intros u. cbn [g_edge SledDb.sabs]. rewrite view_put_idx. destruct (order_dec SPO POS); [discriminate|reflexivity].
    + eapply (R_osp _ _ _ _ _ _ t r old); auto using peq_refl.
      * rewrite rid_put. destruct (order_dec POS POS); [|congruence]. destruct (triple_eq_dec t t); [auto|congruence].
      * destruct old as [y|]; simpl in *; auto. destruct Ho as (H1 & H2 & H3). split; auto. split; auto.
        intros o u. rewrite rid_put. destruct (order_dec o POS); [destruct (triple_eq_dec u t); auto|]; eauto.
    + apply fair_put_idx; auto.
    + apply incl_refl.
    + eapply frame_weak; [| | |apply (frame_put_idx (fun _ => False) (fun _ => False) U D d POS t r); eauto]; [intros u ->; auto|intros ? []|intros ? []].
    + intros u [Hx|Hx]; auto. destruct (triple_eq_dec u t) as [->|Nu]; [left; auto|right].
      intros o. rewrite !rid_put. destruct (triple_eq_dec u t); [congruence|]. destruct (order_dec o POS); destruct (order_dec SPO POS); auto.
  - pose proof (Hnone t He) as ->.
    assert (step1 None (bind (calls h (rest_osp t r old)) (Kk K)) d = (bind (calls h (rest_drop old)) (Kk K), d_put_idx OSP t r d)) as -> by reflexivity.
    cbn [fst snd]. assert (record ce d r <> None) as Hrec by (eapply (fe_rec ce _ _ (proj2 Hf)); eauto).
    assert (forall o' u, rid o' d u = Some r -> u = t) as Hone by (intros o' u Hx; eapply (fe_inj ce _ _ (proj2 Hf)); eauto).
    assert (forall o, rid o (d_put_idx OSP t r d) t = Some r) as Hall.
    { intros o. rewrite rid_put. destruct (triple_eq_dec t t); [|congruence]. destruct (order_dec o OSP); auto. destruct o; auto; congruence. }
    eapply (stepped_same _ (St (K (Ok tt)) h n m None) []); cbn [s_c s_p]; auto.
    + apply Pa_here.
    + split; [intros i; apply nod_put_idx|]. intros u. cbn [g_edge SledDb.sabs]. rewrite view_put_idx. destruct (order_dec SPO OSP); [discriminate|reflexivity].
    + destruct old as [y|].
      * destruct Ho as (H1 & H2 & H3). eapply R_drop; eauto using peq_refl.
        intros o u Hx. assert (u = t) as ->.
        { revert Hx. rewrite rid_put. destruct (order_dec o OSP); [destruct (triple_eq_dec u t); auto|]; eauto. }
        rewrite Hall in Hx. congruence.
      * apply R_idle; auto. apply peq_refl.
    + apply fair_put_idx; auto.
    + apply incl_refl.
    + eapply frame_weak; [| | |apply (frame_put_idx (fun _ => False) (fun _ => False) U D d OSP t r); eauto]; [intros u ->; auto|intros ? []|intros ? []].
    + intros u Hx. right. destruct (triple_eq_dec u t) as [->|Nu]; [intros o; now rewrite !Hall|].
      destruct Hx as [Hx|Hx]; [congruence|].
      intros o. rewrite !rid_put. destruct (triple_eq_dec u t); [congruence|]. destruct (order_dec o OSP); destruct (order_dec SPO OSP); auto.
  - destruct He as [t He]. pose proof (Hnone t He) as ->.
    assert (step1 None (bind (calls h (rest_drop (Some y))) (Kk K)) d = (run (K (Ok tt)) h, d_del_rec y d)) as -> by reflexivity.
    cbn [fst snd]. eapply (stepped_same _ (St (K (Ok tt)) h n m None) []); cbn [s_c s_p]; auto.
    + apply Pa_here.
    + split; [reflexivity|]. intros u. apply view_del_rec. exact Hl.
    + apply R_idle; auto. apply peq_refl.
    + destruct Hf as [F1 F2]. split; [now apply fairn_other|now apply faire_del_rec].
    + apply incl_refl.
    + now apply frame_del_rec.
    + intros u [Hx|Hx]; [discriminate|]. right. intros o. unfold d_del_rec. rewrite !rid_edge. apply Hx.
Qed.
End At.
End Sim.
