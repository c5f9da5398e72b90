(** The calls of the API write property records under keys of their own. *)
From Coq Require Import Arith NArith List Bool Sorted Lia.
From Verif Require Import Bytes BytesFacts OMap OMapFacts Core IdType IdTypeFacts Store Mem Spec
  CodecFacts ListFacts MemSim History Prog ProgFacts Sled SledHistory SledDb SledOps SledBulk SledRead SledTables
  SledRun SledTop SledLeaf SledLeafFacts SledBeside SledRely SledOwn.
Import ListNotations.

Section OwnOps.
Context {k : idkind} {NP EP SE BE E : Type} (cn : codec BE NP) (ce : codec BE EP).
Context (mn : NP -> NP -> NP) (me : EP -> EP -> EP).
Context (keep : triple (Id k) -> Prop) (Hcn : codec_ok cn) (Hce : codec_ok ce).
Notation I := (Id k).
Notation T := (triple (Id k)).
Notation err := (sled_error SE BE).
Notation P A := (prog db SE A).
Notation PR A := (prog db SE (result err A)).
Notation keys := (bytes -> triple (Id k) -> Prop).
Notation room := (bytes -> Prop).
Notation op := (op k NP EP E).
Notation outcome := (outcome (SE := SE) (BE := BE) (E := E)).
Notation own := (own (k := k) cn ce keep).
Notation tames := (tames (k := k) cn ce keep).
Implicit Types A : bytes -> triple (Id k) -> Prop.
Implicit Types K : bytes -> Prop.
Implicit Types h : handle k.

(** The keys of the next [n] identifiers of the generator and the next [m] Ulids. *)
Definition gk h n : list bytes := map to_be_bytes (next_ids (h_gen h) n).
Definition uk h n : list bytes := map to_be_bytes (next_ids (h_ulid h) n).
Definition left h n m : list bytes := gk h n ++ uk h m.

Lemma next_ids_S {j} (g : gen j) n : next_ids g (S n) = fst (fresh g) :: next_ids (snd (fresh g)) n.
Proof. unfold next_ids, fresh. reflexivity. Qed.

Lemma gk_S h n : gk h (S n) = to_be_bytes (fst (draw h)) :: gk (snd (draw h)) n.
Proof. unfold gk. rewrite next_ids_S. reflexivity. Qed.
Lemma uk_S h n : uk h (S n) = to_be_bytes (fst (draw_ulid h)) :: uk (snd (draw_ulid h)) n.
Proof. unfold uk. rewrite next_ids_S. reflexivity. Qed.
Lemma uk_draw h n : uk (snd (draw h)) n = uk h n.
Proof. reflexivity. Qed.
Lemma gk_draw h n : gk (snd (draw_ulid h)) n = gk h n.
Proof. reflexivity. Qed.

Lemma next_ids_app {j} (g : gen j) n m : exists l, next_ids g (n + m) = next_ids g n ++ l.
Proof. unfold next_ids. rewrite seq_app, map_app. eauto. Qed.

Lemma NoDup_app4 {X} (a b c d : list X) : NoDup ((a ++ b) ++ (c ++ d)) -> NoDup (a ++ c).
Proof.
  intros H. apply NoDup_app_iff in H. destruct H as (H1 & H2 & H3).
  apply NoDup_app_iff in H1. apply NoDup_app_iff in H2. apply NoDup_app_iff. repeat split; try tauto.
  intros x Hx Hy. apply (H3 x); apply in_app_iff; auto.
Qed.

Lemma left_less h n m n' m' : n <= n' -> m <= m' ->
  (NoDup (left h n' m') -> NoDup (left h n m)) /\ forall r, In r (left h n m) -> In r (left h n' m').
Proof.
  intros Hn Hm. replace n' with (n + (n' - n)) by lia. replace m' with (m + (m' - m)) by lia.
  unfold left, gk, uk. destruct (next_ids_app (h_gen h) n (n' - n)) as [l1 ->].
  destruct (next_ids_app (h_ulid h) m (m' - m)) as [l2 ->]. rewrite !map_app. split.
  - apply NoDup_app4.
  - intros r. rewrite !in_app_iff. tauto.
Qed.

(** What a call leaves: room for [n] more identifiers and [m] more Ulids. *)
Definition spare {X} (n m : nat) (_ : keys) (K : room) (rh : X * handle k) : Prop :=
  NoDup (left (snd rh) n m) /\ forall r, In r (left (snd rh) n m) -> K r.

Lemma spare_less {X} n m n' m' A K (rh : X * handle k) : n <= n' -> m <= m' -> spare n' m' A K rh -> spare n m A K rh.
Proof.
  intros Hn Hm [H1 H2]. destruct (left_less (snd rh) n m n' m' Hn Hm) as [L1 L2]. split; auto.
Qed.

Lemma own_still {X} n m A K h (p : PR X) : tames (found any) A p -> NoDup (left h n m) -> (forall r, In r (left h n m) -> K r) ->
  own (spare n m) A K (and_handle h p).
Proof.
  intros Hp H1 H2. apply own_bind. eapply own_tames; [apply within_refl|exact Hp|]. intros A' B' x _ _ _ _. split; auto.
Qed.

Lemma left_draw h n m : NoDup (left h (S n) m) ->
  NoDup (left (snd (draw h)) n m) /\ ~ In (to_be_bytes (fst (draw h))) (left (snd (draw h)) n m) /\
  In (to_be_bytes (fst (draw h))) (left h (S n) m) /\
  forall r, In r (left (snd (draw h)) n m) -> In r (left h (S n) m).
Proof.
  unfold left. rewrite gk_S, uk_draw. simpl. intros H. inversion H; subst. repeat split; auto.
Qed.

Lemma left_draw_ulid h n m : NoDup (left h n (S m)) ->
  NoDup (left (snd (draw_ulid h)) n m) /\ ~ In (to_be_bytes (fst (draw_ulid h))) (left (snd (draw_ulid h)) n m) /\
  In (to_be_bytes (fst (draw_ulid h))) (left h n (S m)) /\
  forall r, In r (left (snd (draw_ulid h)) n m) -> In r (left h n (S m)).
Proof.
  unfold left. rewrite uk_S, gk_draw. intros H. split; [now apply NoDup_remove_1 in H|].
  split; [now apply NoDup_remove_2 in H|]. split.
  - apply in_app_iff. simpl. auto.
  - intros r. rewrite !in_app_iff. simpl. tauto.
Qed.

Lemma own_insert_edge n m A K h (t : T) e : NoDup (left h (S n) m) -> (forall r, In r (left h (S n) m) -> K r) ->
  own (spare n m) A K (s_insert_edge ce t e h : P (result err unit * handle k)).
Proof.
  intros H1 H2. destruct (left_draw h n m H1) as (D1 & D2 & D3 & D4).
  unfold s_insert_edge. destruct (draw h) as [r h'] eqn:E0. cbn [fst snd] in *.
  apply own_bind. unfold bind_ok, bincode. cbn [Prog.bind].
  assert (forall K', (forall x, In x (left h' n m) -> K' x) -> forall A' (a : result err unit), spare n m A' K' (a, h')) as Hsp
    by (intros K' HK' A' a; split; auto).
  destruct (ser ce e) as [b|er] eqn:Eb; cbv beta iota.
  - apply own_bind. apply own_txn with (K1 := fun x => In x (left h' n m)) (r := to_be_bytes r) (t := t); auto.
    + intros A' [x|x]; simpl; apply Hsp; auto.
    + intros A' [x|x]; simpl; apply Hsp; auto.
    + intros U d x d' _ _. apply tame_insert_edge with (e := e). now apply Hce.
  - simpl. apply Hsp; auto.
Qed.

Lemma own_merge_edge n m A K h (t : T) e : ~ keep t -> NoDup (left h (S n) m) -> (forall r, In r (left h (S n) m) -> K r) ->
  own (spare n m) A K (s_merge_edge ce me t e h : P (result err unit * handle k)).
Proof.
  intros Nk H1 H2. destruct (left_draw h n m H1) as (D1 & D2 & D3 & D4).
  unfold s_merge_edge. destruct (draw h) as [r h'] eqn:E0. cbn [fst snd] in *.
  apply own_bind. unfold bind_ok. 
  assert (forall K', (forall x, In x (left h' n m) -> K' x) -> forall A' (a : result err unit), spare n m A' K' (a, h')) as Hsp
    by (intros K' HK' A' a; split; auto).
  apply own_bind. apply own_txn with (K1 := fun x => In x (left h' n m)) (r := to_be_bytes r) (t := t); auto.
  - intros A' [x|x]; simpl; apply Hsp; auto.
  - intros A' [x|x]; simpl; apply Hsp; auto.
  - intros U d x d' _ Hs. now apply tame_merge_edge.
Qed.

Lemma own_extend_edge n m A K h (t : T) e : ~ keep t -> NoDup (left h n (S m)) -> (forall r, In r (left h n (S m)) -> K r) ->
  own (spare n m) A K (s_extend_edge ce t e h : P (result err unit * handle k)).
Proof.
  intros Nk H1 H2. destruct (left_draw_ulid h n m H1) as (D1 & D2 & D3 & D4).
  unfold s_extend_edge. destruct (draw_ulid h) as [r h'] eqn:E0. cbn [fst snd] in *.
  apply own_bind. unfold bind_ok at 1, bincode. cbn [Prog.bind].
  assert (forall K', (forall x, In x (left h' n m) -> K' x) -> forall A' (a : result err unit), spare n m A' K' (a, h')) as Hsp
    by (intros K' HK' A' a; split; auto).
  destruct (ser ce e) as [b|er] eqn:Eb; [|simpl; apply Hsp; auto].
  unfold bind_ok at 1, tree_insert at 1. cbn [Prog.bind SledOwn.own].
  exists (single (to_be_bytes r) t), (fun x => In x (left h' n m)). split; [|split; [|split; [|split; [|split]]]].
  - intros ? ? [-> ->]. auto.
  - auto.
  - intros ? ? [-> ->]. auto.
  - intros ? ? ? [_ ->] [_ ->]. reflexivity.
  - intros U d HU Hs. split; [eapply T_rec with (t := t); [split; reflexivity|apply Hce; exact Eb|]; apply T_refl|].
    assert (union U (single (to_be_bytes r) t) (to_be_bytes r) t) as Hu by (right; split; auto).
    eapply own_tames with (R := found any); [apply within_refl| |intros A' B' x _ _ _ _; simpl; apply Hsp; auto].
    eapply tames_bind_ok; [apply (tames_put_idx cn ce keep _ SPO t); auto|]. intros A1 old W1 Hold.
    eapply tames_bind_ok; [apply (tames_put_idx cn ce keep _ POS t); auto|]. intros A2 _ W2 _.
    eapply tames_bind_ok; [apply (tames_put_idx cn ce keep _ OSP t); auto|]. intros A3 _ W3 _.
    destruct old as [old|]; [|exact Logic.I]. eapply tames_bind_ok; [|intros; exact Logic.I].
    apply tames_remove. intros _. exists t. split; auto.
  - simpl. intros x. apply Hsp; auto.
Qed.

(** Loops over a source: [c] and [cu] identifiers for each element *)
Lemma own_source {X Er} (body : X -> handle k -> P (result err unit * handle k)) c cu (l : list (result Er X)) n m :
  (forall x h n m A K, In x (before_error l) -> NoDup (left h (c + n) (cu + m)) -> (forall r, In r (left h (c + n) (cu + m)) -> K r) ->
     own (spare n m) A K (body x h)) ->
  forall h A K, NoDup (left h (length (before_error l) * c + n) (length (before_error l) * cu + m)) ->
  (forall r, In r (left h (length (before_error l) * c + n) (length (before_error l) * cu + m)) -> K r) ->
  own (spare n m) A K (for_source body l h).
Proof.
  induction l as [|[x|er] l IH]; intros Hb h A K H1 H2.
  - simpl. split; auto.
  - cbn [for_source]. apply own_bind. cbn [before_error length Nat.mul] in H1, H2, Hb.
    rewrite <- !Nat.add_assoc in H1, H2.
    eapply own_mono; [|exact (Hb x h _ _ A K (or_introl eq_refl) H1 H2)].
    cbv beta. intros A' K' [[u|er] h'] _ Hsp; simpl.
    + destruct Hsp as [S1 S2]. apply IH; auto. intros y h0 n0 m0 A0 K0 Hy. apply Hb. right. exact Hy.
    + refine (spare_less (X := result (lr_error err Er) unit) _ _ _ _ A' K' (Err (LeftE er), h')
        (Nat.le_add_l n _) (Nat.le_add_l m _) _). exact Hsp.
  - simpl. split; auto.
Qed.

Lemma own_for {Er} fn fe c cu (s : source k NP EP Er) n m :
  (forall x h n m A K, NoDup (left h n m) -> (forall r, In r (left h n m) -> K r) -> own (spare n m) A K (fn x h)) ->
  (forall x h n m A K, In x (before_error (src_edges s)) -> NoDup (left h (c + n) (cu + m)) -> (forall r, In r (left h (c + n) (cu + m)) -> K r) ->
     own (spare n m) A K (fe x h)) ->
  forall h A K, NoDup (left h (length (before_error (src_edges s)) * c + n) (length (before_error (src_edges s)) * cu + m)) ->
  (forall r, In r (left h (length (before_error (src_edges s)) * c + n) (length (before_error (src_edges s)) * cu + m)) -> K r) ->
  own (spare n m) A K (for_nodes_edges (SE := SE) (BE := BE) fn fe s h).
Proof.
  intros Hn He h A K H1 H2. apply own_bind.
  eapply own_mono.
  2:{ apply (own_source fn 0 0 (src_nodes s) (length (before_error (src_edges s)) * c + n) (length (before_error (src_edges s)) * cu + m)).
      - intros x h0 n0 m0 A0 K0 _. apply Hn.
      - rewrite !Nat.mul_0_r. exact H1.
      - rewrite !Nat.mul_0_r. exact H2. }
  cbv beta. intros A' K' [[u|er] h'] _ Hsp; simpl.
  - destruct Hsp as [S1 S2]. apply own_source with (c := c) (cu := cu); auto.
  - refine (spare_less (X := result (lr_error err Er) unit) _ _ _ _ A' K' (Err er, h') (Nat.le_add_l n _) (Nat.le_add_l m _) _). exact Hsp.
Qed.

Lemma own_lift n m A K (p : P (result err unit * handle k)) : own (spare n m) A K p ->
  own (spare n m) A K (lift (E := E) p).
Proof. intros H. apply own_bind. eapply own_mono; [|exact H]. intros A' K' [r h'] _ Hs. exact Hs. Qed.

Lemma own_apply n m A K c (o : op) h : (forall t, keep t -> ~ rewrites o t) ->
  NoDup (left h (draws o + n) (draws_ulid o + m)) -> (forall r, In r (left h (draws o + n) (draws_ulid o + m)) -> K r) ->
  own (spare n m) A K (l_apply cn ce mn me c o h : P (outcome * handle k)).
Proof.
  intros Hk H1 H2. destruct o as [v p|t e|v|t|v p|t e|s|s]; cbn [draws draws_ulid l_apply sled_apply rewrites Nat.add] in *.
  - apply own_lift, own_still; auto. now apply tames_insert_node.
  - apply own_lift. now apply own_insert_edge.
  - apply own_lift, own_still; auto. apply tames_remove_node. intros t Kt. specialize (Hk t Kt). split; intros E'; apply Hk; auto.
  - apply own_lift, own_still; auto. apply tames_remove_edge. intros Kt. exact (Hk t Kt eq_refl).
  - apply own_lift, own_still; auto. now apply tames_merge_node.
  - apply own_lift. apply own_merge_edge; auto. intros Kt. exact (Hk t Kt eq_refl).
  - apply own_for with (c := 0) (cu := 1).
    + intros x h0 n0 m0 A0 K0 N0 S0. apply own_still; auto. now apply tames_extend_node.
    + intros [t e] h0 n0 m0 A0 K0 Hin N0 S0. apply own_extend_edge; auto. intros Kt. apply (Hk t Kt). eauto.
    + rewrite Nat.mul_0_r, Nat.mul_1_r. exact H1.
    + rewrite Nat.mul_0_r, Nat.mul_1_r. exact H2.
  - apply own_for with (c := 1) (cu := 0).
    + intros x h0 n0 m0 A0 K0 N0 S0. apply own_still; auto. now apply tames_merge_node.
    + intros [t e] h0 n0 m0 A0 K0 Hin N0 S0. apply own_merge_edge; auto. intros Kt. apply (Hk t Kt). eauto.
    + rewrite Nat.mul_0_r, Nat.mul_1_r. exact H1.
    + rewrite Nat.mul_0_r, Nat.mul_1_r. exact H2.
Qed.

Lemma own_history cs (l : list op) : forall j A K h, Forall (fun o => forall t, keep t -> ~ rewrites o t) l ->
  NoDup (history_keys h l) -> (forall r, In r (history_keys h l) -> K r) ->
  own (fun _ _ _ => True) A K (l_history cn ce mn me cs j l h : P (list outcome * handle k)).
Proof.
  induction l as [|o l IH]; intros j A K h Ho H1 H2; simpl; auto.
  inversion Ho; subst. apply own_bind. eapply own_mono; [|apply own_apply; auto; [exact H1|exact H2]].
  cbv beta. intros A' K' [r h'] _ [S1 S2]. cbn [snd fst] in *. apply own_bind.
  eapply own_mono; [|apply IH; auto]. simpl. auto.
Qed.
End OwnOps.
