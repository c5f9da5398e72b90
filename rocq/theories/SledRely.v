(** Readers next to writers: what a reader may rely on, and scans that are read piece by piece. *)
From Coq Require Import Arith NArith List Bool Sorted Lia.
From Verif Require Import Bytes BytesFacts OMap OMapFacts Core IdType IdTypeFacts Store Mem Spec
  CodecFacts ListFacts MemSim History Prog ProgFacts Sled SledHistory SledDb SledOps SledRead SledTables
  SledLeaf SledLeafFacts SledBeside.
Import ListNotations.

(** ** A program that does not change the database, while others do *)
Section Rely.
Context {D SE W : Type} (cur : W -> D) (ext : W -> W -> Prop).
Context (ext_refl : forall w, ext w w) (ext_trans : forall a b c, ext a b -> ext b c -> ext a c).
Context (F : SE -> Prop).
Notation P A := (prog D SE A).
Implicit Types w : W.

(** [Q] holds of the result, started in the world [w]; the world may be extended before every step. *)
Fixpoint rg {A} (Q : A -> W -> Prop) (p : P A) (w : W) : Prop :=
  match p with
  | Ret a => Q a w
  | Look c => forall w', ext w w' -> rg Q (c (cur w')) w'
  | Act u c e => forall w', ext w w' ->
      u (cur w') = cur w' /\ rg Q (c (cur w')) w' /\ forall x, F x -> rg Q (e x) w'
  end.

Lemma rg_mono {A} (Q Q' : A -> W -> Prop) (p : P A) : forall w,
  (forall a w', ext w w' -> Q a w' -> Q' a w') -> rg Q p w -> rg Q' p w.
Proof.
  induction p as [a|c IH|u c IH e IHe]; simpl; intros w H Hp; auto.
  - intros w' Hw. apply IH; auto. intros; eapply H; eauto.
  - intros w' Hw. destruct (Hp w' Hw) as (H1 & H2 & H3). split; auto. split.
    + apply IH; auto. intros; eapply H; eauto.
    + intros x Hx. apply IHe; auto. intros; eapply H; eauto.
Qed.

Lemma rg_bind {A B} (Q : B -> W -> Prop) (p : P A) (f : A -> P B) : forall w,
  rg (fun a w' => rg Q (f a) w') p w -> rg Q (bind p f) w.
Proof.
  induction p as [a|c IH|u c IH e IHe]; simpl; intros w Hp; auto.
  intros w' Hw. destruct (Hp w' Hw) as (H1 & H2 & H3). auto.
Qed.

Lemma rg_later {A} (Q : A -> W -> Prop) (p : P A) w w' :
  (forall a w1 w2, ext w1 w2 -> Q a w1 -> Q a w2) -> ext w w' -> rg Q p w -> rg Q p w'.
Proof.
  intros H Hw. destruct p; simpl; intros Hp; [eapply H; eauto| |]; intros w2 H2; apply Hp; eauto.
Qed.

Lemma rg_map {X Y} (V : X -> Y -> W -> Prop) (f : X -> P Y) l : forall w,
  (forall x y w1 w2, ext w1 w2 -> V x y w1 -> V x y w2) ->
  (forall x w', In x l -> ext w w' -> rg (V x) (f x) w') ->
  rg (fun ys w' => Forall2 (fun x y => V x y w') l ys) (map_prog f l) w.
Proof.
  induction l as [|x l IH]; intros w HV Hf; simpl; auto.
  apply rg_bind. eapply rg_mono; [|apply Hf; simpl; auto]. cbv beta. intros y w1 H1 Hy.
  apply rg_bind. eapply rg_mono; [|apply IH; auto].
  - cbv beta. intros ys w2 H2 Hys. simpl. constructor; eauto.
  - intros x' w2 Hx H2. apply Hf; simpl; eauto.
Qed.

(** Databases seen from one world to another. *)
Definition between (w w' : W) (d : D) : Prop := exists w1, ext w w1 /\ ext w1 w' /\ d = cur w1.

Lemma between_wider a b c e d : between b c d -> ext a b -> ext c e -> between a e d.
Proof. intros (w1 & H1 & H2 & ->) H3 H4. exists w1. repeat split; eauto. Qed.
End Rely.

(** ** Scans *)
Section Scans.
Context {SE BE W : Type} (cur : W -> db) (ext : W -> W -> Prop).
Context (ext_refl : forall w, ext w w) (ext_trans : forall a b c, ext a b -> ext b c -> ext a c).
Context (F : SE -> Prop).
Notation err := (sled_error SE BE).
Notation P A := (prog db SE A).
Notation PR A := (prog db SE (result err A)).
Notation rg := (rg cur ext F).
Notation between := (between cur ext).
Implicit Types w : W.
Let BC := bytes_cmp_ok.

Definition key_below (a b : bytes * bytes) : Prop := bytes_cmp (fst a) (fst b) = Lt.

(** [L] are the entries that a scan from [lo] on has met from [w] to [w']. *)
Definition scanned (entries : db -> list (bytes * bytes)) (lo : option bytes) (w w' : W)
    (L : list (bytes * bytes)) : Prop :=
  StronglySorted key_below L /\
  (forall kv, In kv L -> not_before lo (fst kv) = true) /\
  (forall key, not_before lo key = true ->
     exists d, between w w' d /\ forall v, In (key, v) L <-> In (key, v) (entries d)).

Lemma scanned_in entries lo w w' L kv : scanned entries lo w w' L -> In kv L ->
  exists d, between w w' d /\ In kv (entries d).
Proof.
  intros (_ & H2 & H3) Hin. destruct (H3 (fst kv) (H2 kv Hin)) as (d & Hd & H).
  exists d. split; auto. destruct kv as [key v]. now apply H.
Qed.

Lemma sorted_app_lt (a b : list (bytes * bytes)) : StronglySorted key_below a -> StronglySorted key_below b ->
  (forall x y, In x a -> In y b -> key_below x y) -> StronglySorted key_below (a ++ b).
Proof.
  induction a as [|x a IH]; simpl; intros Ha Hb Hab; auto.
  inversion Ha; subst. constructor; [apply IH; auto|].
  apply Forall_forall. intros y Hy. apply in_app_iff in Hy. destruct Hy as [Hy|Hy]; [|auto].
  eapply Forall_forall in H2; eauto.
Qed.

Lemma piece_sorted lo hi es : om_sorted bytes_cmp es -> StronglySorted key_below (piece lo hi es).
Proof. intros H. apply (om_sorted_filter (cmp := bytes_cmp)). exact H. Qed.

(** A last piece, and a piece before others. *)
Lemma scanned_last (entries : db -> list (bytes * bytes)) lo w w1 w' : om_sorted bytes_cmp (entries (cur w1)) ->
  ext w w1 -> ext w1 w' -> scanned entries lo w w' (piece lo None (entries (cur w1))).
Proof.
  intros Hs H1 H2. split; [now apply piece_sorted|]. split.
  - intros kv Hin. apply piece_in in Hin. tauto.
  - intros key Hk. exists (cur w1). split; [exists w1; auto|]. intros v. rewrite piece_in. simpl. tauto.
Qed.

Lemma scanned_cons (entries : db -> list (bytes * bytes)) lo c w w1 w2 w' L : om_sorted bytes_cmp (entries (cur w1)) ->
  ext w w1 -> ext w1 w2 -> ext w2 w' -> scanned entries (Some (later lo c)) w2 w' L ->
  scanned entries lo w w' (piece lo (Some c) (entries (cur w1)) ++ L).
Proof.
  intros Hs H1 H2 H2' (L1 & L2 & L3). split; [|split].
  - apply sorted_app_lt; auto; [now apply piece_sorted|]. intros x y Hx Hy. apply piece_in in Hx. apply L2 in Hy.
    rewrite later_spec in Hy. apply andb_prop in Hy. destruct Hy as [_ Hy]. destruct Hx as (_ & _ & Hx).
    rewrite before_spec in Hx. specialize (Hx c eq_refl). unfold key_below. simpl in Hy.
    eapply lt_le; [exact Hx|]. apply not_gt. destruct (bytes_cmp (fst y) c); simpl in Hy; congruence.
  - intros kv Hin. apply in_app_iff in Hin. destruct Hin as [Hin|Hin]; [apply piece_in in Hin; tauto|].
    apply L2 in Hin. rewrite later_spec in Hin. apply andb_prop in Hin. tauto.
  - intros key Hk. destruct (before (Some c) key) eqn:Hb.
    + exists (cur w1). split; [exists w1; repeat split; eauto|]. intros v. rewrite in_app_iff, piece_in. simpl fst.
      split; [|tauto]. intros [H|H]; [tauto|]. apply L2 in H. rewrite later_spec in H. simpl fst in H. rewrite Hb in H.
      rewrite andb_false_r in H. discriminate.
    + assert (not_before (Some (later lo c)) key = true) as Hk' by now rewrite later_spec, Hk, Hb.
      destruct (L3 key Hk') as (d & Hd & H). exists d. split; [eapply between_wider; eauto|].
      intros v. rewrite in_app_iff, piece_in. simpl fst. rewrite Hb, H. intuition congruence.
Qed.

Lemma rg_scan {A} (V : bytes * bytes -> result err A -> W -> Prop) (entries : db -> list (bytes * bytes))
    (f : bytes * bytes -> PR A) cuts : forall lo w,
  (forall w', om_sorted bytes_cmp (entries (cur w'))) ->
  (forall x y w1 w2, ext w1 w2 -> V x y w1 -> V x y w2) ->
  (forall kv w1 w2, ext w w1 -> In kv (entries (cur w1)) -> ext w1 w2 -> rg (V kv) (next (f kv)) w2) ->
  rg (fun xs w' => exists L, scanned entries lo w w' L /\ Forall2 (fun kv x => V kv x w') L xs)
     (scan_from entries f lo cuts) w.
Proof.
  induction cuts as [|c cuts IH]; intros lo w Hs HV Hf.
  - cbn [scan_from Prog.bind SledRely.rg]. intros w1 H1. eapply rg_mono; [exact ext_refl|exact ext_trans| |apply rg_map]; eauto.
    + cbv beta. intros xs w2 H2 Hxs. eexists. split; [|exact Hxs]. now apply scanned_last.
    + intros kv w2 Hin H2. apply piece_in in Hin. eapply Hf; eauto. tauto.
  - cbn [scan_from Prog.bind SledRely.rg]. intros w1 H1. apply rg_bind. eapply rg_mono; [exact ext_refl|exact ext_trans| |apply rg_map]; eauto.
    + cbv beta. intros xs w2 H2 Hxs. apply rg_bind. eapply rg_mono; [exact ext_refl|exact ext_trans| |apply (IH _ w2)]; auto.
      * cbv beta. intros ys w3 H3 (L & HL & Hys). simpl. eexists. split; [eapply scanned_cons; eauto|].
        apply Forall2_app; auto. clear - HV H3 Hxs. induction Hxs; constructor; eauto.
      * intros kv w3 w4 H3 Hin H4. eapply Hf; [|exact Hin|exact H4]. eauto.
    + intros kv w2 Hin H2. apply piece_in in Hin. eapply Hf; eauto. tauto.
Qed.

(** [for] loops: every step was fine *)
Inductive went {X S} (V : X -> S -> result err S -> W -> Prop) (w : W) : list X -> S -> S -> Prop :=
| Went_nil s : went V w [] s s
| Went_cons x l s s1 s2 : V x s (Ok s1) w -> went V w l s1 s2 -> went V w (x :: l) s s2.

Lemma went_app {X S} (V : X -> S -> result err S -> W -> Prop) w l l' : forall s s1 s2,
  went V w l s s1 -> went V w l' s1 s2 -> went V w (l ++ l') s s2.
Proof. induction l; simpl; intros s s1 s2 H H'; inversion H; subst; auto. econstructor; eauto. Qed.

Lemma went_later {X S} (V : X -> S -> result err S -> W -> Prop) w w' l : forall s s1,
  (forall x s r, V x s r w -> V x s r w') -> went V w l s s1 -> went V w' l s s1.
Proof. induction l; intros s s1 HV H; inversion H; subst; econstructor; eauto. Qed.

Lemma rg_for {X S} (V : X -> S -> result err S -> W -> Prop) (f : X -> S -> PR S) l : forall s w,
  (forall x s r w1 w2, ext w1 w2 -> V x s r w1 -> V x s r w2) ->
  (forall x s w', In x l -> ext w w' -> rg (V x s) (f x s) w') ->
  rg (fun r w' => match r with
                  | Ok s' => went V w' l s s'
                  | Err e => exists x s', In x l /\ V x s' (Err e) w'
                  end) (for_ok f l s) w.
Proof.
  induction l as [|x l IH]; intros s w HV Hf; simpl; [constructor|].
  apply rg_bind. eapply rg_mono; [exact ext_refl|exact ext_trans| |apply Hf; simpl; auto]. cbv beta. intros [s1|e] w1 H1 Hy.
  - eapply rg_mono; [exact ext_refl|exact ext_trans| |apply (IH s1 w1); auto].
    + cbv beta. intros [s2|e] w2 H2 H.
      * econstructor; eauto.
      * destruct H as (x' & s' & Hx & H). exists x', s'. simpl. auto.
    + intros x' s' w2 Hx H2. apply Hf; simpl; eauto.
  - simpl. exists x, s. auto.
Qed.

Lemma rg_for_from {S} (V : bytes * bytes -> S -> result err S -> W -> Prop) (entries : db -> list (bytes * bytes))
    (f : bytes * bytes -> S -> PR S) cuts : forall lo s w,
  (forall w', om_sorted bytes_cmp (entries (cur w'))) ->
  (forall x s r w1 w2, ext w1 w2 -> V x s r w1 -> V x s r w2) ->
  (forall kv s w1 w2, ext w w1 -> In kv (entries (cur w1)) -> ext w1 w2 -> rg (V kv s) (f kv s) w2) ->
  rg (fun r w' => match r with
                  | Ok s' => exists L, scanned entries lo w w' L /\ went V w' L s s'
                  | Err e => exists kv s', V kv s' (Err e) w'
                  end) (for_from entries f lo cuts s) w.
Proof.
  induction cuts as [|c cuts IH]; intros lo s w Hs HV Hf.
  - cbn [for_from SledRely.rg]. intros w1 H1. eapply rg_mono; [exact ext_refl|exact ext_trans| |apply rg_for]; eauto.
    + cbv beta. intros [s2|e] w2 H2 H.
      * eexists. split; [|exact H]. now apply scanned_last.
      * destruct H as (x & s' & _ & H). eauto.
    + intros kv s' w2 Hin H2. apply piece_in in Hin. eapply Hf; eauto. tauto.
  - cbn [for_from]. unfold bind_ok. cbn [Prog.bind SledRely.rg]. intros w1 H1. apply rg_bind.
    eapply rg_mono; [exact ext_refl|exact ext_trans| |apply rg_for]; eauto.
    + cbv beta. intros [s2|e] w2 H2 H.
      * eapply rg_mono; [exact ext_refl|exact ext_trans| |apply (IH _ s2 w2)]; auto.
        -- cbv beta. intros [s3|e] w3 H3 H'; auto. destruct H' as (L & HL & Hw).
           eexists. split; [eapply scanned_cons; eauto|]. eapply went_app; [|exact Hw].
           eapply went_later; [|exact H]. eauto.
        -- intros kv s' w3 w4 H3 Hin H4. eapply Hf; [|exact Hin|exact H4]. eauto.
      * simpl. destruct H as (x & s' & _ & H). eauto.
    + intros kv s' w2 Hin H2. apply piece_in in Hin. eapply Hf; eauto. tauto.
Qed.
End Scans.
