(** Crashes and failures during single calls on a SledTripleStore, for any database contents. *)
From Coq Require Import Arith NArith List Bool Sorted Lia.
From Verif Require Import Bytes BytesFacts OMap OMapFacts Core IdType IdTypeFacts Store Mem Spec
  CodecFacts ListFacts MemFacts MemSim History MemTop Prog ProgFacts Sled SledHistory SledDb
  SledOps SledBulk SledRun SledRead SledTop SledMain.
Import ListNotations.

(** ** Programs whose only effect is their last step *)
Section Careful.
Context {D SE : Type}.
Notation P A := (prog D SE A).

(** A failing storage call makes the program stop at once and report it ([rep]); only the last
    storage call changes anything, and only if the program then succeeds. *)
Inductive careful {A} (fails : A -> Prop) (rep : SE -> A -> Prop) : P A -> Prop :=
| Ca_ret a : careful fails rep (Ret a)
| Ca_look k : (forall d, careful fails rep (k d)) -> careful fails rep (Look k)
| Ca_read u k e : (forall d, u d = d) -> (forall d, careful fails rep (k d)) ->
    (forall x, exists a, e x = Ret a /\ rep x a) -> careful fails rep (Act u k e)
| Ca_last u k e : (forall d, exists a, k d = Ret a /\ (fails a -> u d = d)) ->
    (forall x, exists a, e x = Ret a /\ rep x a) -> careful fails rep (Act u k e).

(** The same without any change. *)
Inductive cautious {A} (rep : SE -> A -> Prop) : P A -> Prop :=
| Cu_ret a : cautious rep (Ret a)
| Cu_look k : (forall d, cautious rep (k d)) -> cautious rep (Look k)
| Cu_read u k e : (forall d, u d = d) -> (forall d, cautious rep (k d)) ->
    (forall x, exists a, e x = Ret a /\ rep x a) -> cautious rep (Act u k e).

Lemma careful_bind {A B} r1 fails (r2 : SE -> B -> Prop) (p : P A) (g : A -> P B) :
  cautious r1 p -> (forall a, careful fails r2 (g a)) ->
  (forall x a, r1 x a -> exists b, g a = Ret b /\ r2 x b) -> careful fails r2 (bind p g).
Proof.
  intros H Hg Hf. induction H as [a|c _ IH|u c e Hu _ IH He]; simpl; auto.
  - now apply Ca_look.
  - apply Ca_read; auto. intros x. destruct (He x) as (a & -> & Ha). simpl. eauto.
Qed.

Lemma cautious_bind {A B} r1 (r2 : SE -> B -> Prop) (p : P A) (g : A -> P B) :
  cautious r1 p -> (forall a, cautious r2 (g a)) ->
  (forall x a, r1 x a -> exists b, g a = Ret b /\ r2 x b) -> cautious r2 (bind p g).
Proof.
  intros H Hg Hf. induction H as [a|c _ IH|u c e Hu _ IH He]; simpl; auto.
  - now apply Cu_look.
  - apply Cu_read; auto. intros x. destruct (He x) as (a & -> & Ha). simpl. eauto.
Qed.

(** Followed by a computation. *)
Lemma careful_map {A B} f1 r1 (f2 : B -> Prop) (r2 : SE -> B -> Prop) (p : P A) (g : A -> P B) :
  careful f1 r1 p ->
  (forall a, exists b, g a = Ret b /\ (f2 b -> f1 a) /\ forall x, r1 x a -> r2 x b) ->
  careful f2 r2 (bind p g).
Proof.
  intros H Hg. induction H as [a|c _ IH|u c e Hu _ IH He|u c e Hk He]; simpl.
  - destruct (Hg a) as (b & -> & _). apply Ca_ret.
  - now apply Ca_look.
  - apply Ca_read; auto. intros x. destruct (He x) as (a & -> & Ha). simpl.
    destruct (Hg a) as (b & -> & _ & Hb). eauto.
  - apply Ca_last.
    + intros d. destruct (Hk d) as (a & -> & Ha). simpl. destruct (Hg a) as (b & -> & Hb & _). eauto.
    + intros x. destruct (He x) as (a & -> & Ha). simpl. destruct (Hg a) as (b & -> & _ & Hb). eauto.
Qed.

(** Either the first failing storage call ended the program and nothing changed, or no storage
    call failed and everything is as with a working storage. *)
Lemma careful_spec {A} fails rep (p : P A) : careful fails rep p -> forall faults d,
  (exists n x, faults = repeat None n ++ Some x :: snd (exec p faults d) /\
     rep x (ret_of p faults d) /\ db_of p faults d = d) \/
  (exists n, faults = repeat None n ++ snd (exec p faults d) /\
     ret_of p faults d = ret_of p [] d /\ db_of p faults d = db_of p [] d).
Proof.
  unfold ret_of, db_of.
  induction 1 as [a|c _ IH|u c e Hu _ IH He|u c e Hk He]; intros faults d; simpl.
  - right. exists 0. auto.
  - apply IH.
  - rewrite Hu. destruct faults as [|[x|] faults].
    + apply IH.
    + destruct (He x) as (a & -> & Ha). simpl. left. exists 0, x. auto.
    + destruct (IH d faults d) as [(n & x & E0 & H)|(n & E0 & H)]; [left; exists (S n), x | right; exists (S n)];
        simpl; (split; [now f_equal|exact H]).
  - destruct (Hk d) as (a & -> & Ha). simpl. destruct faults as [|[x|] faults].
    + right. exists 0. auto.
    + destruct (He x) as (a' & -> & Ha'). simpl. left. exists 0, x. auto.
    + right. exists 1. auto.
Qed.

Lemma careful_unchanged {A} fails rep (p : P A) : careful fails rep p -> forall faults d,
  fails (ret_of p faults d) -> db_of p faults d = d.
Proof.
  unfold ret_of, db_of. induction 1 as [a|c _ IH|u c e Hu _ IH He|u c e Hk He]; intros faults d; simpl; auto.
  - rewrite Hu. destruct faults as [|[x|] faults]; auto. destruct (He x) as (a & -> & Ha). auto.
  - destruct (Hk d) as (a & -> & Ha). destruct faults as [|[x|] faults]; simpl; auto.
    destruct (He x) as (a' & -> & Ha'). auto.
Qed.

Lemma careful_crash {A} fails rep (p : P A) : careful fails rep p -> atomic p.
Proof.
  unfold atomic, db_of. induction 1 as [a|c _ IH|u c e Hu _ IH He|u c e Hk He]; intros n faults d; simpl; auto.
  - rewrite Hu. destruct n as [|n]; auto. destruct faults as [|[x|] faults]; auto.
    destruct (He x) as (a & -> & Ha). auto.
  - destruct n as [|n]; auto. destruct (Hk d) as (a & -> & Ha). destruct faults as [|[x|] faults]; simpl; auto.
    destruct (He x) as (a' & -> & Ha'). auto.
Qed.

(** From the database [d], every step leaves it as it is, and the program answers [v] or
    reports the first failure. *)
Inductive steady {A} (d : D) (rep : SE -> A -> Prop) (v : A) : P A -> Prop :=
| St_ret : steady d rep v (Ret v)
| St_act u k e : u d = d -> steady d rep v (k d) -> (forall x, exists a, e x = Ret a /\ rep x a) ->
    steady d rep v (Act u k e).

Lemma steady_spec {A} d rep (v : A) (p : P A) : steady d rep v p -> forall faults,
  (forall n, crash n p faults d = d) /\ db_of p faults d = d /\
  ((exists n x, faults = repeat None n ++ Some x :: snd (exec p faults d) /\ rep x (ret_of p faults d)) \/
   (exists n, faults = repeat None n ++ snd (exec p faults d) /\ ret_of p faults d = v)).
Proof.
  unfold ret_of, db_of. induction 1 as [|u c e Hu _ IH He]; intros faults; simpl.
  - split; auto. split; auto. right. exists 0. auto.
  - rewrite Hu. destruct faults as [|[x|] faults].
    + destruct (IH []) as (H1 & H2 & H3). split; [|auto]. intros [|n]; auto.
    + destruct (He x) as (a & -> & Ha). simpl. split; [intros []; auto|]. split; auto. left. exists 0, x. auto.
    + destruct (IH faults) as (H1 & H2 & H3). split; [intros [|n]; auto|]. split; auto.
      destruct H3 as [(n & x & E0 & H)|(n & E0 & H)]; [left; exists (S n), x | right; exists (S n)];
        simpl; (split; [now f_equal|exact H]).
Qed.

End Careful.

(** ** The single calls *)
Section Single.
Context {k : idkind} {NP EP SE BE E : Type} (cn : codec BE NP) (ce : codec BE EP).
Context (mn : NP -> NP -> NP) (me : EP -> EP -> EP).
Notation I := (Id k).
Notation T := (triple (Id k)).
Notation err := (sled_error SE BE).
Notation P A := (prog db SE A).
Notation PR A := (prog db SE (result err A)).
Notation op := (op k NP EP E).
Notation outcome := (outcome (SE := SE) (BE := BE) (E := E)).
Implicit Types t : T.
Implicit Types i : I.

Definition is_err {A} (r : result err A) : Prop := match r with Err _ => True | Ok _ => False end.
Definition rep_err {A} (x : SE) (r : result err A) : Prop := r = Err (SledError x).
Definition rep_out (x : SE) (rh : outcome * handle k) : Prop := fst rh = Err (LeftE (SledError x)).
Definition failed_out (rh : outcome * handle k) : Prop := failed (fst rh).

Lemma careful_ok {A B} (p : PR A) (g : A -> PR B) :
  cautious rep_err p -> (forall a, careful is_err rep_err (g a)) -> careful is_err rep_err (bind_ok p g).
Proof.
  intros H Hg. eapply careful_bind; eauto.
  - intros [a|e]; auto. apply Ca_ret.
  - intros x a ->. exists (Err (SledError x)). split; reflexivity.
Qed.
Lemma cautious_ok {A B} (p : PR A) (g : A -> PR B) :
  cautious rep_err p -> (forall a, cautious rep_err (g a)) -> cautious rep_err (bind_ok p g).
Proof.
  intros H Hg. eapply cautious_bind; eauto.
  - intros [a|e]; auto. apply Cu_ret.
  - intros x a ->. exists (Err (SledError x)). split; reflexivity.
Qed.
Lemma careful_done {A} (p : PR A) : careful is_err rep_err p -> careful is_err rep_err (bind_ok p (fun _ => Ret (Ok tt))).
Proof.
  intros H. eapply careful_map; eauto. intros [a|e]; eexists; (split; [reflexivity|]); simpl.
  - split; auto. intros x Hx. discriminate.
  - split; auto. intros x Hx. injection Hx as ->. reflexivity.
Qed.
Lemma cautious_for {X S} (f : X -> S -> PR S) l :
  (forall x s, cautious rep_err (f x s)) -> forall s, cautious rep_err (for_ok f l s).
Proof.
  intros H. induction l as [|x l IH]; intros s; simpl; [apply Cu_ret|]. apply cautious_ok; auto.
Qed.

Lemma careful_insert x key v : careful is_err rep_err (tree_insert x key v : PR (option bytes)).
Proof.
  apply Ca_last; intros; eexists; (split; [reflexivity|]); simpl; [tauto|reflexivity].
Qed.
Lemma careful_txn {A} (body : txn A) : careful is_err rep_err (transaction body : PR A).
Proof.
  apply Ca_last; intros y; eexists; (split; [reflexivity|]).
  - destruct (body y) as [[a d']|e]; simpl; tauto.
  - reflexivity.
Qed.
Lemma cautious_next {A} (p : PR A) : cautious rep_err p -> cautious rep_err (next p).
Proof. intros H. apply Cu_read; auto. intros x. eexists. split; reflexivity. Qed.

Lemma careful_lift h (p : PR unit) : careful is_err rep_err p ->
  careful failed_out rep_out (lift (and_handle h p)).
Proof.
  intros H. unfold lift, and_handle.
  eapply careful_map with (f1 := fun rh : result err unit * handle k => is_err (fst rh)) (r1 := fun x rh => rep_err x (fst rh)).
  - eapply careful_map; [exact H|]. intros [[]|e]; eexists; (split; [reflexivity|]); simpl; auto.
  - intros [[[]|e] h']; eexists; (split; [reflexivity|]); simpl; split; auto.
    + intros x Hx. discriminate.
    + intros x Hx. injection Hx as ->. reflexivity.
Qed.

(** The calls made of one storage step that changes something. *)
Definition single (o : op) : Prop :=
  match o with
  | OInsertNode _ _ | OInsertEdge _ _ | ORemoveNode _ | OMergeNode _ _ | OMergeEdge _ _ => True
  | _ => False
  end.

Lemma careful_single o h : single o -> careful failed_out rep_out (sled_apply cn ce mn me o h).
Proof.
  destruct o as [i p|t e|i|t|i p|t e|s|s]; intros []; cbn [sled_apply].
  - apply careful_lift. unfold s_insert_node. apply careful_ok; [apply Cu_ret|]. intros b. apply careful_done, careful_insert.
  - unfold s_insert_edge, draw, fresh. apply careful_lift. apply careful_ok; [apply Cu_ret|]. intros b.
    apply careful_done, careful_txn.
  - apply careful_lift. unfold s_remove_node. apply careful_ok.
    { apply Cu_look. intros d. apply cautious_for. intros kv b. apply cautious_next. apply cautious_ok; intros; apply Cu_ret. }
    intros f. apply careful_ok.
    { apply Cu_look. intros d. apply cautious_for. intros kv b. apply cautious_next. apply cautious_ok; intros; apply Cu_ret. }
    intros b. apply careful_done, careful_txn.
  - apply careful_lift. apply careful_done, careful_txn.
  - unfold s_merge_edge, draw, fresh. apply careful_lift. apply careful_done, careful_txn.
Qed.

(** remove_edge: the steps after the transaction find nothing left to do. *)
Lemma remove_absent x key d : bget key (tbl x d) = None -> set_tbl x (bremove key (tbl x d)) d = d.
Proof. intros H. rewrite bremove_absent by auto. apply set_tbl_same. Qed.

Lemma rm_edge_absent t d :
  bget (encode_spo t) (t_spo (d_rm_edge t d)) = None /\
  bget (encode_pos t) (t_pos (d_rm_edge t d)) = None /\
  bget (encode_osp t) (t_osp (d_rm_edge t d)) = None.
Proof.
  unfold d_rm_edge, d_del_rec, d_del_idx. destruct (rid SPO d t) as [r|]; simpl; repeat split; apply get_remove_eq.
Qed.

Lemma remove_edge_shape t h : exists u c e,
  lift (and_handle h (s_remove_edge t)) = (Act u c e : P (outcome * handle k)) /\
  (forall d, u d = d_rm_edge t d) /\
  (forall d, steady (d_rm_edge t d) rep_out (Ok tt, h) (c d)) /\
  (forall x, exists a, e x = Ret a /\ rep_out x a).
Proof.
  eexists _, _, _. split; [reflexivity|]. split; [|split].
  - intros d. now rewrite remove_edge_txn_eq.
  - intros d. destruct (rm_edge_absent t d) as (A1 & A2 & A3).
    rewrite remove_edge_txn_eq. simpl.
    apply St_act; [apply (remove_absent TSpo); exact A1| |intros x; eexists; split; reflexivity].
    simpl. apply St_act; [apply (remove_absent TPos); exact A2| |intros x; eexists; split; reflexivity].
    simpl. apply St_act; [apply (remove_absent TOsp); exact A3| |intros x; eexists; split; reflexivity].
    simpl. rewrite A1. apply St_ret.
  - intros x. eexists. split; reflexivity.
Qed.

Lemma remove_edge_atomic t h : atomic (lift (and_handle h (s_remove_edge t)) : P (outcome * handle k)).
Proof.
  destruct (remove_edge_shape t h) as (u & c & e & -> & Hu & Hc & He). intros n faults d. unfold db_of. simpl.
  destruct n as [|n]; auto. destruct faults as [|[x|] faults].
  - right. rewrite Hu. destruct (steady_spec _ _ _ _ (Hc d) []) as (H1 & H2 & _). unfold db_of in H2. now rewrite H1, H2.
  - destruct (He x) as (a & -> & _). auto.
  - right. rewrite Hu. destruct (steady_spec _ _ _ _ (Hc d) faults) as (H1 & H2 & _). unfold db_of in H2. now rewrite H1, H2.
Qed.

Lemma remove_edge_reports t h faults d :
  let p := lift (and_handle h (s_remove_edge t)) : P (outcome * handle k) in
  (exists n x, faults = repeat None n ++ Some x :: snd (exec p faults d) /\ rep_out x (ret_of p faults d) /\
     db_of p faults d = match n with 0 => d | S _ => db_of p [] d end) \/
  (exists n, faults = repeat None n ++ snd (exec p faults d) /\
     ret_of p faults d = ret_of p [] d /\ db_of p faults d = db_of p [] d).
Proof.
  cbv zeta. destruct (remove_edge_shape t h) as (u & c & e & -> & Hu & Hc & He). unfold ret_of, db_of. simpl. rewrite Hu.
  destruct (steady_spec _ _ _ _ (Hc d) []) as (_ & H1 & H2). unfold db_of in H1.
  assert (fst (fst (exec (c d) [] (d_rm_edge t d))) = (Ok tt, h)) as H2'.
  { destruct H2 as [(n & x & Hn & _)|(n & _ & Hn)]; [|exact Hn]. destruct n; discriminate. }
  destruct faults as [|[x|] faults].
  - right. exists 0. split; auto. destruct H2 as [(n & x & Hn & _)|(n & Hn & _)]; [destruct n; discriminate|].
    destruct n; [exact Hn|discriminate].
  - destruct (He x) as (a & -> & Ha). left. exists 0, x. auto.
  - destruct (steady_spec _ _ _ _ (Hc d) faults) as (_ & H3 & [(n & x & Hn & Hr)|(n & Hn & Hr)]); unfold db_of, ret_of in *.
    + left. exists (S n), x. split; [simpl; now f_equal|]. split; auto. congruence.
    + right. exists (S n). split; [simpl; now f_equal|]. split; congruence.
Qed.

(** ** All six single calls *)
Definition one_call (o : op) : Prop := match o with OExtend _ | OMerge _ => False | _ => True end.

Lemma one_call_atomic o h : one_call o -> atomic (sled_apply cn ce mn me o h : P (outcome * handle k)).
Proof.
  intros H. destruct o; try contradiction;
    try (eapply careful_crash, careful_single; exact Logic.I).
  apply remove_edge_atomic.
Qed.

Lemma exec_no_faults {A} (p : P A) : forall d, exec p [] d = (ret_of p [] d, db_of p [] d, []).
Proof.
  unfold ret_of, db_of. induction p as [a|c IH|u c IHc e IHe]; intros d; simpl; auto.
Qed.

(** C33 *)
Lemma single_reports (o : op) (h : handle k) faults d : single o ->
  let '(rh, d', rest) := exec (sled_apply (SE := SE) cn ce mn me o h) faults d in
  ((exists n x, faults = repeat None n ++ Some x :: rest /\ fst rh = Err (LeftE (SledError x)) /\ d' = d) \/
   (exists n, faults = repeat None n ++ rest /\ exec (sled_apply cn ce mn me o h) [] d = (rh, d', []))) /\
  (failed (fst rh) -> d' = d).
Proof.
  intros Ho. pose proof (careful_single o h Ho) as C.
  pose proof (careful_spec _ _ _ C faults d) as S1. pose proof (careful_unchanged _ _ _ C faults d) as S2.
  rewrite exec_no_faults. unfold ret_of, db_of in *.
  destruct (exec (sled_apply cn ce mn me o h) faults d) as [[rh d'] rest]. simpl in *. split; auto.
  destruct S1 as [S1|(n & H1 & H2 & H3)]; [left; exact S1|]. right. exists n. split; auto. congruence.
Qed.

Lemma remove_edge_outcome (t : T) (h : handle k) faults d :
  let '(rh, d', rest) := exec (sled_apply (SE := SE) (E := E) cn ce mn me (ORemoveEdge t) h) faults d in
  ((exists n x, faults = repeat None n ++ Some x :: rest /\ fst rh = Err (LeftE (SledError x)) /\
     match n with 0 => d' = d | S _ => exec (sled_apply (SE := SE) (E := E) cn ce mn me (ORemoveEdge t) h) [] d = (Ok tt, h, d', []) end) \/
   (exists n, faults = repeat None n ++ rest /\
     fst rh = Ok tt /\ exec (sled_apply (E := E) cn ce mn me (ORemoveEdge t) h) [] d = (rh, d', []))).
Proof.
  pose proof (remove_edge_reports t h faults d) as S1. cbv zeta in S1. cbn [sled_apply].
  assert (ret_of (lift (and_handle h (s_remove_edge t)) : P (outcome * handle k)) [] d = (Ok tt, h)) as R.
  { clear. destruct (remove_edge_shape t h) as (u & c & e & -> & Hu & Hc & He). unfold ret_of. simpl. rewrite Hu.
    destruct (steady_spec _ _ _ _ (Hc d) []) as (_ & _ & [(n & x & Hn & _)|(n & _ & H2)]); [|exact H2].
    destruct n; discriminate. }
  rewrite exec_no_faults, R. rewrite R in S1. unfold ret_of, db_of in *.
  destruct (exec (lift (and_handle h (s_remove_edge t))) faults d) as [[rh d'] rest]. simpl in *.
  destruct S1 as [(n & x & H1 & H2 & H3)|(n & H1 & H2 & H3)].
  - left. exists n, x. split; auto. split; auto. destruct n; [exact H3|]. now rewrite H3.
  - right. exists n. split; auto. rewrite H2, H3. auto.
Qed.

(** The serialiser fails with [b] during the call. *)
Definition serialiser_fails (o : op) (d : db) (b : BE) : Prop :=
  match o with
  | OInsertNode _ p => ser cn p = Err b
  | OInsertEdge _ e => ser ce e = Err b
  | OMergeNode i p =>
      match bget (to_be_bytes i) (t_node d) with
      | None => ser cn p = Err b
      | Some v => de cn v = Err b \/ exists q, de cn v = Ok q /\ ser cn (mn q p) = Err b
      end
  | OMergeEdge t e =>
      match bget (encode_spo t) (t_spo d) with
      | None => ser ce e = Err b
      | Some r =>
          match bget r (t_edge d) with
          | None => ser ce e = Err b
          | Some v => de ce v = Err b \/ exists q, de ce v = Ok q /\ ser ce (me q e) = Err b
          end
      end
  | _ => False
  end.

Lemma merge_edge_serial t id e d :
  match merge_edge_txn (SE := SE) ce me t id e d with
  | Ok _ => forall b, ~ serialiser_fails (OMergeEdge t e) d b
  | Err x => exists b, x = SerializationError b /\ serialiser_fails (OMergeEdge t e) d b /\
      forall b', serialiser_fails (OMergeEdge t e) d b' -> b' = b
  end.
Proof.
  unfold merge_edge_txn, t_bind, t_insert, serialiser_fails. cbn [tbl set_tbl t_node t_edge t_spo t_pos t_osp].
  destruct (bget (encode_spo t) (t_spo d)) as [r|].
  - unfold t_remove. cbn [tbl set_tbl t_node t_edge t_spo t_pos t_osp].
    destruct (bget r (t_edge d)) as [v|].
    + destruct (de ce v) as [q|b] eqn:D; simpl.
      * destruct (ser ce (me q e)) as [b|b] eqn:S; simpl.
        -- intros b' [H|(q' & H & H')]; congruence.
        -- exists b. split; auto. split; eauto. intros b' [H|(q' & H & H')]; congruence.
      * exists b. split; auto. split; eauto. intros b' [H|(q' & H & H')]; congruence.
    + destruct (ser ce e) as [b|b] eqn:S; simpl.
      * congruence.
      * exists b. split; auto. split; auto. congruence.
  - destruct (ser ce e) as [b|b] eqn:S; simpl.
    + congruence.
    + exists b. split; auto. split; auto. congruence.
Qed.

Lemma serialiser_reports (o : op) (h : handle k) d :
  match o with OInsertNode _ _ | OInsertEdge _ _ | OMergeNode _ _ | OMergeEdge _ _ => True | _ => False end ->
  let r := fst (ret_of (sled_apply (SE := SE) cn ce mn me o h) [] d) in
  (forall b, serialiser_fails o d b -> r = Err (LeftE (SerializationError b))) /\
  (r = Ok tt \/ exists b, serialiser_fails o d b /\ r = Err (LeftE (SerializationError b))).
Proof.
  destruct o as [i p|t e|i|t|i p|t e|s|s]; intros Ho; try contradiction; clear Ho; cbv zeta;
    cbn [sled_apply serialiser_fails]; unfold ret_of, lift, and_handle.
  - unfold s_insert_node, bincode. destruct (ser cn p) as [b|b] eqn:S; simpl; split; try congruence; eauto.
  - unfold s_insert_edge, draw, fresh, bincode. destruct (ser ce e) as [b|b] eqn:S; simpl; split; try congruence; eauto.
  - unfold s_merge_node, transaction, merge_node_txn, t_bind, t_get, t_bincode, t_insert, t_ret, t_abort. simpl.
    destruct (bget (to_be_bytes i) (t_node d)) as [v|].
    + destruct (de cn v) as [q|b] eqn:D.
      * simpl. destruct (ser cn (mn q p)) as [b|b] eqn:S; simpl; (split; [intros b' [H|(q' & H & H')]; [discriminate|]; injection H as <-; rewrite S in H'; (discriminate || (injection H' as <-; reflexivity))|]); [left; reflexivity|right; exists b; split; eauto].
      * simpl. split; [|eauto]. intros b' [H|(q' & H & H')]; congruence.
    + destruct (ser cn p) as [b|b] eqn:S; simpl; split; try congruence; eauto.
  - unfold s_merge_edge, draw, fresh, transaction. simpl.
    pose proof (merge_edge_serial t (to_be_bytes (g_seq (h_gen h) (g_pos (h_gen h)))) e d) as M.
    destruct (merge_edge_txn ce me t (to_be_bytes (g_seq (h_gen h) (g_pos (h_gen h)))) e d) as [[[] d']|x].
    + simpl. split; [intros b Hb; destruct (M b Hb)|]. left. reflexivity.
    + simpl. destruct M as (b & -> & Hb & Hu). split; [|eauto]. intros b' Hb'. now rewrite (Hu b' Hb').
Qed.

End Single.

(** ** C29, C30: crashes in whole histories *)
Section Crash.
Context {k : idkind} {NP EP SE BE E : Type} (cn : codec BE NP) (ce : codec BE EP).
Context (mn : NP -> NP -> NP) (me : EP -> EP -> EP).
Notation op := (op k NP EP E).
Notation G := (graph k NP EP).
Notation hist := (sled_history (SE := SE) cn ce mn me).

Definition steps_of (l : list op) : list (G -> G) := flat_map (op_steps mn me) l.

Lemma crash_prefix (h : handle k) (l : list op) n :
  codec_ok cn -> codec_ok ce -> codec_total cn -> codec_total ce ->
  NoDup (history_keys h l) -> Forall not_extend l ->
  exists c, sled_shows SE cn ce (crash n (hist l h) [] db_new) (run_steps (firstn c (steps_of l)) g_empty).
Proof.
  intros Hn He Tn Te Hd Hx. destruct (good_new (k := k) cn ce nothing) as [G0 A0].
  pose proof (handle_steps cn ce Hn He mn me (fun _ : SE => False) nothing h l db_new Hd (fun _ _ H => H) G0
    (part cn ce) (between_part cn ce) (fun _ _ _ H => H) (or_introl Hx) Tn Te (fun _ H => H) A0) as W.
  destruct (wp_crash _ _ _ _ n [] db_new (allowed_nil _) W) as (Hf & A & c & Hc).
  exists c. eapply sled_shows_equiv; [|eapply good_shows; split; eauto].
  eapply g_equiv_trans; [exact Hc|]. apply run_steps_equiv; [|apply abs_new].
  apply Forall_firstn. apply all_steps_proper.
Qed.

Lemma crash_orders (h : handle k) (l : list op) n :
  codec_ok cn -> codec_ok ce -> codec_total cn -> codec_total ce -> NoDup (history_keys h l) ->
  exists c, lists_nodes (now SE (s_iter_vertices cn) (crash n (hist l h) [] db_new))
      (g_node (run_steps (firstn c (steps_of l)) g_empty)) /\
    forall o, exists c', (c' = c \/ c' = S c) /\
      lists_edges o (now SE (s_iter_edges ce o) (crash n (hist l h) [] db_new))
        (g_edge (run_steps (firstn c' (steps_of l)) g_empty)).
Proof.
  intros Hn He Tn Te Hd. destruct (good_new (k := k) cn ce nothing) as [G0 A0].
  pose proof (handle_steps cn ce Hn He mn me (fun _ : SE => False) nothing h l db_new Hd (fun _ _ H => H) G0
    (partx cn ce) (between_partx cn ce) (part_partx cn ce) (or_intror (fun _ _ _ H => H)) Tn Te (fun _ H => H) A0) as W.
  destruct (wp_crash _ _ _ _ n [] db_new (allowed_nil _) W) as ([Hf1 Hf2] & c & Hc1 & Hc2).
  set (x := crash n (hist l h) [] db_new) in *.
  assert (forall c0, g_equiv (run_steps (firstn c0 (steps_of l)) (sabs cn ce db_new)) (run_steps (firstn c0 (steps_of l)) g_empty)) as Q.
  { intros c0. apply run_steps_equiv; [|apply abs_new]. apply Forall_firstn. apply all_steps_proper. }
  exists c. split.
  - rewrite (rds_now _ _ _ (rds_iter_vertices cn never x)). eapply lists_ext; [|now apply fair_vertices].
    intros i. simpl. rewrite Hc1. apply Q.
  - intros o. destruct (Hc2 o) as (c' & Hc' & Hv). exists c'. split; auto.
    rewrite (rds_now _ _ _ (rds_iter_edges ce never x o)). eapply lists_ext; [|eapply fair_edges; eauto].
    intros t. rewrite Hv. apply Q.
Qed.

(** Without extend and merge. *)
Lemma single_steps (l : list op) : Forall one_call l -> forall c (g : G),
  run_steps (firstn c (steps_of l)) g = spec_history mn me (firstn c l) g.
Proof.
  induction 1 as [|o l Ho _ IH]; intros c g.
  - now rewrite !firstn_nil.
  - destruct c as [|c]; auto. destruct o; try contradiction; cbn [steps_of flat_map op_steps app firstn];
      apply (IH c).
Qed.

Lemma crash_single (h : handle k) (l : list op) n :
  codec_ok cn -> codec_ok ce -> codec_total cn -> codec_total ce ->
  NoDup (history_keys h l) -> Forall one_call l ->
  exists c, sled_shows SE cn ce (crash n (hist l h) [] db_new) (spec_history mn me (firstn c l) g_empty).
Proof.
  intros Hn He Tn Te Hd Ho. destruct (crash_prefix h l n Hn He Tn Te Hd) as [c Hc].
  - eapply Forall_impl; [|exact Ho]. intros []; simpl; tauto.
  - exists c. now rewrite <- single_steps.
Qed.

End Crash.
