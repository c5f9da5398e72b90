(** The calls on the graph, with one more failure of the storage. *)
From Coq Require Import Arith NArith List Bool Lia.
From Verif Require Import Bytes OMap Core IdType Store Mem Spec History Prog ProgFacts Sled SledHistory SledSched SledLeaf SledConc.
Import ListNotations.

(** [p'] does what [p] does; it knows one more failure, which leads to [X] at once. *)
Section Sim.
Context {D SE : Type}.
Notation SE' := (option SE).
Inductive psim {A A'} (R : A -> A' -> Prop) (X : A' -> Prop) : prog D SE A -> prog D SE' A' -> Prop :=
| Ps_ret a a' : R a a' -> psim R X (Ret a) (Ret a')
| Ps_look k k' : (forall d, psim R X (k d) (k' d)) -> psim R X (Look k) (Look k')
| Ps_act u u' k k' e e' a : (forall d, u' d = u d) -> (forall d, psim R X (k d) (k' d)) ->
    (forall x, psim R X (e x) (e' (Some x))) -> e' None = Ret a -> X a -> psim R X (Act u k e) (Act u' k' e').

Lemma psim_bind {A A' B B'} (R : A -> A' -> Prop) X (R2 : B -> B' -> Prop) X2 p p' f f' :
  psim R X p p' -> (forall a a', R a a' -> psim R2 X2 (f a) (f' a')) ->
  (forall a', X a' -> exists b', f' a' = Ret b' /\ X2 b') -> psim R2 X2 (bind p f) (bind p' f').
Proof.
  intros H Hf Hx. induction H as [a a' H|k k' _ IH|u u' k k' e e' a Hu _ IHk _ IHe He Ha]; simpl.
  - auto.
  - now constructor.
  - destruct (Hx a Ha) as (b & Hb & HX). econstructor; eauto. rewrite He. exact Hb.
Qed.

Lemma psim_mono {A A'} (R R2 : A -> A' -> Prop) (X X2 : A' -> Prop) p p' :
  (forall a a', R a a' -> R2 a a') -> (forall a, X a -> X2 a) -> psim R X p p' -> psim R2 X2 p p'.
Proof. intros HR HX. induction 1; econstructor; eauto. Qed.


(** [n] steps, all of them failing with [f] *)
Fixpoint steps {A} (f : option SE') (n : nat) (p : prog D SE' A) (d : D) : prog D SE' A * D :=
  match n with O => (p, d) | S n' => let (p1, d1) := step1 f p d in steps f n' p1 d1 end.

(** It can be brought to an end without touching the database. *)
Lemma psim_end {A A'} (R : A -> A' -> Prop) X p p' d : psim R X p p' ->
  exists n a, steps (Some None) n p' d = (Ret a, d) /\ (X a \/ exists b, R b a).
Proof.
  induction 1 as [a a' H|k k' _ IH|u u' k k' e e' a Hu _ IHk _ IHe He Ha].
  - exists 0, a'. eauto.
  - destruct (IH d) as (n & a & H1 & H2). exists (S n), a. simpl. auto.
  - exists 1, a. simpl. rewrite He. auto.
Qed.
Lemma psim_map {A A' B'} (R : A -> A' -> Prop) X (R2 : A -> B' -> Prop) (X2 : B' -> Prop) p p' (f : A' -> B') :
  psim R X p p' -> (forall a a', R a a' -> R2 a (f a')) -> (forall a, X a -> X2 (f a)) ->
  psim R2 X2 p (bind p' (fun a => Ret (f a))).
Proof.
  intros H Hf Hx. induction H as [a a' H|k k' _ IH|u u' k k' e e' a Hu _ IHk _ IHe He Ha]; simpl.
  - constructor. auto.
  - now constructor.
  - econstructor; eauto; rewrite He; reflexivity.
Qed.
End Sim.

(** ** The errors *)
Section Errors.
Context {SE BE : Type}.
Definition embed (e : sled_error SE BE) : sled_error (option SE) BE :=
  match e with
  | SledError x => SledError (Some x)
  | SerializationError b => SerializationError b
  | MissingPropertyData => MissingPropertyData
  | KeySizeError => KeySizeError
  end.
Definition same {A} (r : result (sled_error SE BE) A) (r' : result (sled_error (option SE) BE) A) : Prop :=
  r' = match r with Ok a => Ok a | Err e => Err (embed e) end.
Definition broken {A} (r : result (sled_error (option SE) BE) A) : Prop := r = Err (SledError None).
End Errors.

Section Calls.
Context {k : idkind} {NP EP SE BE E : Type} (cn : codec BE NP) (ce : codec BE EP).
Context (mn : NP -> NP -> NP) (me : EP -> EP -> EP).
Notation err := (sled_error SE BE).
Notation err' := (sled_error (option SE) BE).
Notation PR A := (prog db SE (result err A)).
Notation PR' A := (prog db (option SE) (result err' A)).
Notation op := (op k NP EP E).
Notation sim := (psim (D := db) (SE := SE) (same (SE := SE) (BE := BE)) broken).

Lemma sim_ok {A B} (p : PR A) (p' : PR' A) (f : A -> PR B) (f' : A -> PR' B) :
  sim p p' -> (forall a, sim (f a) (f' a)) -> sim (bind_ok p f) (bind_ok p' f').
Proof.
  intros H Hf. unfold bind_ok. eapply psim_bind; eauto.
  - intros [a|e] a' ->; [apply Hf|]. now constructor.
  - intros a' ->. eexists. split; reflexivity.
Qed.
Lemma sim_ret {A} (r : result err A) r' : same r r' -> sim (Ret r) (Ret r').
Proof. now constructor. Qed.
Lemma sim_bincode {A} (r : result BE A) : sim (bincode r) (bincode r).
Proof. apply sim_ret. now destruct r. Qed.
Lemma sim_get x key : sim (tree_get x key) (tree_get x key).
Proof. econstructor; [auto| | |reflexivity|reflexivity]; intros; now apply sim_ret. Qed.
Lemma sim_insert x key v : sim (tree_insert x key v) (tree_insert x key v).
Proof. econstructor; [auto| | |reflexivity|reflexivity]; intros; now apply sim_ret. Qed.
Lemma sim_remove x key : sim (tree_remove x key) (tree_remove x key).
Proof. econstructor; [auto| | |reflexivity|reflexivity]; intros; now apply sim_ret. Qed.
Lemma sim_next {A} (p : PR A) p' : sim p p' -> sim (next p) (next p').
Proof. intros H. econstructor; [auto| | |reflexivity|reflexivity]; intros; auto. now apply sim_ret. Qed.

(** Transactions *)
Definition sim_txn {A} (x : txn (SE := SE) (BE := BE) A) (x' : txn (SE := option SE) A) : Prop := forall d, same (x d) (x' d).
Lemma sim_transaction {A} (x : txn (SE := SE) (BE := BE) A) x' : sim_txn x x' -> sim (transaction x) (transaction x').
Proof.
  intros H. econstructor; [| | |reflexivity|reflexivity].
  - intros d. rewrite (H d). now destruct (x d) as [[a d']|e].
  - intros d. apply sim_ret. rewrite (H d). now destruct (x d) as [[a d']|e].
  - intros e. now apply sim_ret.
Qed.
Lemma txn_bind {A B} (x : txn (SE := SE) (BE := BE) A) x' (f : A -> txn (SE := SE) (BE := BE) B) f' : sim_txn x x' -> (forall a, sim_txn (f a) (f' a)) ->
  sim_txn (t_bind x f) (t_bind x' f').
Proof.
  intros H Hf d. unfold t_bind. rewrite (H d). destruct (x d) as [[a d']|e]; [apply Hf|reflexivity].
Qed.
Lemma txn_ret {A} (a : A) : sim_txn (t_ret a) (t_ret a). Proof. now intros d. Qed.
Lemma txn_get x key : sim_txn (t_get x key) (t_get x key). Proof. now intros d. Qed.
Lemma txn_insert x key v : sim_txn (t_insert x key v) (t_insert x key v). Proof. now intros d. Qed.
Lemma txn_remove x key : sim_txn (t_remove x key) (t_remove x key). Proof. now intros d. Qed.
Lemma txn_removals x keys : sim_txn (t_apply_removals x keys) (t_apply_removals x keys). Proof. now intros d. Qed.
Lemma txn_bincode {A} (r : result BE A) : sim_txn (t_bincode r) (t_bincode r).
Proof. now destruct r; intros d. Qed.

Local Hint Resolve sim_bincode sim_get sim_insert sim_remove txn_ret txn_get txn_insert txn_remove txn_removals txn_bincode : sims.
Local Ltac go := repeat first
  [ solve [auto with sims] | apply sim_ok; [|intros ?] | apply sim_next | apply sim_transaction | apply txn_bind; [|intros ?]
  | apply sim_ret; solve [reflexivity]
  | match goal with |- psim _ _ (match ?x with _ => _ end) _ => destruct x | |- sim_txn (match ?x with _ => _ end) _ => destruct x end ].

Lemma sim_insert_node n p : sim (s_insert_node (k := k) cn n p) (s_insert_node cn n p).
Proof. unfold s_insert_node. cbv zeta. go. Qed.
Lemma sim_remove_edge t : sim (s_remove_edge (k := k) t) (s_remove_edge t).
Proof. unfold s_remove_edge, remove_edge_txn. go. Qed.
Lemma sim_merge_node n p : sim (s_merge_node (k := k) cn mn n p) (s_merge_node cn mn n p).
Proof. unfold s_merge_node, merge_node_txn. go. Qed.

Lemma sim_for {X S0} (f : X -> S0 -> PR S0) f' l : (forall x s, sim (f x s) (f' x s)) -> forall s, sim (for_ok f l s) (for_ok f' l s).
Proof. intros Hf. induction l as [|x l IH]; intros s; simpl; [now apply sim_ret|]. apply sim_ok; auto. Qed.
Lemma sim_for_from {S0} entries (f : bytes * bytes -> S0 -> PR S0) f' cuts : (forall x s, sim (f x s) (f' x s)) ->
  forall lo s, sim (for_from entries f lo cuts s) (for_from entries f' lo cuts s).
Proof.
  intros Hf. induction cuts as [|c cuts IH]; intros lo s; simpl.
  - constructor. intros d. now apply sim_for.
  - apply sim_ok; auto. constructor. intros d. now apply sim_for.
Qed.
Lemma sim_decode (dec : bytes -> triple (Id k)) key : same (decode_key (SE := SE) (BE := BE) dec key) (decode_key dec key).
Proof. unfold decode_key, same. now destruct (try_into_array _ _). Qed.
Lemma sim_remove_node c n : sim (l_remove_node (k := k) c n) (l_remove_node c n).
Proof.
  unfold l_remove_node, l_for. apply sim_ok; [|intros f; apply sim_ok; [|intros b]].
  - apply sim_for_from. intros x s. unfold forward_entry. apply sim_next, sim_ok; [apply sim_ret, sim_decode|]. intros a. now apply sim_ret.
  - apply sim_for_from. intros x s. unfold backward_entry. apply sim_next, sim_ok; [apply sim_ret, sim_decode|]. intros a. now apply sim_ret.
  - unfold remove_node_txn. go.
Qed.

(** One call on the graph as the RDF store makes it. *)
Definition raw (c : cutting) (o : op) (h : handle k) : prog db SE (result err unit * handle k) :=
  match o with
  | OInsertNode n p => and_handle h (s_insert_node cn n p)
  | OInsertEdge t e => s_insert_edge ce t e h
  | ORemoveNode n => and_handle h (l_remove_node c n)
  | ORemoveEdge t => and_handle h (s_remove_edge t)
  | OMergeNode n p => and_handle h (s_merge_node cn mn n p)
  | OMergeEdge t e => s_merge_edge ce me t e h
  | _ => Ret (Ok tt, h)
  end.
Definition one_op (o : op) : Prop := match o with OExtend _ | OMerge _ => False | _ => True end.
Definition out (r : result err unit) : outcome (SE := option SE) (BE := BE) (E := E) :=
  left_error match r with Ok a => Ok a | Err e => Err (embed e) end.
Definition lost : outcome (SE := option SE) (BE := BE) (E := E) := Err (LeftE (SledError None)).
Definition call_sim : prog db SE (result err unit * handle k) -> prog db (option SE) (outcome (E := E) * handle k) -> Prop :=
  psim (fun a a' => a' = (out (fst a), snd a)) (fun a => fst a = lost).

Lemma call_handle h (p : PR unit) p' : sim p p' -> call_sim (and_handle h p) (lift (and_handle h p')).
Proof.
  intros H. unfold lift, call_sim. eapply psim_map with (R := fun a a' => same (fst a) (fst a') /\ snd a' = snd a) (X := fun a => broken (fst a)).
  - unfold and_handle. apply psim_bind with (R := same) (X := broken); [exact H| |].
    + intros a a' Ha. now constructor.
    + intros a' Ha. eexists. split; [reflexivity|]. exact Ha.
  - intros [r h1] [r' h2] [H1 H2]. cbn [fst snd] in *. rewrite H1, H2. reflexivity.
  - intros [r h1] H1. cbn [fst] in *. rewrite H1. reflexivity.
Qed.

Lemma raw_sim c o h : one_op o -> call_sim (raw c o h) (l_apply cn ce mn me c o h).
Proof.
  destruct o as [n p|t p|n|t|n p|t p|s|s]; intros Ho; try contradiction; unfold raw, l_apply, sled_apply.
  - apply call_handle, sim_insert_node.
  - unfold s_insert_edge. destruct (draw h) as [i h']. apply call_handle. cbv zeta. unfold insert_edge_txn. go.
  - apply call_handle, sim_remove_node.
  - apply call_handle, sim_remove_edge.
  - apply call_handle, sim_merge_node.
  - unfold s_merge_edge. destruct (draw h) as [i h']. apply call_handle. unfold merge_edge_txn. cbv zeta. go.
Qed.
End Calls.
