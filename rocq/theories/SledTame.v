(** What is in the trees never surprises anyone: every entry has been written by the code, whatever happens
    at the same time. *)
From Coq Require Import Arith NArith List Lia.
From Verif Require Import Bytes BytesFacts OMap OMapFacts Core IdType IdTypeFacts Store Mem Spec History ListFacts Prog ProgFacts
  Sled SledHistory SledDb SledBulk SledTables SledLeaf SledBeside SledCrowd.
Import ListNotations.

Section Tame.
Context {D SE : Type} (J : D -> Prop).
Notation P A := (prog D SE A).

(** Run between others that keep [J], the program keeps [J] and ends with [Q]. *)
Fixpoint tame {A} (F : SE -> Prop) (Q : A -> Prop) (p : P A) : Prop :=
  match p with
  | Ret a => Q a
  | Look c => forall d, J d -> tame F Q (c d)
  | Act u c e => (forall d, J d -> J (u d) /\ tame F Q (c d)) /\ forall x, F x -> tame F Q (e x)
  end.

Lemma tame_mono {A} F (Q Q' : A -> Prop) p : (forall a, Q a -> Q' a) -> tame F Q p -> tame F Q' p.
Proof.
  intros H. induction p as [a|c IH|u c IH e IHe]; simpl; auto. intros [H1 H2]. split; auto.
  intros d Hd. destruct (H1 d Hd). auto.
Qed.
Lemma tame_bind {A B} F (Q : A -> Prop) (Q' : B -> Prop) p f : tame F Q p -> (forall a, Q a -> tame F Q' (f a)) -> tame F Q' (bind p f).
Proof.
  intros Hp Hf. induction p as [a|c IH|u c IH e IHe]; simpl in *; auto. destruct Hp as [H1 H2]. split; auto.
  intros d Hd. destruct (H1 d Hd). auto.
Qed.
Lemma tame_true {A} F (p : P A) Q : tame F Q p -> tame F (fun _ => True) p.
Proof. now apply tame_mono. Qed.

Lemma nth_replace {X} i (x : X) : forall l j y, nth_error (replace_nth i x l) j = Some y ->
  (j = i /\ y = x) \/ (j <> i /\ nth_error l j = Some y).
Proof.
  induction i as [|i IH]; intros [|z l] [|j] y; simpl; intros H; try discriminate; auto; try (inversion H; auto; fail).
  destruct (IH l j y H) as [[-> ->]|[]]; auto.
Qed.

Lemma tame_interleave {A} (Q : nat -> A -> Prop) todo : forall schedule ps d,
  incl todo schedule -> J d ->
  (forall i p, nth_error ps i = Some p -> tame (fun x => In (i, Some x) schedule) (Q i) p) ->
  J (snd (interleave todo ps d)) /\
  forall i p, nth_error (fst (interleave todo ps d)) i = Some p -> tame (fun x => In (i, Some x) schedule) (Q i) p.
Proof.
  induction todo as [|[i f] todo IH]; intros schedule ps d Hin Hd Hp; simpl; auto.
  assert (incl todo schedule) as Hin' by (intros x Hx; apply Hin; now right).
  destruct (nth_error ps i) as [p|] eqn:Ei; [|now apply IH].
  destruct (step1 f p d) as [p' d'] eqn:Es. apply IH; auto.
  - pose proof (Hp i p Ei) as T. destruct p as [a|c|u c e]; simpl in Es; [now inversion Es; subst..|].
    destruct T as [T _]. destruct f; inversion Es; subst; auto. now apply T.
  - intros j q Hq. apply nth_replace in Hq. destruct Hq as [[-> ->]|[_ Hq]]; auto.
    pose proof (Hp i p Ei) as T. destruct p as [a|c|u c e]; simpl in Es.
    + inversion Es; subst; auto.
    + inversion Es; subst. now apply T.
    + destruct T as [T1 T2]. destruct f as [x|]; inversion Es; subst; [|now apply T1].
      apply T2. apply Hin. now left.
Qed.
End Tame.

Section Sled.
Context {k : idkind} {NP EP SE BE : Type} (cn : codec BE NP) (ce : codec BE EP).
Context (Hn : codec_ok cn) (He : codec_ok ce).
Notation I := (Id k).
Notation T := (triple (Id k)).
Notation err := (sled_error SE BE).
Notation P A := (prog db SE A).
Notation PR A := (prog db SE (result err A)).

(** An entry that the code has written. *)
Definition entry_ok (x : table) (kv : bytes * bytes) : Prop :=
  match x with
  | TNode => length (fst kv) = width k /\ exists p, ser cn p = Ok (snd kv)
  | TEdge => exists e, ser ce e = Ok (snd kv)
  | TSpo | TPos | TOsp => length (fst kv) = 3 * width k
  end.
Definition written_all (d : db) : Prop := forall x kv, In kv (tbl x d) -> entry_ok x kv.
Notation J := written_all.

Lemma J_new : J db_new.
Proof. intros [] kv []. Qed.
Lemma J_set x v d : J d -> (forall kv, In kv v -> entry_ok x kv) -> J (set_tbl x v d).
Proof. intros H Hv y kv Hin. destruct x, y; first [exact (Hv _ Hin)|match goal with |- entry_ok ?t _ => exact (H t kv Hin) end]. Qed.
Lemma J_insert x key v d : J d -> entry_ok x (key, v) -> J (set_tbl x (binsert key v (tbl x d)) d).
Proof.
  intros H Hkv. apply J_set; auto. intros [key' v'] Hin. apply in_insert_weak in Hin.
  destruct Hin as [[-> ->]|Hin]; [exact Hkv|now apply H].
Qed.
Lemma in_bremove kv key (t : tree) : In kv (bremove key t) -> In kv t.
Proof. destruct kv. intros H. now apply (in_remove bytes_cmp_ok) in H. Qed.
Lemma J_remove x key d : J d -> J (set_tbl x (bremove key (tbl x d)) d).
Proof. intros H. apply J_set; auto. intros kv Hin. apply H. now apply in_bremove in Hin. Qed.
Lemma J_removals x keys d : J d -> J (set_tbl x (fold_left (fun t key => bremove key t) keys (tbl x d)) d).
Proof.
  intros H. apply J_set; auto. intros kv Hin. apply H. revert Hin. generalize (tbl x d).
  induction keys as [|a keys IH]; simpl; intros t Hin; auto. apply IH in Hin. now apply in_bremove in Hin.
Qed.
Lemma J_get x key d v : J d -> bget key (tbl x d) = Some v -> entry_ok x (key, v).
Proof. intros H Hg. apply H. now apply (get_in bytes_cmp_ok) in Hg. Qed.
Lemma opt_get x key d : J d -> forall v, bget key (tbl x d) = Some v -> exists key, entry_ok x (key, v).
Proof. intros H v Hv. exists key. eapply J_get; eauto. Qed.

Section Calls.
Context (F : SE -> Prop).
Notation tm Q p := (tame J F Q p).

Definition excuse (e : err) : Prop :=
  match e with
  | SledError x => F x
  | SerializationError b => (exists p, ser cn p = Err b) \/ (exists p, ser ce p = Err b)
  | KeySizeError | MissingPropertyData => False
  end.
Definition well {A} (Q : A -> Prop) (r : result err A) : Prop := match r with Ok a => Q a | Err e => excuse e end.
Notation fine := (well (fun _ => True)).

Lemma tame_ok {A B} (Q : A -> Prop) (Q' : B -> Prop) (p : PR A) f : tm (well Q) p -> (forall a, Q a -> tm (well Q') (f a)) -> tm (well Q') (bind_ok p f).
Proof. intros Hp Hf. eapply tame_bind; [exact Hp|]. intros [a|e] H; simpl; auto. Qed.

(** The value that a key had is one that was written. *)
Definition seen x (o : option bytes) : Prop := forall v, o = Some v -> exists key, entry_ok x (key, v).
Lemma tame_get x key : tm (well (seen x)) (tree_get x key).
Proof. split; [|auto]. intros d Hd. split; auto. simpl. intros v Hv. now apply (opt_get x key d Hd). Qed.
Lemma tame_insert x key v : entry_ok x (key, v) -> tm (well (seen x)) (tree_insert x key v).
Proof. intros H. split; [|auto]. intros d Hd. split; [now apply J_insert|]. simpl. intros w Hw. now apply (opt_get x key d Hd). Qed.
Lemma tame_remove x key : tm (well (seen x)) (tree_remove x key).
Proof. split; [|auto]. intros d Hd. split; [now apply J_remove|]. simpl. intros w Hw. now apply (opt_get x key d Hd). Qed.
Lemma tame_next {A} (Q : A -> Prop) (p : PR A) : tm (well Q) p -> tm (well Q) (next p).
Proof. intros H. split; simpl; auto. Qed.
Lemma tame_bincode {A} (Q : A -> Prop) (r : result BE A) : match r with Ok a => Q a | Err b => excuse (SerializationError b) end -> tm (well Q) (bincode r).
Proof. destruct r; auto. Qed.
Lemma excuse_n p b : ser cn p = Err b -> excuse (SerializationError b).
Proof. simpl. eauto. Qed.
Lemma excuse_e p b : ser ce p = Err b -> excuse (SerializationError b).
Proof. simpl. eauto. Qed.

(** Transactions *)
Definition tx {A} (Q : A -> Prop) (b : txn (SE := SE) (BE := BE) A) : Prop :=
  forall d, J d -> match b d with Ok (a, d') => J d' /\ Q a | Err e => excuse e end.
Lemma tx_bind {A B} (Q : A -> Prop) (Q' : B -> Prop) b f : tx Q b -> (forall a, Q a -> tx Q' (f a)) -> tx Q' (t_bind b f).
Proof. intros Hb Hf d Hd. unfold t_bind. specialize (Hb d Hd). destruct (b d) as [[a d']|e]; auto. destruct Hb. now apply Hf. Qed.
Lemma tx_ret {A} (Q : A -> Prop) a : Q a -> tx Q (t_ret a).
Proof. intros H d Hd. simpl. auto. Qed.
Lemma tx_get x key : tx (seen x) (t_get x key).
Proof. intros d Hd. simpl. split; auto. intros v Hv. now apply (opt_get x key d Hd). Qed.
Lemma tx_insert x key v : entry_ok x (key, v) -> tx (seen x) (t_insert x key v).
Proof. intros H d Hd. simpl. split; [now apply J_insert|]. intros w Hw. now apply (opt_get x key d Hd). Qed.
Lemma tx_remove x key : tx (seen x) (t_remove x key).
Proof. intros d Hd. simpl. split; [now apply J_remove|]. intros w Hw. now apply (opt_get x key d Hd). Qed.
Lemma tx_removals x keys : tx (fun _ => True) (t_apply_removals x keys).
Proof. intros d Hd. simpl. split; auto. now apply J_removals. Qed.
Lemma tx_bincode {A} (Q : A -> Prop) (r : result BE A) : match r with Ok a => Q a | Err b => excuse (SerializationError b) end -> tx Q (t_bincode r).
Proof. destruct r; intros H d Hd; simpl; auto. Qed.
Lemma tame_transaction {A} (Q : A -> Prop) b : tx Q b -> tm (well Q) (transaction b).
Proof.
  intros H. split; [|simpl; auto]. intros d Hd. specialize (H d Hd). destruct (b d) as [[a d']|e]; simpl; auto.
Qed.

Lemma well_done : tm fine (Ret (Ok tt) : PR unit).
Proof. exact Logic.I. Qed.

(** ** The calls *)
Lemma key_node (i : I) v : (exists p, ser cn p = Ok v) -> entry_ok TNode (to_be_bytes i, v).
Proof. split; auto. apply to_be_bytes_length. Qed.
Lemma key_spo (t : T) v : entry_ok TSpo (encode_spo t, v).
Proof. apply (enc_length SPO). Qed.
Lemma key_pos (t : T) v : entry_ok TPos (encode_pos t, v).
Proof. apply (enc_length POS). Qed.
Lemma key_osp (t : T) v : entry_ok TOsp (encode_osp t, v).
Proof. apply (enc_length OSP). Qed.
Lemma ser_n p : match ser cn p with Ok v => exists p, ser cn p = Ok v | Err b => excuse (SerializationError b) end.
Proof. destruct (ser cn p) eqn:E1; eauto using excuse_n. Qed.
Lemma ser_e p : match ser ce p with Ok v => exists p, ser ce p = Ok v | Err b => excuse (SerializationError b) end.
Proof. destruct (ser ce p) eqn:E1; eauto using excuse_e. Qed.
Lemma de_n v : (exists key, entry_ok TNode (key, v)) -> exists p, de cn v = Ok p.
Proof. intros (key & _ & p & Hp). exists p. now apply Hn. Qed.
Lemma de_e v : (exists key, entry_ok TEdge (key, v)) -> exists p, de ce v = Ok p.
Proof. intros (key & p & Hp). exists p. now apply He. Qed.

Lemma tame_insert_node (i : I) p : tm fine (s_insert_node cn i p).
Proof.
  eapply tame_ok; [apply tame_bincode, ser_n|]. intros v Hv. eapply tame_ok; [apply tame_insert, key_node, Hv|]. intros. apply well_done.
Qed.
Lemma tame_and_handle {A} (Q : result err A -> Prop) (h : handle k) (p : PR A) : tm Q p -> tm (fun rh => Q (fst rh)) (and_handle h p).
Proof. intros H. eapply tame_bind; [exact H|]. simpl. auto. Qed.
Lemma tame_insert_edge (t : T) e h : tm (fun rh => fine (fst rh)) (s_insert_edge ce t e h).
Proof.
  unfold s_insert_edge. destruct (draw h) as [i h']. apply (tame_and_handle fine).
  eapply tame_ok; [apply tame_bincode, ser_e|]. intros v Hv.
  eapply (tame_ok (fun _ => True)); [|intros; apply well_done]. apply tame_transaction.
  eapply tx_bind; [apply tx_insert; exact Hv|]. intros. eapply tx_bind; [apply tx_insert, key_spo|]. intros.
  eapply tx_bind; [apply tx_insert, key_pos|]. intros. eapply tx_bind; [apply tx_insert, key_osp|]. intros. now apply tx_ret.
Qed.
Lemma tame_merge_node mn (i : I) p : tm fine (s_merge_node cn mn i p).
Proof.
  eapply (tame_ok (fun _ => True)); [|intros; apply well_done]. apply tame_transaction.
  eapply tx_bind; [apply tx_get|]. intros [old|] Hold.
  - destruct (de_n old (Hold old eq_refl)) as [q Hq]. rewrite Hq. eapply (tx_bind (fun _ => True)); [now apply tx_bincode|]. intros q' _.
    eapply tx_bind; [apply tx_bincode, ser_n|]. intros v Hv. eapply tx_bind; [apply tx_insert, key_node, Hv|]. intros. now apply tx_ret.
  - eapply tx_bind; [apply tx_bincode, ser_n|]. intros v Hv. eapply tx_bind; [apply tx_insert, key_node, Hv|]. intros. now apply tx_ret.
Qed.
Lemma tame_merge_edge me (t : T) e h : tm (fun rh => fine (fst rh)) (s_merge_edge ce me t e h).
Proof.
  unfold s_merge_edge. destruct (draw h) as [i h']. apply (tame_and_handle fine).
  eapply (tame_ok (fun _ => True)); [|intros; apply well_done]. apply tame_transaction. unfold merge_edge_txn. cbv zeta.
  assert (forall e, tx (fun _ => True) (t_bind (t_bincode (ser ce e)) (fun b => t_bind (t_insert TEdge (to_be_bytes i) b) (fun _ => t_ret tt)))) as Hput.
  { intros e'. eapply tx_bind; [apply tx_bincode, ser_e|]. intros v Hv. eapply tx_bind; [apply tx_insert; exact Hv|]. intros. now apply tx_ret. }
  eapply tx_bind; [apply tx_insert, key_spo|]. intros old _. eapply tx_bind; [apply tx_insert, key_pos|]. intros.
  eapply tx_bind; [apply tx_insert, key_osp|]. intros. destruct old as [old|]; auto.
  eapply tx_bind; [apply tx_remove|]. intros [v|] Hv; auto. destruct (de_e v (Hv v eq_refl)) as [q Hq]. rewrite Hq.
  eapply (tx_bind (fun _ => True)); [now apply tx_bincode|]. auto.
Qed.
Lemma tame_remove_edge (t : T) : tm fine (s_remove_edge t).
Proof.
  eapply (tame_ok (fun _ => True)).
  { apply tame_transaction. eapply tx_bind; [apply tx_remove|]. intros id _. eapply tx_bind; [apply tx_remove|]. intros.
    eapply tx_bind; [apply tx_remove|]. intros. destruct id; [|now apply tx_ret]. eapply tx_bind; [apply tx_remove|]. intros. now apply tx_ret. }
  intros _ _. eapply tame_ok; [apply tame_remove|]. intros id _. eapply tame_ok; [apply tame_remove|]. intros.
  eapply tame_ok; [apply tame_remove|]. intros. destruct id; [|apply well_done]. eapply tame_ok; [apply tame_remove|]. intros. apply well_done.
Qed.

(** Scans *)
Definition from x (entries : db -> list (bytes * bytes)) : Prop := forall d kv, J d -> In kv (entries d) -> entry_ok x kv.
Lemma from_range x b : from x (fun d => brange b (tbl x d)).
Proof. intros d kv Hd Hin. apply Hd. unfold brange, om_range in Hin. now apply filter_In in Hin. Qed.
Lemma from_all x : from x (tbl x).
Proof. intros d kv Hd Hin. now apply Hd. Qed.
Lemma in_piece lo hi l kv : In kv (piece lo hi l) -> In kv l.
Proof. intros H. now apply filter_In in H. Qed.

Lemma tame_for_ok {X St} (f : X -> St -> PR St) : forall l s, (forall x s, In x l -> tm fine (f x s)) -> tm fine (for_ok f l s).
Proof.
  induction l as [|x l IH]; intros s H; simpl; [exact Logic.I|]. eapply tame_ok; [apply H; now left|]. intros s' _. apply IH. intros. apply H. now right.
Qed.
Lemma tame_for_from {St} x entries (f : bytes * bytes -> St -> PR St) : from x entries -> (forall kv s, entry_ok x kv -> tm fine (f kv s)) ->
  forall cuts lo s, tm fine (for_from entries f lo cuts s).
Proof.
  intros Hx Hf. induction cuts as [|c cuts IH]; intros lo s; simpl.
  - intros d Hd. apply tame_for_ok. intros kv s' Hin. apply Hf. eapply Hx; eauto using in_piece.
  - change (tm fine (bind_ok (Look (fun d => for_ok f (piece lo (Some c) (entries d)) s)) (fun s => for_from entries f (Some (later lo c)) cuts s))).
    eapply tame_ok; [|intros; apply IH]. intros d Hd. apply tame_for_ok. intros kv s' Hin. apply Hf. eapply Hx; eauto using in_piece.
Qed.
Lemma well_key dcd key : length key = 3 * width k -> decode_key (SE := SE) (BE := BE) (k := k) dcd key = Ok (dcd key).
Proof. intros H. destruct (decode_key_spec (k := k) (SE := SE) (BE := BE) dcd key) as [[_ E1]|[E1 _]]; [auto|contradiction]. Qed.

Lemma tame_remove_node c i : tm fine (l_remove_node (k := k) c i).
Proof.
  unfold l_remove_node. eapply (tame_ok (fun _ => True)).
  { apply (tame_for_from TSpo); [apply from_range|]. intros kv b Hkv. apply tame_next. rewrite well_key by exact Hkv. exact Logic.I. }
  intros f _. eapply (tame_ok (fun _ => True)).
  { apply (tame_for_from TOsp); [apply from_range|]. intros kv b Hkv. apply tame_next. rewrite well_key by exact Hkv. exact Logic.I. }
  intros b _. eapply (tame_ok (fun _ => True)); [|intros; apply well_done]. apply tame_transaction.
  eapply tx_bind; [apply tx_remove|]. intros. repeat (eapply tx_bind; [apply tx_removals|]; intros). now apply tx_ret.
Qed.

Lemma tame_extend_node (i : I) p : tm fine (s_extend_node cn i p).
Proof. apply tame_insert_node. Qed.
Lemma tame_extend_edge (t : T) e h : tm (fun rh => fine (fst rh)) (s_extend_edge ce t e h).
Proof.
  unfold s_extend_edge. destruct (draw_ulid h) as [i h']. apply (tame_and_handle fine).
  eapply tame_ok; [apply tame_bincode, ser_e|]. intros v Hv. eapply tame_ok; [apply tame_insert; exact Hv|]. intros.
  eapply tame_ok; [apply tame_insert, key_spo|]. intros old _. eapply tame_ok; [apply tame_insert, key_pos|]. intros.
  eapply tame_ok; [apply tame_insert, key_osp|]. intros. destruct old; [|apply well_done].
  eapply tame_ok; [apply tame_remove|]. intros. apply well_done.
Qed.

Context {E : Type} (mn : NP -> NP -> NP) (me : EP -> EP -> EP).
Notation op := (op k NP EP E).
Notation outcome := (outcome (SE := SE) (BE := BE) (E := E)).

Definition fed (err : option E) (r : result (lr_error (sled_error SE BE) E) unit) : Prop :=
  r = match err with Some e => Err (RightE e) | None => Ok tt end \/ exists e, r = Err (LeftE e) /\ excuse e.
Lemma tame_source {A} (body : A -> handle k -> P (result err unit * handle k)) (l : list (result E A)) :
  (forall a h, tm (fun rh => fine (fst rh)) (body a h)) -> forall h, tm (fun rh => fed (first_error l) (fst rh)) (for_source body l h).
Proof.
  intros Hb. induction l as [|[a|e] l IH]; intros h; simpl; try (left; reflexivity).
  eapply tame_bind; [apply Hb|]. intros [[u|e] h'] Hr; simpl in *; [apply IH|]. right. eauto.
Qed.
Lemma tame_bulk fn fe (s : source k NP EP E) h :
  (forall a h, tm (fun rh => fine (fst rh)) (fn a h)) -> (forall a h, tm (fun rh => fine (fst rh)) (fe a h)) ->
  tm (fun rh => fed (bulk_error s) (fst rh)) (for_nodes_edges fn fe s h).
Proof.
  intros H1 H2. unfold for_nodes_edges, bulk_error. eapply tame_bind; [apply tame_source, H1|]. intros [r h'] Hr. cbn [fst snd] in *.
  destruct Hr as [->|(e & -> & He')].
  - destruct (first_error (src_nodes s)); [left; reflexivity|]. apply tame_source, H2.
  - right. exists e. split; [reflexivity|exact He'].
Qed.
Lemma tame_lift (o : op) (p : P (result err unit * handle k)) : op_error o = None -> tm (fun rh => fine (fst rh)) p ->
  tm (fun rh => fst rh = expected o \/ exists e, fst rh = Err (LeftE e) /\ excuse e) (lift p).
Proof.
  intros Ho H. eapply tame_bind; [exact H|]. intros [[[]|e] h] Hr; simpl in *; [left|right; eauto].
  unfold expected. now rewrite Ho.
Qed.
Lemma tame_apply c (o : op) h :
  tm (fun rh => fst rh = expected o \/ exists e, fst rh = Err (LeftE e) /\ excuse e) (l_apply cn ce mn me c o h).
Proof.
  destruct o; cbn [l_apply sled_apply]; try (apply tame_lift; [reflexivity|]).
  - apply (tame_and_handle fine), tame_insert_node.
  - apply tame_insert_edge.
  - apply (tame_and_handle fine), tame_remove_node.
  - apply (tame_and_handle fine), tame_remove_edge.
  - apply (tame_and_handle fine), tame_merge_node.
  - apply tame_merge_edge.
  - apply tame_bulk; intros; [apply (tame_and_handle fine), tame_extend_node|apply tame_extend_edge].
  - apply tame_bulk; intros; [apply (tame_and_handle fine), tame_merge_node|apply tame_merge_edge].
Qed.
Lemma tame_history cs (l : list op) : forall j h,
  tm (fun rsh => Forall2 (fun o r => r = expected o \/ exists e, r = Err (LeftE e) /\ excuse e) l (fst rsh)) (l_history cn ce mn me cs j l h).
Proof.
  induction l as [|o l IH]; intros j h; simpl; [constructor|].
  eapply tame_bind; [apply tame_apply|]. intros [r h'] Hr. eapply tame_bind; [apply IH|]. intros [rs h''] Hrs. simpl in *. constructor; auto.
Qed.

(** ** The readers *)
Definition just_met (e : err) : Prop := exists x, F x /\ e = SledError x.
Definition lacking (e : err) : Prop := just_met e \/ e = MissingPropertyData.
Definition but {A} (X : err -> Prop) (r : result err A) : Prop := match r with Ok _ => True | Err e => X e end.
Definition items {A} (X : err -> Prop) (xs : list (result err A)) : Prop := forall e, In (Err e) xs -> X e.

Lemma but_ok {A B} (X : err -> Prop) (Q : A -> Prop) (p : PR A) (f : A -> PR B) :
  tm (fun r => match r with Ok a => Q a | Err e => X e end) p -> (forall a, Q a -> tm (but X) (f a)) -> tm (but X) (bind_ok p f).
Proof. intros Hp Hf. eapply tame_bind; [exact Hp|]. intros [a|e] H; simpl; auto. Qed.
Lemma but_get (X : err -> Prop) x key : (forall y, F y -> X (SledError y)) -> tm (fun r => match r with Ok a => seen x a | Err e => X e end) (tree_get x key).
Proof. intros HX. split; [|auto]. intros d Hd. split; auto. simpl. intros v Hv. now apply (opt_get x key d Hd). Qed.
Lemma but_next {A} (X : err -> Prop) (p : PR A) : (forall y, F y -> X (SledError y)) -> tm (but X) p -> tm (but X) (next p).
Proof. intros HX H. split; simpl; auto. Qed.

Lemma tame_map {A} (X : err -> Prop) (f : bytes * bytes -> PR A) l : (forall kv, In kv l -> tm (but X) (next (f kv))) -> tm (items X) (map_prog (fun kv => next (f kv)) l).
Proof.
  induction l as [|kv l IH]; intros H; [intros e []|]. cbn [map_prog]. eapply tame_bind; [apply H; now left|]. intros y Hy.
  eapply tame_bind; [apply IH; intros; apply H; now right|]. intros ys Hys e [->|He']; [exact Hy|now apply Hys].
Qed.
Lemma tame_scan {A} (X : err -> Prop) x entries (f : bytes * bytes -> PR A) : (forall y, F y -> X (SledError y)) -> from x entries -> (forall kv, entry_ok x kv -> tm (but X) (f kv)) ->
  forall cuts lo, tm (items X) (scan_from entries f lo cuts).
Proof.
  intros HX Hx Hf. induction cuts as [|c cuts IH]; intros lo; cbn [scan_from].
  - intros d Hd. apply tame_map. intros kv Hin. apply but_next; auto. apply Hf. eapply Hx; eauto using in_piece.
  - eapply (tame_bind _ _ (items X)).
    + intros d Hd. apply tame_map. intros kv Hin. apply but_next; auto. apply Hf. eapply Hx; eauto using in_piece.
    + intros xs Hxs. eapply tame_bind; [apply IH|]. intros ys Hys e Hin. apply in_app_iff in Hin. destruct Hin; auto.
Qed.

Lemma met_is y : F y -> just_met (SledError y).
Proof. unfold just_met. eauto. Qed.
Lemma met_lacks y : F y -> lacking (SledError y).
Proof. unfold lacking, just_met. eauto. Qed.
Lemma id_ok key : length key = width k -> exists i, decode_id (SE := SE) (BE := BE) (k := k) key = Ok i.
Proof. intros H. unfold decode_id. rewrite try_from_be_bytes_spec, H, Nat.eqb_refl. eauto. Qed.

Lemma tame_iter_vertices cuts : tm (items just_met) (l_iter_vertices (k := k) cn cuts).
Proof.
  apply (tame_scan _ TNode); [apply met_is|apply from_all|]. intros [key v] [Hl Hv]. simpl in Hl.
  destruct (id_ok key Hl) as [i Hi]. simpl. rewrite Hi. simpl. destruct Hv as [p Hp]. apply Hn in Hp. simpl in Hp. rewrite Hp. exact Logic.I.
Qed.
Lemma tame_vertices cuts : tm (but just_met) (l_vertices (k := k) (BE := BE) cuts).
Proof.
  eapply tame_bind; [apply (tame_scan just_met TNode); [apply met_is|apply from_all|]|].
  - intros [key v] [Hl Hv]. simpl in Hl. destruct (id_ok key Hl) as [i Hi]. simpl. now rewrite Hi.
  - intros xs Hxs. simpl. induction xs as [|[a|e] xs IH]; simpl; [exact Logic.I| |].
    + assert (items just_met xs) as H by (intros e He'; apply Hxs; now right). specialize (IH H).
      destruct (collect_result (fun r => r) xs); auto.
    + apply Hxs. now left.
Qed.

Lemma edge_get (X : err -> Prop) v : (forall y, F y -> X (SledError y)) -> tm (but X) (get_edge_data_internal ce v).
Proof.
  intros HX. eapply but_ok; [apply (but_get X TEdge), HX|]. intros [data|] Hs; [|exact Logic.I]. destruct (de_e data (Hs data eq_refl)) as [e He'].
  simpl. rewrite He'. exact Logic.I.
Qed.
Lemma node_get (X : err -> Prop) (i : I) : (forall y, F y -> X (SledError y)) -> tm (but X) (get_node_data_by_id cn i).
Proof.
  intros HX. eapply but_ok; [apply (but_get X TNode), HX|]. intros [data|] Hs; [|exact Logic.I]. destruct (de_n data (Hs data eq_refl)) as [e He'].
  simpl. rewrite He'. exact Logic.I.
Qed.
Lemma but_mono {A} (X : err -> Prop) (p : PR A) : tm (but X) p -> tm (fun r => match r with Ok a => True | Err e => X e end) p.
Proof. apply tame_mono. intros [a|e]; auto. Qed.
Lemma tame_edge_item (t : T) v : tm (but lacking) (edge_item ce t v).
Proof.
  eapply (but_ok _ (fun _ => True)); [apply but_mono, edge_get, met_lacks|]. intros [e|] _; simpl; [exact Logic.I|]. now right.
Qed.
Lemma tame_iter_impl (t : T) v : tm (but lacking) (s_iter_impl cn ce t v).
Proof.
  eapply (but_ok _ (fun _ => True)); [apply but_mono, node_get, met_lacks|]. intros s _.
  eapply (but_ok _ (fun _ => True)); [apply but_mono, edge_get, met_lacks|]. intros e _.
  eapply (but_ok _ (fun _ => True)); [apply but_mono, node_get, met_lacks|]. intros o _.
  destruct s, e, o; simpl; try exact Logic.I; now right.
Qed.
Lemma tame_iter_edges cuts o : tm (items lacking) (l_iter_edges (k := k) ce cuts o).
Proof.
  destruct o; [apply (tame_scan _ TSpo)|apply (tame_scan _ TPos)|apply (tame_scan _ TOsp)]; try apply met_lacks; try apply from_all;
    intros kv Hkv; rewrite well_key by exact Hkv; apply tame_edge_item.
Qed.
Lemma tame_iter_edges_with_props cuts o : tm (items lacking) (l_iter_edges_with_props (k := k) cn ce cuts o).
Proof.
  destruct o; [apply (tame_scan _ TSpo)|apply (tame_scan _ TPos)|apply (tame_scan _ TOsp)]; try apply met_lacks; try apply from_all;
    intros kv Hkv; rewrite well_key by exact Hkv; apply tame_iter_impl.
Qed.

(** Queries *)
Lemma but_for_ok {X St} (f : X -> St -> PR St) : forall l s, (forall x s, In x l -> tm (but just_met) (f x s)) -> tm (but just_met) (for_ok f l s).
Proof.
  induction l as [|x l IH]; intros s H; simpl; [exact Logic.I|]. eapply (but_ok _ (fun _ => True)); [apply but_mono, H; now left|]. intros s' _. apply IH. intros. apply H. now right.
Qed.
Lemma but_for_from {St} x entries (f : bytes * bytes -> St -> PR St) : from x entries -> (forall kv s, entry_ok x kv -> tm (but just_met) (f kv s)) ->
  forall cuts lo s, tm (but just_met) (for_from entries f lo cuts s).
Proof.
  intros Hx Hf. induction cuts as [|c cuts IH]; intros lo s; simpl.
  - intros d Hd. apply but_for_ok. intros kv s' Hin. apply Hf. eapply Hx; eauto using in_piece.
  - change (tm (but just_met) (bind_ok (Look (fun d => for_ok f (piece lo (Some c) (entries d)) s)) (fun s => for_from entries f (Some (later lo c)) cuts s))).
    eapply (but_ok _ (fun _ => True)); [|intros; apply IH]. apply but_mono. intros d Hd. apply but_for_ok. intros kv s' Hin. apply Hf. eapply Hx; eauto using in_piece.
Qed.
Lemma tame_query_entry dcd kv (r : mem k NP EP) : length (fst kv) = 3 * width k -> tm (but just_met) (query_entry ce dcd kv r).
Proof.
  intros Hl. apply but_next; [apply met_is|]. eapply but_ok; [apply (but_get just_met TEdge), met_is|]. intros [data|] Hs; [|exact Logic.I].
  rewrite well_key by exact Hl. simpl. destruct (de_e data (Hs data eq_refl)) as [e He']. rewrite He'. exact Logic.I.
Qed.
Lemma tame_run cuts g (q : query I) : tm (but just_met) (l_run cn ce cuts g q).
Proof.
  destruct q; simpl; apply but_for_ok; intros x s _;
    try (unfold l_query_range, l_for; first
      [apply (but_for_from TSpo); [apply from_range|intros kv r Hkv; apply tame_query_entry, Hkv]
      |apply (but_for_from TPos); [apply from_range|intros kv r Hkv; apply tame_query_entry, Hkv]
      |apply (but_for_from TOsp); [apply from_range|intros kv r Hkv; apply tame_query_entry, Hkv]]).
  - eapply but_ok; [apply (but_get just_met TNode), met_is|]. intros [data|] Hs; [|exact Logic.I]. destruct (de_n data (Hs data eq_refl)) as [e He']. rewrite He'. exact Logic.I.
  - destruct x as [[a b] c]. simpl. change (tm (but just_met) (query_spo ce (a, b, c) s)). unfold query_spo.
    eapply (but_ok _ (fun _ => True)).
    { eapply tame_mono; [|apply (but_get just_met TSpo), met_is]. intros [?|?]; auto. }
    intros [id|] _; [|exact Logic.I]. eapply but_ok; [apply (but_get just_met TEdge), met_is|]. intros [data|] Hs; [|exact Logic.I].
    destruct (de_e data (Hs data eq_refl)) as [e He']. rewrite He'. exact Logic.I.
Qed.
End Calls.
End Sled.

(** ** Crowds *)
Section Crowds.
Context {k : idkind} {NP EP SE BE E : Type} (cn : codec BE NP) (ce : codec BE EP).
Context (mn : NP -> NP -> NP) (me : EP -> EP -> EP).
Notation op := (op k NP EP E).
Notation crowd := (crowd (k := k) (NP := NP) (EP := EP) (SE := SE) (E := E)).
Context (Hn : codec_ok cn) (He : codec_ok ce).
Notation J := (written_all (k := k) cn ce).

Lemma nth_callers cuts (cs : list (handle k * list op)) : forall i0 i p, nth_error (l_callers (SE := SE) (BE := BE) cn ce mn me cuts i0 cs) i = Some p ->
  exists h l, nth_error cs i = Some (h, l) /\ p = l_history cn ce mn me (cuts (i0 + i)) 0 l h.
Proof.
  induction cs as [|[h l] cs IH]; intros i0 [|i] p H; simpl in *; try discriminate.
  - inversion H; subst. exists h, l. now rewrite Nat.add_0_r.
  - destruct (IH (S i0) i p H) as (h' & l' & E1 & ->). exists h', l'. split; auto. now rewrite Nat.add_succ_r.
Qed.
Lemma crowd_tame (c : crowd) d : J d -> J (snd (crowd_run (BE := BE) cn ce mn me c d)) /\
  forall i p, nth_error (fst (crowd_run cn ce mn me c d)) i = Some p ->
  forall h l, nth_error (c_callers c) i = Some (h, l) ->
  tame J (fun x => In (i, Some x) (c_schedule c)) (fun rsh => Forall2 (answers_well cn ce (c_schedule c) i) l (fst rsh)) p.
Proof.
  intros Hd. unfold crowd_run.
  destruct (tame_interleave J (fun i rsh => forall h l, nth_error (c_callers c) i = Some (h, l) -> Forall2 (answers_well (SE := SE) cn ce (c_schedule c) i) l (fst rsh))
    (c_schedule c) (c_schedule c) (crowd_programs cn ce mn me c) d) as [H1 H2]; auto using incl_refl.
  - intros i p Hp. apply nth_callers in Hp. destruct Hp as (h & l & E1 & ->).
    eapply tame_mono; [|apply (tame_history cn ce Hn He)]. intros [rs h'] Hrs h0 l0 E2. rewrite E1 in E2. inversion E2; subst. exact Hrs.
  - split; auto. intros i p Hp h l E1. eapply tame_mono; [|apply (H2 i p Hp)]. simpl. eauto.
Qed.
Lemma crowds_tame (cs : list crowd) : forall d, J d -> J (crowds (BE := BE) cn ce mn me cs d).
Proof. induction cs as [|c cs IH]; intros d Hd; simpl; auto. apply IH. now apply crowd_tame. Qed.

Lemma beside_tame {A} (reader : prog db SE A) (Q : A -> Prop) (c : crowd) d a : J d ->
  tame J (met (c_schedule c)) Q reader ->
  has_read a (fst (interleave (c_schedule c) (beside reader (l_callers (BE := BE) cn ce mn me (c_cuts c) 0 (c_callers c))) d)) -> Q a.
Proof.
  intros Hd Hr Hx.
  destruct (tame_interleave J (fun (i : nat) (x : A + _) => match x with inl a => Q a | inr _ => True end) (c_schedule c) (c_schedule c)
    (beside reader (l_callers (BE := BE) cn ce mn me (c_cuts c) 0 (c_callers c))) d) as [_ H2]; auto using incl_refl.
  - intros [|i] p Hp.
    + inversion Hp; subst. eapply tame_bind; [exact Hr|]. auto.
    + unfold beside in Hp. cbn [nth_error] in Hp. apply nth_error_In, in_map_iff in Hp. destruct Hp as (q & <- & Hq).
      apply In_nth_error in Hq. destruct Hq as [j Hq]. apply nth_callers in Hq. destruct Hq as (h & l & _ & ->).
      eapply tame_bind; [apply (tame_history cn ce Hn He)|]. simpl. auto.
  - exact (H2 0 _ Hx).
Qed.
End Crowds.

Lemma crowd_answers : forall k NP EP SE BE E (cn : codec BE NP) (ce : codec BE EP) mn me
    (past : list (crowd (k := k) (NP := NP) (EP := EP) (SE := SE) (E := E))) (c : crowd (k := k) (NP := NP) (EP := EP) (SE := SE) (E := E)) i h l rs h',
  codec_ok cn -> codec_ok ce ->
  nth_error (c_callers c) i = Some (h, l) ->
  nth_error (fst (crowd_run cn ce mn me c (crowds cn ce mn me past db_new))) i = Some (Ret (rs, h')) ->
  Forall2 (answers_well cn ce (c_schedule c) i) l rs.
Proof.
  intros k NP EP SE BE E cn ce mn me past c i h l rs h' Hn He Hi Hr.
  exact (proj2 (crowd_tame cn ce mn me Hn He c _ (crowds_tame cn ce mn me Hn He past _ (J_new cn ce))) i _ Hr h l Hi).
Qed.
Lemma crowd_alike : forall k NP EP SE BE E (cn : codec BE NP) (ce : codec BE EP) mn me
    (past : list (crowd (k := k) (NP := NP) (EP := EP) (SE := SE) (E := E))) (c : crowd (k := k) (NP := NP) (EP := EP) (SE := SE) (E := E)) i h l rs h',
  codec_ok cn -> codec_ok ce -> codec_total cn -> codec_total ce ->
  nth_error (c_callers c) i = Some (h, l) -> (forall x, ~ In (i, Some x) (c_schedule c)) ->
  nth_error (fst (crowd_run cn ce mn me c (crowds cn ce mn me past db_new))) i = Some (Ret (rs, h')) ->
  rs = map expected l.
Proof.
  intros k NP EP SE BE E cn ce mn me past c i h l rs h' Hn He Tn Te Hi Hx Hr.
  pose proof (crowd_answers _ _ _ _ _ _ _ _ _ _ _ _ _ _ _ _ _ Hn He Hi Hr) as H. clear -H Tn Te Hx.
  induction H as [|o r l rs [->|(e & -> & Ex)] _ IH]; simpl; [auto|congruence|]. exfalso.
  destruct e; simpl in Ex; auto.
  - exact (Hx _ Ex).
  - destruct Ex as [[p Hp]|[p Hp]]; [destruct (Tn p)|destruct (Te p)]; congruence.
Qed.

Lemma beside_errors : forall k NP EP SE BE E (cn : codec BE NP) (ce : codec BE EP) mn me
    (past : list (crowd (k := k) (NP := NP) (EP := EP) (SE := SE) (E := E))) (c : crowd (k := k) (NP := NP) (EP := EP) (SE := SE) (E := E)),
  codec_ok cn -> codec_ok ce ->
  let next_to := fun A (reader : prog db SE A) =>
    fst (interleave (c_schedule c) (beside reader (crowd_programs cn ce mn me c)) (crowds cn ce mn me past db_new)) in
  (forall cuts xs e, has_read xs (next_to _ (l_iter_vertices (k := k) cn cuts)) -> In (Err e) xs ->
     exists x, met (c_schedule c) x /\ e = SledError x) /\
  (forall cuts e, has_read (Err e) (next_to _ (l_vertices (k := k) (BE := BE) cuts)) ->
     exists x, met (c_schedule c) x /\ e = SledError x) /\
  (forall cuts o xs e, has_read xs (next_to _ (l_iter_edges (k := k) ce cuts o)) -> In (Err e) xs ->
     (exists x, met (c_schedule c) x /\ e = SledError x) \/ e = MissingPropertyData) /\
  (forall cuts o xs e, has_read xs (next_to _ (l_iter_edges_with_props (k := k) cn ce cuts o)) -> In (Err e) xs ->
     (exists x, met (c_schedule c) x /\ e = SledError x) \/ e = MissingPropertyData) /\
  (forall cuts g (q : query (Id k)) e, has_read (Err e) (next_to _ (l_run cn ce cuts g q)) ->
     exists x, met (c_schedule c) x /\ e = SledError x).
Proof.
  intros k NP EP SE BE E cn ce mn me past c Hn He next_to.
  pose proof (crowds_tame cn ce mn me Hn He past _ (J_new cn ce)) as HJ.
  split; [|split; [|split; [|split]]].
  - intros cuts xs e Hx. revert e. exact (beside_tame cn ce mn me Hn He _ (items (just_met _)) c _ _ HJ (tame_iter_vertices cn ce Hn _ cuts) Hx).
  - intros cuts e Hx. exact (beside_tame cn ce mn me Hn He _ (but (just_met _)) c _ _ HJ (tame_vertices cn ce _ cuts) Hx).
  - intros cuts o xs e Hx. revert e. exact (beside_tame cn ce mn me Hn He _ (items (lacking _)) c _ _ HJ (tame_iter_edges cn ce He _ cuts o) Hx).
  - intros cuts o xs e Hx. revert e. exact (beside_tame cn ce mn me Hn He _ (items (lacking _)) c _ _ HJ (tame_iter_edges_with_props cn ce Hn He _ cuts o) Hx).
  - intros cuts g q e Hx. exact (beside_tame cn ce mn me Hn He _ (but (just_met _)) c _ _ HJ (tame_run cn ce Hn He _ cuts g q) Hx).
Qed.
