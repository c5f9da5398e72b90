(** Opening: the trees of a store and of an index are different trees of the database. *)
From Coq Require Import List String.
From Verif Require Import Bytes OMap Core Prog ProgFacts Sled SledIndex Rdf RdfSled SledOpen.
Import ListNotations.

Definition same_trees (r r' : sdb) : Prop := forall n, tree_at r' n = tree_at r n.

Lemma tree_set n t r m : tree_at (set_tree n t r) m = if String.eqb m n then t else tree_at r m.
Proof. unfold tree_at, set_tree. now destruct (String.eqb m n). Qed.

(** ** Opening *)
Section Open.
Context {SE BE : Type}.

Definition the_store : opened := Opened "node_data" "edge_data" "spo_data" "pos_data" "osp_data".
Definition the_index : iopened := IOpened "left_to_right" "right_to_left".

Lemma reopen_same n r : same_trees r (set_tree n (tree_at r n) r).
Proof. intros m. rewrite tree_set. destruct (String.eqb_spec m n); congruence. Qed.
Lemma same_trans a b c : same_trees a b -> same_trees b c -> same_trees a c.
Proof. intros H1 H2 n. now rewrite H2, H1. Qed.
Lemma same_refl a : same_trees a a.
Proof. intros n. reflexivity. Qed.

Lemma open_store_spec (fs : list (option SE)) r :
  same_trees r (db_of (open_store (BE := BE)) fs r) /\
  (ret_of (open_store (BE := BE)) fs r = Ok the_store \/
   exists e, In (Some e) fs /\ ret_of (open_store (BE := BE)) fs r = Err (SledError e)).
Proof.
  unfold ret_of, db_of.
  repeat (destruct fs as [|[e|] fs]; simpl;
    [ split; [repeat (eapply same_trans; [|apply reopen_same]); apply same_refl | now left]
    | split; [repeat (eapply same_trans; [|apply reopen_same]); apply same_refl | right; exists e; simpl; tauto]
    | idtac ]).
  split; [repeat (eapply same_trans; [|apply reopen_same]); apply same_refl | now left].
Qed.

Lemma open_index_spec (fs : list (option SE)) r :
  same_trees r (db_of open_index fs r) /\
  (ret_of open_index fs r = Ok the_index \/ exists e, In (Some e) fs /\ ret_of open_index fs r = Err e).
Proof.
  unfold ret_of, db_of.
  repeat (destruct fs as [|[e|] fs]; simpl;
    [ split; [repeat (eapply same_trans; [|apply reopen_same]); apply same_refl | now left]
    | split; [repeat (eapply same_trans; [|apply reopen_same]); apply same_refl | right; exists e; simpl; tauto]
    | idtac ]).
  split; [repeat (eapply same_trans; [|apply reopen_same]); apply same_refl | now left].
Qed.
End Open.

(** ** Programs on a part of the database *)
Section Lens.
Context {SE D : Type} (view : sdb -> D) (put : D -> sdb -> sdb) (Hput : forall d r, view (put d r) = d).

Lemma within_exec {A} (p : prog D SE A) : forall fs r,
  ret_of (within view put p) fs r = ret_of p fs (view r) /\
  view (db_of (within view put p) fs r) = db_of p fs (view r) /\
  snd (exec (within view put p) fs r) = snd (exec p fs (view r)).
Proof.
  unfold ret_of, db_of. induction p as [a|c IH|u c IHc e IHe]; intros fs r; simpl; auto.
  destruct fs as [|[x|] fs]; auto.
  - specialize (IHc (view r) [] (put (u (view r)) r)). now rewrite Hput in IHc.
  - specialize (IHc (view r) fs (put (u (view r)) r)). now rewrite Hput in IHc.
Qed.

Lemma within_crash {A} (p : prog D SE A) : forall n fs r, view (crash n (within view put p) fs r) = crash n p fs (view r).
Proof.
  induction p as [a|c IH|u c IHc e IHe]; intros n fs r; simpl; auto.
  destruct n as [|n]; auto. destruct fs as [|[x|] fs]; auto.
  - now rewrite IHc, Hput.
  - now rewrite IHc, Hput.
Qed.

Lemma within_step {A} (p : prog D SE A) f r :
  fst (step1 f (within view put p) r) = within view put (fst (step1 f p (view r))) /\
  view (snd (step1 f (within view put p) r)) = snd (step1 f p (view r)).
Proof. destruct p as [a|c|u c e]; simpl; auto. destruct f; simpl; auto. Qed.

Lemma nth_map {X Y} (f : X -> Y) l : forall i, nth_error (map f l) i = option_map f (nth_error l i).
Proof. induction l as [|x l IH]; intros [|i]; simpl; auto. Qed.
Lemma replace_map {X Y} (f : X -> Y) l x : forall i, replace_nth i (f x) (map f l) = map f (replace_nth i x l).
Proof. induction l as [|y l IH]; intros [|i]; simpl; auto. now rewrite IH. Qed.

Lemma within_interleave {A} schedule : forall (ps : list (prog D SE A)) r,
  let x := interleave schedule (map (within view put) ps) r in
  let y := interleave schedule ps (view r) in
  fst x = map (within view put) (fst y) /\ view (snd x) = snd y.
Proof.
  induction schedule as [|[i f] schedule IH]; intros ps r; simpl; auto.
  rewrite nth_map. destruct (nth_error ps i) as [p|]; simpl; [|apply IH].
  destruct (within_step p f r) as [H1 H2].
  destruct (step1 f (within view put p) r) as [p1 r1]. destruct (step1 f p (view r)) as [p2 d2].
  cbn [fst snd] in H1, H2. subst p1 d2. rewrite replace_map. apply IH.
Qed.

(** What the writes leave alone. *)
Context {X : Type} (obs : sdb -> X) (Hobs : forall d r, obs (put d r) = obs r).
Lemma within_frame {A} (p : prog D SE A) : forall fs r, obs (db_of (within view put p) fs r) = obs r.
Proof.
  unfold db_of. induction p as [a|c IH|u c IHc e IHe]; intros fs r; simpl; auto.
  destruct fs as [|[x|] fs]; auto; rewrite IHc; apply Hobs.
Qed.
Lemma within_frame_crash {A} (p : prog D SE A) : forall n fs r, obs (crash n (within view put p) fs r) = obs r.
Proof.
  induction p as [a|c IH|u c IHc e IHe]; intros n fs r; simpl; auto.
  destruct n as [|n]; auto. destruct fs as [|[x|] fs]; auto; rewrite IHc; apply Hobs.
Qed.
Lemma within_frame_step {A} (p : prog D SE A) f r : obs (snd (step1 f (within view put p) r)) = obs r.
Proof. destruct p as [a|c|u c e]; simpl; auto. destruct f; simpl; auto. Qed.
Lemma within_frame_interleave {A} schedule : forall (ps : list (prog D SE A)) r,
  obs (snd (interleave schedule (map (within view put) ps) r)) = obs r.
Proof.
  induction schedule as [|[i f] schedule IH]; intros ps r; simpl; auto.
  rewrite nth_map. destruct (nth_error ps i) as [p|]; simpl; auto.
  pose proof (within_frame_step p f r) as H. pose proof (within_step p f r) as [H1 _].
  destruct (step1 f (within view put p) r) as [p1 r1]. cbn [fst snd] in *. subst p1.
  rewrite replace_map, IH. exact H.
Qed.
End Lens.

(** ** The store and the index *)
Section Parts.
Context {SE BE : Type}.

Lemma opened_is (fs : list (option SE)) r o : ret_of (open_store (BE := BE)) fs r = Ok o -> o = the_store.
Proof. destruct (open_store_spec (BE := BE) fs r) as [_ [->|(e & _ & ->)]]; congruence. Qed.
Lemma iopened_is (fs : list (option SE)) r i : ret_of open_index fs r = Ok i -> i = the_index.
Proof. destruct (open_index_spec fs r) as [_ [->|(e & _ & ->)]]; congruence. Qed.

Lemma store_put d r : trees_of the_store (put_trees the_store d r) = d.
Proof. destruct d. unfold trees_of, put_trees. rewrite !tree_set. reflexivity. Qed.
Lemma index_put d r : itrees_of the_index (put_itrees the_index d r) = d.
Proof. destruct d. unfold itrees_of, put_itrees. rewrite !tree_set. reflexivity. Qed.
Lemma index_kept d r : itrees_of the_index (put_trees the_store d r) = itrees_of the_index r.
Proof. unfold itrees_of, put_trees. rewrite !tree_set. reflexivity. Qed.
Lemma store_kept d r : trees_of the_store (put_itrees the_index d r) = trees_of the_store r.
Proof. unfold trees_of, put_itrees. rewrite !tree_set. reflexivity. Qed.
Lemma rdf_put d r : rdb_of the_store the_index (put_itrees the_index (r_names d) (put_trees the_store (r_trees d) r)) = d.
Proof. unfold rdb_of. rewrite index_put, store_kept, store_put. now destruct d. Qed.

(** Opening, on a database in any state. *)
Lemma open_store_top (fs : list (option SE)) r :
  (forall n, tree_at (db_of (open_store (BE := BE)) fs r) n = tree_at r n) /\
  (exists o, ret_of (open_store (SE := SE) (BE := BE)) [] r = Ok o) /\
  match ret_of (open_store (BE := BE)) fs r with
  | Ok o => forall fs' r' o', ret_of (open_store (SE := SE) (BE := BE)) fs' r' = Ok o' -> o' = o
  | Err e => exists x, In (Some x) fs /\ e = SledError x
  end.
Proof.
  destruct (open_store_spec (BE := BE) fs r) as [H1 H2]. split; [exact H1|]. split; [eexists; reflexivity|].
  destruct H2 as [->|(e & H & ->)]; eauto. intros fs' r' o'. apply opened_is.
Qed.
Lemma open_index_top (fs : list (option SE)) r :
  (forall n, tree_at (db_of open_index fs r) n = tree_at r n) /\
  (exists i, ret_of (open_index (SE := SE)) [] r = Ok i) /\
  match ret_of open_index fs r with
  | Ok i => forall fs' r' i', ret_of (open_index (SE := SE)) fs' r' = Ok i' -> i' = i
  | Err e => In (Some e) fs
  end.
Proof.
  destruct (open_index_spec fs r) as [H1 H2]. split; [exact H1|]. split; [eexists; reflexivity|].
  destruct H2 as [->|(e & H & ->)]; eauto. intros fs' r' o'. apply iopened_is.
Qed.

Context (o : opened) (i : iopened) (fo fi : list (option SE)) (ro ri : sdb).
Context (Ho : ret_of (open_store (BE := BE)) fo ro = Ok o) (Hi : ret_of open_index fi ri = Ok i).

Lemma store_runs {A} (p : prog db SE A) fs n r :
  ret_of (in_store o p) fs r = ret_of p fs (trees_of o r) /\
  trees_of o (db_of (in_store o p) fs r) = db_of p fs (trees_of o r) /\
  trees_of o (crash n (in_store o p) fs r) = crash n p fs (trees_of o r) /\
  itrees_of i (db_of (in_store o p) fs r) = itrees_of i r /\
  itrees_of i (crash n (in_store o p) fs r) = itrees_of i r.
Proof.
  rewrite (opened_is _ _ _ Ho), (iopened_is _ _ _ Hi). unfold in_store.
  destruct (within_exec _ _ store_put p fs r) as (A1 & A2 & _). split; auto. split; auto.
  split; [apply (within_crash _ _ store_put)|]. split; [apply (within_frame _ _ _ index_kept)|].
  apply (within_frame_crash _ _ _ index_kept).
Qed.

Lemma index_runs {A} (p : prog idb SE A) fs n r :
  ret_of (in_index i p) fs r = ret_of p fs (itrees_of i r) /\
  itrees_of i (db_of (in_index i p) fs r) = db_of p fs (itrees_of i r) /\
  itrees_of i (crash n (in_index i p) fs r) = crash n p fs (itrees_of i r) /\
  trees_of o (db_of (in_index i p) fs r) = trees_of o r /\
  trees_of o (crash n (in_index i p) fs r) = trees_of o r.
Proof.
  rewrite (opened_is _ _ _ Ho), (iopened_is _ _ _ Hi). unfold in_index.
  destruct (within_exec _ _ index_put p fs r) as (A1 & A2 & _). split; auto. split; auto.
  split; [apply (within_crash _ _ index_put)|]. split; [apply (within_frame _ _ _ store_kept)|].
  apply (within_frame_crash _ _ _ store_kept).
Qed.

(** Several programs at the same time. *)
Lemma store_runs_together {A} schedule (ps : list (prog db SE A)) r :
  let x := interleave schedule (map (in_store o) ps) r in
  let y := interleave schedule ps (trees_of o r) in
  fst x = map (in_store o) (fst y) /\ trees_of o (snd x) = snd y /\ itrees_of i (snd x) = itrees_of i r.
Proof.
  cbv zeta. rewrite (opened_is _ _ _ Ho), (iopened_is _ _ _ Hi). unfold in_store.
  destruct (within_interleave _ _ store_put schedule ps r) as [A1 A2]. split; auto. split; auto.
  apply (within_frame_interleave _ _ store_put _ index_kept).
Qed.

Lemma rdf_runs {A} (p : prog rdb SE A) fs n r :
  ret_of (in_rdf o i p) fs r = ret_of p fs (rdb_of o i r) /\
  rdb_of o i (db_of (in_rdf o i p) fs r) = db_of p fs (rdb_of o i r) /\
  rdb_of o i (crash n (in_rdf o i p) fs r) = crash n p fs (rdb_of o i r).
Proof.
  rewrite (opened_is _ _ _ Ho), (iopened_is _ _ _ Hi). unfold in_rdf.
  destruct (within_exec _ _ rdf_put p fs r) as (A1 & A2 & _). split; auto. split; auto.
  apply (within_crash _ _ rdf_put).
Qed.
Lemma rdf_runs_together {A} schedule (ps : list (prog rdb SE A)) r :
  let x := interleave schedule (map (in_rdf o i) ps) r in
  let y := interleave schedule ps (rdb_of o i r) in
  fst x = map (in_rdf o i) (fst y) /\ rdb_of o i (snd x) = snd y.
Proof.
  cbv zeta. rewrite (opened_is _ _ _ Ho), (iopened_is _ _ _ Hi). apply (within_interleave _ _ rdf_put).
Qed.
End Parts.

(** The graph of an RdfTripleStore is a SledTripleStore on the same trees, its index a SledHashIndex. *)
Section Same.
Context {SE : Type}.

Definition alike {A} (p q : prog sdb SE A) : Prop := forall fs r r', same_trees r r' ->
  ret_of p fs r = ret_of q fs r' /\ same_trees (db_of p fs r) (db_of q fs r').

Lemma trees_same o r r' : same_trees r r' -> trees_of o r' = trees_of o r.
Proof. intros H. unfold trees_of. now rewrite !H. Qed.
Lemma itrees_same i r r' : same_trees r r' -> itrees_of i r' = itrees_of i r.
Proof. intros H. unfold itrees_of. now rewrite !H. Qed.
Lemma set_same n t t' r r' : t' = t -> same_trees r r' -> same_trees (set_tree n t r) (set_tree n t' r').
Proof. intros -> H m. rewrite !tree_set, H. reflexivity. Qed.
Lemma put_trees_same o d r r' : same_trees r r' -> same_trees (put_trees o d r) (put_trees o d r').
Proof. intros H. unfold put_trees. repeat (apply set_same; [reflexivity|]). exact H. Qed.
Lemma put_itrees_same o d r r' : same_trees r r' -> same_trees (put_itrees o d r) (put_itrees o d r').
Proof. intros H. unfold put_itrees. repeat (apply set_same; [reflexivity|]). exact H. Qed.
Lemma put_itrees_back i r : same_trees (put_itrees i (itrees_of i r) r) r.
Proof.
  intros n. unfold put_itrees, itrees_of. simpl. rewrite !tree_set.
  destruct (String.eqb_spec n (o_right_to_left i)); [congruence|]. destruct (String.eqb_spec n (o_left_to_right i)); congruence.
Qed.
Lemma put_trees_back o r : same_trees (put_trees o (trees_of o r) r) r.
Proof.
  intros n. unfold put_trees, trees_of. simpl. rewrite !tree_set.
  repeat match goal with |- context [String.eqb n ?x] => destruct (String.eqb_spec n x); [congruence|] end. reflexivity.
Qed.
Lemma same_sym a b : same_trees a b -> same_trees b a.
Proof. intros H n. now rewrite H. Qed.

Lemma graph_alike {A} (p : prog db SE A) : alike (in_rdf the_store the_index (on_graph p)) (in_store the_store p).
Proof.
  induction p as [a|c IH|u c IHc e IHe]; intros fs r r' H.
  - split; auto.
  - unfold ret_of, db_of. simpl. rewrite (trees_same the_store r r' H). now apply IH.
  - assert (same_trees (put_itrees the_index (itrees_of the_index r) (put_trees the_store (u (trees_of the_store r)) r))
              (put_trees the_store (u (trees_of the_store r)) r')) as Q.
    { eapply same_trans; [|apply put_trees_same, H].
      rewrite <- (index_kept (u (trees_of the_store r)) r). apply put_itrees_back. }
    unfold ret_of, db_of. simpl. rewrite (trees_same the_store r r' H).
    destruct fs as [|[x|] fs]; [now apply IHc|now apply IHe|now apply IHc].
Qed.
Lemma names_alike {A} (p : prog idb SE A) : alike (in_rdf the_store the_index (on_names p)) (in_index the_index p).
Proof.
  induction p as [a|c IH|u c IHc e IHe]; intros fs r r' H.
  - split; auto.
  - unfold ret_of, db_of. simpl. rewrite (itrees_same the_index r r' H). now apply IH.
  - assert (same_trees (put_itrees the_index (u (itrees_of the_index r)) (put_trees the_store (trees_of the_store r) r))
              (put_itrees the_index (u (itrees_of the_index r)) r')) as Q.
    { apply put_itrees_same. eapply same_trans; [apply put_trees_back|exact H]. }
    unfold ret_of, db_of. simpl. rewrite (itrees_same the_index r r' H).
    destruct fs as [|[x|] fs]; [now apply IHc|now apply IHe|now apply IHc].
Qed.
End Same.

Lemma rdf_parts {SE BE : Type} (o : opened) (i : iopened) (fo fi : list (option SE)) (ro ri : sdb) :
  ret_of (open_store (BE := BE)) fo ro = Ok o -> ret_of open_index fi ri = Ok i ->
  forall A (p : prog db SE A) B (q : prog idb SE B) fs r,
  (ret_of (in_rdf o i (on_graph p)) fs r = ret_of (in_store o p) fs r /\
   forall n, tree_at (db_of (in_rdf o i (on_graph p)) fs r) n = tree_at (db_of (in_store o p) fs r) n) /\
  (ret_of (in_rdf o i (on_names q)) fs r = ret_of (in_index i q) fs r /\
   forall n, tree_at (db_of (in_rdf o i (on_names q)) fs r) n = tree_at (db_of (in_index i q) fs r) n).
Proof.
  intros Ho Hi A p B q fs r. rewrite (opened_is _ _ _ Ho), (iopened_is _ _ _ Hi).
  destruct (graph_alike p fs r r (same_refl r)) as [H1 H2]. destruct (names_alike q fs r r (same_refl r)) as [H3 H4].
  split; split; auto; intros n; symmetry; auto.
Qed.

(** Another process opens the database that one left when it died. *)
Lemma reopened {SE BE : Type} (o o' : opened) (fo fo' : list (option SE)) r A (p : prog db SE A) fs n :
  ret_of (open_store (BE := BE)) fo r = Ok o ->
  let left := crash n (in_store o p) fs (db_of (open_store (BE := BE)) fo r) in
  ret_of (open_store (BE := BE)) fo' left = Ok o' ->
  trees_of o' (db_of (open_store (BE := BE)) fo' left) = crash n p fs (trees_of o r).
Proof.
  intros Ho left Ho'. rewrite (opened_is _ _ _ Ho').
  rewrite (trees_same the_store _ _ (proj1 (open_store_spec (BE := BE) fo' left))). unfold left.
  rewrite (opened_is _ _ _ Ho). unfold in_store. rewrite (within_crash _ _ store_put).
  now rewrite (trees_same the_store _ _ (proj1 (open_store_spec (BE := BE) fo r))).
Qed.
