(** Scans that are read piece by piece cannot be told from scans of a snapshot by a program that
    runs alone. *)
From Coq Require Import Arith NArith List Bool Sorted Lia.
From Verif Require Import Bytes BytesFacts OMap OMapFacts Core IdType IdTypeFacts Store Mem Spec
  CodecFacts ListFacts History Prog ProgFacts Sled SledHistory SledDb SledLeaf.
Import ListNotations.

(** ** Programs that do the same from [d] on when they run alone *)
Section Alike.
Context {D SE : Type}.
Notation P A := (prog D SE A).

Inductive alike {A} : D -> P A -> P A -> Prop :=
| Al_ret d a : alike d (Ret a) (Ret a)
| Al_left d c q : alike d (c d) q -> alike d (Look c) q
| Al_right d p c : alike d p (c d) -> alike d p (Look c)
| Al_act d u u' c c' e e' : u d = u' d -> alike (u d) (c d) (c' d) -> (forall x, alike d (e x) (e' x)) ->
    alike d (Act u c e) (Act u' c' e').

Lemma alike_exec {A} d (p q : P A) : alike d p q -> forall fs, exec p fs d = exec q fs d.
Proof.
  induction 1 as [d a|d c q H IH|d p c H IH|d u u' c c' e e' Hu H IH He IHe]; intros fs; simpl; auto.
  rewrite <- Hu. destruct fs as [|[x|] fs]; auto.
Qed.

Lemma alike_crash {A} d (p q : P A) : alike d p q -> forall n fs, crash n p fs d = crash n q fs d.
Proof.
  induction 1 as [d a|d c q H IH|d p c H IH|d u u' c c' e e' Hu H IH He IHe]; intros n fs; simpl; auto.
  rewrite <- Hu. destruct n; auto. destruct fs as [|[x|] fs]; auto.
Qed.

Lemma alike_refl {A} (p : P A) : forall d, alike d p p.
Proof. induction p; intros d; constructor; auto. constructor. auto. Qed.

Lemma alike_look {A} d c (q : P A) : alike d (Look c) q -> alike d (c d) q.
Proof.
  remember (Look c) as p eqn:E. intros H. revert c E.
  induction H as [d a|d c q H IH|d p c H IH|d u u' c c' e e' Hu H IH He IHe]; intros c0 E; try discriminate.
  - now injection E as ->.
  - apply Al_right. auto.
Qed.

Lemma alike_act {A} d u c e (q : P A) : alike d (Act u c e) q -> forall r, 
  (forall u' c' e', u d = u' d -> alike (u d) (c d) (c' d) -> (forall x, alike d (e x) (e' x)) -> alike d (Act u' c' e') r) ->
  alike d q r.
Proof.
  remember (Act u c e) as p eqn:E. intros H. revert u c e E.
  induction H as [d a|d c q H IH|d p c H IH|d u u' c c' e e' Hu H IH He IHe]; intros u0 c0 e0 E r Hr; try discriminate.
  - apply Al_left. eauto.
  - injection E as -> -> ->. apply Hr; auto.
Qed.

Lemma alike_sym {A} d (p q : P A) : alike d p q -> alike d q p.
Proof. induction 1; try (constructor; auto; fail). constructor; auto. now rewrite <- H. Qed.

Lemma alike_trans {A} d (p q : P A) : alike d p q -> forall r, alike d q r -> alike d p r.
Proof.
  induction 1 as [d a|d c q H IH|d p c H IH|d u u' c c' e e' Hu H IH He IHe]; intros r Hr; auto.
  - apply Al_left. auto.
  - apply IH. now apply alike_look.
  - remember (Act u' c' e') as p eqn:E. revert u' c' e' E Hu IH He IHe H.
    induction Hr as [d a|d c0 q H0 IH0|d p c0 H0 IH0|d v v' c0 c0' f f' Hv H0 IH0 Hf IHf]; intros u' c' e' E Hu IH He IHe H; try discriminate.
    + apply Al_right. eapply IH0; eauto.
    + injection E as -> -> ->. constructor; [congruence| |auto]. apply IH. now rewrite Hu.
Qed.

Lemma alike_bind {A B} (p : P A) (f g : A -> P B) d q : alike d p q ->
  (forall fs, alike (db_of p fs d) (f (ret_of p fs d)) (g (ret_of p fs d))) ->
  alike d (bind p f) (bind q g).
Proof.
  intros H. induction H as [d a|d c q H IH|d p c H IH|d u u' c c' e e' Hu H IH He IHe]; intros Hf; simpl.
  - apply (Hf []).
  - apply Al_left. auto.
  - apply Al_right. auto.
  - apply Al_act; auto.
    + apply IH. intros fs. apply (Hf (None :: fs)).
    + intros x. apply IHe. intros fs. apply (Hf (Some x :: fs)).
Qed.

Lemma alike_bind_ro {A B} (p : P A) (f g : A -> P B) d q : readonly p -> alike d p q ->
  (forall a, alike d (f a) (g a)) -> alike d (bind p f) (bind q g).
Proof. intros R H Hf. apply alike_bind; auto. intros fs. rewrite (readonly_exec p R). auto. Qed.

Lemma alike_bind_ok_ro {A B Er} (p : P (result Er A)) (f g : A -> P (result Er B)) d q : readonly p -> alike d p q ->
  (forall a, alike d (f a) (g a)) -> alike d (bind_ok p f) (bind_ok q g).
Proof. intros R H Hf. apply alike_bind_ro; auto. intros [a|e]; auto using alike_refl. Qed.

Lemma alike_assoc {A B C} (p : P A) (f : A -> P B) (g : B -> P C) :
  forall d, alike d (bind (bind p f) g) (bind p (fun a => bind (f a) g)).
Proof. induction p; intros d; simpl; [apply alike_refl | |]; constructor; auto. constructor; auto. Qed.

Lemma for_app {X S Er} (f : X -> S -> P (result Er S)) l1 l2 : forall s d,
  alike d (bind_ok (for_ok f l1 s) (fun s => for_ok f l2 s)) (for_ok f (l1 ++ l2) s).
Proof.
  induction l1 as [|x l1 IH]; intros s d; simpl; [apply alike_refl|].
  unfold bind_ok at 1 2. eapply alike_trans; [apply alike_assoc|].
  unfold bind_ok. apply alike_bind; [apply alike_refl|]. intros fs. destruct (ret_of (f x s) fs d); [apply IH|apply alike_refl].
Qed.

Lemma map_app_prog {X Y} (f : X -> P Y) l1 l2 : forall d,
  alike d (bind (map_prog f l1) (fun xs => bind (map_prog f l2) (fun ys => Ret (xs ++ ys)))) (map_prog f (l1 ++ l2)).
Proof.
  induction l1 as [|x l1 IH]; intros d; simpl.
  - generalize (map_prog f l2). intros p. revert d. induction p; intros d; simpl; constructor; auto. constructor; auto.
  - eapply alike_trans; [apply alike_assoc|]. apply alike_bind; [apply alike_refl|]. intros fs.
    generalize (db_of (f x) fs d), (ret_of (f x) fs d). clear d fs. intros d y.
    eapply alike_trans; [apply alike_assoc|]. cbn [bind].
    eapply alike_trans; [|apply (alike_bind _ (fun ys => Ret (y :: ys)) _ d _ (IH d)); intros fs; apply alike_refl].
    eapply alike_trans; [|apply alike_sym, alike_assoc].
    apply alike_bind; [apply alike_refl|]. intros fs. generalize (db_of (map_prog f l1) fs d), (ret_of (map_prog f l1) fs d). intros d' xs.
    eapply alike_trans; [|apply alike_sym, alike_assoc].
    apply alike_bind; [apply alike_refl|]. intros fs'. apply alike_refl.
Qed.
End Alike.

(** ** Pieces *)
Section Pieces.
Let BC := bytes_cmp_ok.

Lemma piece_all es : piece None None es = es.
Proof. unfold piece. induction es as [|kv es IH]; auto. cbn [filter]. rewrite IH. reflexivity. Qed.

Lemma lt_le a b c : bytes_cmp a b = Lt -> bytes_cmp b c <> Gt -> bytes_cmp a c = Lt.
Proof.
  intros H1 H2. destruct (bytes_cmp b c) eqn:E; [| |congruence].
  - apply (cmp_eq _ BC) in E. now subst.
  - eapply (cmp_trans _ BC); eauto.
Qed.
Lemma le_lt a b c : bytes_cmp a b <> Gt -> bytes_cmp b c = Lt -> bytes_cmp a c = Lt.
Proof.
  intros H1 H2. destruct (bytes_cmp a b) eqn:E; [| |congruence].
  - apply (cmp_eq _ BC) in E. now subst.
  - eapply (cmp_trans _ BC); eauto.
Qed.
Lemma not_gt a b : bytes_cmp a b <> Gt <-> bytes_cmp b a <> Lt.
Proof. now rewrite (cmp_gt_lt BC). Qed.

Lemma not_before_spec lo key : not_before lo key = true <-> forall a, lo = Some a -> bytes_cmp a key <> Gt.
Proof.
  destruct lo as [a|]; simpl; split; auto; try discriminate.
  - intros H b [= <-]. destruct (bytes_cmp a key); congruence.
  - intros H. specialize (H a eq_refl). destruct (bytes_cmp a key); congruence.
Qed.
Lemma before_spec hi key : before hi key = true <-> forall b, hi = Some b -> bytes_cmp key b = Lt.
Proof.
  destruct hi as [a|]; simpl; split; auto; try discriminate.
  - intros H b [= <-]. destruct (bytes_cmp key a); congruence.
  - intros H. specialize (H a eq_refl). destruct (bytes_cmp key a); congruence.
Qed.

(** A piece ends where the next begins. *)
Lemma later_spec lo c key : not_before (Some (later lo c)) key = not_before lo key && negb (before (Some c) key).
Proof.
  apply eq_true_iff_eq. rewrite andb_true_iff, negb_true_iff, <- not_true_iff_false, before_spec, !not_before_spec. split.
  - intros H. specialize (H _ eq_refl). unfold later in H. split.
    + intros a ->. destruct (bytes_cmp a c) eqn:Ea; auto.
      * apply (cmp_eq _ BC) in Ea. now subst.
      * intros Hg. apply (cmp_gt_lt BC) in Hg. pose proof (cmp_trans _ BC _ _ _ Hg Ea) as Hx.
        apply (cmp_gt_lt BC) in Hx. contradiction.
    + intros Hb. specialize (Hb _ eq_refl). destruct lo as [a|].
      * destruct (bytes_cmp a c) eqn:Ea.
        -- apply H. now apply (cmp_gt_lt BC).
        -- apply H. now apply (cmp_gt_lt BC).
        -- apply (cmp_gt_lt BC) in Ea. apply H. apply (cmp_gt_lt BC). eapply (cmp_trans _ BC); eauto.
      * apply H. now apply (cmp_gt_lt BC).
  - intros [H1 H2] b [= <-]. unfold later. 
    assert (bytes_cmp c key <> Gt) as Hc.
    { intros Hg. apply H2. intros b [= <-]. now apply (cmp_gt_lt BC). }
    destruct lo as [a|]; auto. destruct (bytes_cmp a c); auto.
Qed.

Lemma piece_split lo c es : om_sorted bytes_cmp es ->
  piece lo None es = piece lo (Some c) es ++ piece (Some (later lo c)) None es.
Proof.
  unfold piece. induction es as [|kv es IH]; intros S; auto. inversion S as [|? ? S' Hkv]; subst.
  cbn [filter]. rewrite IH by auto. rewrite later_spec.
  change (before None (fst kv)) with true. rewrite !andb_true_r.
  destruct (not_before lo (fst kv)) eqn:E1; [|reflexivity]. cbn [andb].
  destruct (before (Some c) (fst kv)) eqn:E2; [reflexivity|]. cbn [negb].
  assert (filter (fun kv0 => not_before lo (fst kv0) && before (Some c) (fst kv0)) es = []) as ->; [|reflexivity].
  clear IH S S'. induction Hkv as [|kv' es Hlt Hkv IH]; auto. cbn [filter]. rewrite IH.
  destruct (before (Some c) (fst kv')) eqn:E3; [|now rewrite andb_false_r].
  exfalso. rewrite <- not_true_iff_false, before_spec in E2. apply E2. intros b [= <-].
  eapply (cmp_trans _ BC); [exact Hlt|]. now apply (proj1 (before_spec _ _) E3).
Qed.

Lemma piece_in lo hi es kv : In kv (piece lo hi es) <-> In kv es /\ not_before lo (fst kv) = true /\ before hi (fst kv) = true.
Proof. unfold piece. now rewrite filter_In, andb_true_iff. Qed.
End Pieces.

Section Leaf.
Context {k : idkind} {NP EP SE BE : Type} (cn : codec BE NP) (ce : codec BE EP).
Notation I := (Id k).
Notation T := (triple (Id k)).
Notation err := (sled_error SE BE).
Notation P A := (prog db SE A).
Notation PR A := (prog db SE (result err A)).

Lemma for_from_alike {S} (entries : db -> list (bytes * bytes)) (f : bytes * bytes -> S -> PR S) d :
  (forall kv s, readonly (f kv s)) -> om_sorted bytes_cmp (entries d) -> forall cuts lo s,
  alike d (for_from entries f lo cuts s) (Look (fun d => for_ok f (piece lo None (entries d)) s)).
Proof.
  intros R Hs. induction cuts as [|c cuts IH]; intros lo s; [apply alike_refl|]. simpl.
  apply Al_left, Al_right. rewrite (piece_split lo c (entries d) Hs).
  eapply alike_trans; [|apply for_app]. fold (@bind_ok db SE S S err).
  apply alike_bind_ok_ro; [apply readonly_for_ok; auto|apply alike_refl|]. intros s'.
  eapply alike_trans; [apply IH|]. apply Al_left, alike_refl.
Qed.

Lemma l_for_alike {S} cuts (entries : db -> list (bytes * bytes)) (f : bytes * bytes -> S -> PR S) d s :
  (forall kv s, readonly (f kv s)) -> om_sorted bytes_cmp (entries d) ->
  alike d (l_for cuts entries f s) (Look (fun d => for_ok f (entries d) s)).
Proof.
  intros R Hs. eapply alike_trans; [apply for_from_alike; auto|]. apply Al_left, Al_right. rewrite piece_all. apply alike_refl.
Qed.

Lemma scan_from_alike {A} (entries : db -> list (bytes * bytes)) (f : bytes * bytes -> PR A) d :
  (forall kv, readonly (f kv)) -> om_sorted bytes_cmp (entries d) -> forall cuts lo,
  alike d (scan_from entries f lo cuts) (Look (fun d => map_prog (fun kv => next (f kv)) (piece lo None (entries d)))).
Proof.
  intros R Hs. assert (forall kv, readonly (next (f kv))) as Rn by (intros; unfold next; ro; auto).
  induction cuts as [|c cuts IH]; intros lo; [apply alike_refl|]. simpl.
  apply Al_left, Al_right. rewrite (piece_split lo c (entries d) Hs).
  eapply alike_trans; [|apply map_app_prog].
  apply alike_bind_ro; [apply readonly_map_prog; auto|apply alike_refl|]. intros xs.
  apply alike_bind_ro; [|eapply alike_trans; [apply IH|]; apply Al_left, alike_refl|intros ys; apply alike_refl].
  generalize (Some (later lo c)). clear IH. induction cuts as [|c' cuts IH]; intros lo'; simpl.
  - constructor. intros. apply readonly_map_prog; auto.
  - constructor. intros. apply readonly_bind; [apply readonly_map_prog; auto|]. intros. apply readonly_bind; auto. intros. constructor.
Qed.

Lemma l_scan_alike {A} cuts (entries : db -> list (bytes * bytes)) (f : bytes * bytes -> PR A) d :
  (forall kv, readonly (f kv)) -> om_sorted bytes_cmp (entries d) ->
  alike d (l_scan cuts entries f) (scan entries f).
Proof.
  intros R Hs. eapply alike_trans; [apply scan_from_alike; auto|]. apply Al_left, Al_right. rewrite piece_all. apply alike_refl.
Qed.

Lemma readonly_for_from {S} (entries : db -> list (bytes * bytes)) (f : bytes * bytes -> S -> PR S) :
  (forall kv s, readonly (f kv s)) -> forall cuts lo s, readonly (for_from entries f lo cuts s).
Proof.
  intros R. induction cuts as [|c cuts IH]; intros lo s; simpl.
  - constructor. intros. now apply readonly_for_ok.
  - constructor. intros. apply readonly_bind_ok; auto. now apply readonly_for_ok.
Qed.

Definition in_order (d : db) : Prop := forall x, om_sorted bytes_cmp (tbl x d).

Lemma l_iter_vertices_alike cuts d : in_order d ->
  alike d (l_iter_vertices cn cuts : P (list (result err (I * NP)))) (s_iter_vertices cn).
Proof. intros H. apply l_scan_alike; [|apply (H TNode)]. intros kv. ro; unfold bincode; constructor. Qed.

Lemma l_vertices_alike cuts d : in_order d -> alike d (l_vertices cuts : PR (list I)) s_vertices.
Proof.
  intros H. unfold l_vertices, s_vertices. apply alike_bind; [|intros; apply alike_refl].
  apply l_scan_alike; [|apply (H TNode)]. intros kv. ro.
Qed.

Lemma ro_opt_de {A} (c : codec BE A) o : readonly (opt_de c o : PR (option A)).
Proof. unfold opt_de, bincode. ro. Qed.
Lemma ro_edge_item t r : readonly (edge_item ce t r : PR (T * EP)).
Proof. unfold edge_item, get_edge_data_internal, tree_get. ro. apply ro_opt_de. Qed.
Lemma ro_iter_impl (t : T) r : readonly (s_iter_impl cn ce t r : PR (props_triple I NP EP)).
Proof. unfold s_iter_impl, get_edge_data_internal, get_node_data_by_id, tree_get. ro; apply ro_opt_de. Qed.
Lemma ro_query_entry dec kv r : readonly (query_entry ce dec kv r : PR (mem k NP EP)).
Proof. unfold query_entry, next, tree_get, bincode. ro. Qed.

Lemma l_iter_edges_alike cuts o d : in_order d ->
  alike d (l_iter_edges ce cuts o : P (list (result err (T * EP)))) (s_iter_edges ce o).
Proof.
  intros H. destruct o; apply l_scan_alike; try apply (H TSpo); try apply (H TPos); try apply (H TOsp); intros kv; ro; apply ro_edge_item.
Qed.

Lemma l_iter_props_alike cuts o d : in_order d ->
  alike d (l_iter_edges_with_props cn ce cuts o : P (list (result err (props_triple I NP EP)))) (s_iter_edges_with_props cn ce o).
Proof.
  intros H. destruct o; apply l_scan_alike; try apply (H TSpo); try apply (H TPos); try apply (H TOsp); intros kv; ro; apply ro_iter_impl.
Qed.

Lemma for_ok_alike {X S} (f g : X -> S -> PR S) l d :
  (forall x s, readonly (f x s)) -> (forall x s, alike d (f x s) (g x s)) -> forall s, alike d (for_ok f l s) (for_ok g l s).
Proof.
  intros R H. induction l as [|x l IH]; intros s; simpl; [apply alike_refl|]. apply alike_bind_ok_ro; auto.
Qed.

Lemma l_run_alike cuts g q d : in_order d -> alike d (l_run cn ce cuts g q : PR (mem k NP EP)) (s_run cn ce g q).
Proof.
  intros H.
  assert (forall dec (tr : db -> tree) b r x, tr = tbl x -> alike d (l_query_range ce cuts dec tr b r : PR (mem k NP EP)) (query_range ce dec tr b r)) as Hq.
  { intros dec tr b r x ->. apply l_for_alike; [intros; apply ro_query_entry|]. apply om_sorted_filter, (H x). }
  assert (forall dec tr b r, readonly (l_query_range ce cuts dec tr b r : PR (mem k NP EP))) as Hr.
  { intros. apply readonly_for_from. intros. apply ro_query_entry. }
  destruct q; try apply alike_refl; apply for_ok_alike; auto; intros x s;
    ((now apply (Hq _ _ _ _ TSpo)) || (now apply (Hq _ _ _ _ TPos)) || (now apply (Hq _ _ _ _ TOsp))).
Qed.

Lemma l_remove_node_alike c (n : I) d : in_order d -> alike d (l_remove_node c n : PR unit) (s_remove_node n).
Proof.
  intros H. unfold l_remove_node, s_remove_node.
  assert (forall kv b, readonly (forward_entry (k := k) kv b : PR batches)) as R1 by (intros; unfold forward_entry, next; ro).
  assert (forall kv b, readonly (backward_entry (k := k) kv b : PR batches)) as R2 by (intros; unfold backward_entry, next; ro).
  apply alike_bind_ok_ro; [now apply readonly_for_from| |].
  - apply l_for_alike; auto. apply om_sorted_filter, (H TSpo).
  - intros f. apply alike_bind_ok_ro; [now apply readonly_for_from| |intros; apply alike_refl].
    apply l_for_alike; auto. apply om_sorted_filter, (H TOsp).
Qed.

(** ** Histories *)
Section History.
Context {E : Type} (mn : NP -> NP -> NP) (me : EP -> EP -> EP).
Notation op := (op k NP EP E).
Notation outcome := (outcome (SE := SE) (BE := BE) (E := E)).
Implicit Types d : db.

(** Programs that keep the tables in order. *)
Inductive orderly {A} : P A -> Prop :=
| Or_ret a : orderly (Ret a)
| Or_look c : (forall d, orderly (c d)) -> orderly (Look c)
| Or_act u c e : (forall d, in_order d -> in_order (u d)) -> (forall d, orderly (c d)) -> (forall x, orderly (e x)) ->
    orderly (Act u c e).

Lemma orderly_exec {A} (p : P A) : orderly p -> forall fs d, in_order d -> in_order (db_of p fs d).
Proof.
  unfold db_of. induction 1 as [a|c H IH|u c e Hu Hc IHc He IHe]; intros fs d Hd; simpl; auto.
  destruct fs as [|[x|] fs]; auto.
Qed.

Lemma orderly_bind {A B} (p : P A) (f : A -> P B) : orderly p -> (forall a, orderly (f a)) -> orderly (bind p f).
Proof. induction 1; intros Hf; simpl; auto; constructor; auto. Qed.
Lemma orderly_bind_ok {A B Er} (p : P (result Er A)) (f : A -> P (result Er B)) :
  orderly p -> (forall a, orderly (f a)) -> orderly (bind_ok p f).
Proof. intros H Hf. apply orderly_bind; auto. intros [a|e]; auto. constructor. Qed.
Lemma orderly_readonly {A} (p : P A) : readonly p -> orderly p.
Proof. induction 1; constructor; auto. intros d Hd. now rewrite H. Qed.

Lemma in_order_set x v d : in_order d -> om_sorted bytes_cmp v -> in_order (set_tbl x v d).
Proof.
  intros H Hv y. destruct (table_dec y x) as [->|N].
  - now rewrite tbl_set_eq.
  - rewrite tbl_set_neq by auto. apply H.
Qed.
Lemma in_order_insert x key v d : in_order d -> in_order (set_tbl x (binsert key v (tbl x d)) d).
Proof. intros H. apply in_order_set; auto. apply (om_sorted_insert bytes_cmp_ok), H. Qed.
Lemma in_order_remove x key d : in_order d -> in_order (set_tbl x (bremove key (tbl x d)) d).
Proof. intros H. apply in_order_set; auto. apply om_sorted_filter, H. Qed.
Lemma in_order_removes x keys d : in_order d ->
  in_order (set_tbl x (fold_left (fun t key => bremove key t) keys (tbl x d)) d).
Proof. intros H. apply in_order_set; auto. apply removes_sorted, H. Qed.

Lemma orderly_insert x key v : orderly (tree_insert x key v : PR (option bytes)).
Proof. constructor; intros; try constructor. now apply in_order_insert. Qed.
Lemma orderly_remove x key : orderly (tree_remove x key : PR (option bytes)).
Proof. constructor; intros; try constructor. now apply in_order_remove. Qed.

(** Transactions *)
Definition tidy {A} (b : txn (SE := SE) (BE := BE) A) : Prop := forall d a d', b d = Ok (a, d') -> in_order d -> in_order d'.
Lemma tidy_bind {A B} (x : txn A) (f : A -> txn B) : tidy x -> (forall a, tidy (f a)) -> tidy (t_bind x f).
Proof. intros Hx Hf d b d' H Hd. unfold t_bind in H. destruct (x d) as [[a d1]|] eqn:E1; [|discriminate]. eapply Hf; eauto. Qed.
Lemma tidy_ret {A} (a : A) : tidy (t_ret a).
Proof. now intros d a' d' [= _ <-]. Qed.
Lemma tidy_abort {A} e : tidy (t_abort e : txn A).
Proof. intros d a' d' [=]. Qed.
Lemma tidy_bincode {A} (r : result BE A) : tidy (t_bincode r).
Proof. destruct r; [apply tidy_ret|apply tidy_abort]. Qed.
Lemma tidy_get x key : tidy (t_get x key).
Proof. now intros d a' d' [= _ <-]. Qed.
Lemma tidy_insert x key v : tidy (t_insert x key v).
Proof. intros d a' d' [= _ <-]. apply in_order_insert. Qed.
Lemma tidy_remove x key : tidy (t_remove x key).
Proof. intros d a' d' [= _ <-]. apply in_order_remove. Qed.
Lemma tidy_removals x keys : tidy (t_apply_removals x keys).
Proof. intros d a' d' [= _ <-]. apply in_order_removes. Qed.

Lemma orderly_txn {A} (b : txn A) : tidy b -> orderly (transaction b : PR A).
Proof.
  intros H. constructor; intros; try constructor. destruct (b d) as [[a d']|] eqn:Eb; auto. eapply H; eauto.
Qed.
End History.

End Leaf.

Ltac tidy :=
  repeat match goal with
  | |- tidy (t_bind _ _) => apply tidy_bind; intros
  | |- tidy (t_ret _) => apply tidy_ret
  | |- tidy (t_bincode _) => apply tidy_bincode
  | |- tidy (t_get _ _) => apply tidy_get
  | |- tidy (t_insert _ _ _) => apply tidy_insert
  | |- tidy (t_remove _ _) => apply tidy_remove
  | |- tidy (t_apply_removals _ _) => apply tidy_removals
  | |- tidy (match ?x with _ => _ end) => destruct x
  end.
Ltac orderly :=
  repeat match goal with
  | |- orderly (Ret _) => constructor
  | |- orderly (tree_insert _ _ _) => apply orderly_insert
  | |- orderly (tree_remove _ _) => apply orderly_remove
  | |- orderly (transaction _) => apply orderly_txn
  | |- orderly (bincode _) => constructor
  | |- orderly (bind_ok _ _) => apply orderly_bind_ok; intros
  | |- orderly (bind _ _) => apply orderly_bind; intros
  | |- orderly (match ?x with _ => _ end) => destruct x
  end.

Section Orderly.
Context {k : idkind} {NP EP SE BE E : Type} (cn : codec BE NP) (ce : codec BE EP).
Context (mn : NP -> NP -> NP) (me : EP -> EP -> EP).
Notation P A := (prog db SE A).
Notation err := (sled_error SE BE).
Notation op := (op k NP EP E).
Notation outcome := (outcome (SE := SE) (BE := BE) (E := E)).
Implicit Types d : db.

Lemma orderly_source {A Er} body (l : list (result Er A)) :
  (forall a h, orderly (body a h : P (result err unit * handle k))) -> forall h, orderly (for_source body l h).
Proof.
  intros H. induction l as [|[a|e] l IH]; intros h; simpl; try constructor.
  apply orderly_bind; auto. intros [[[]|] ?]; simpl; auto. constructor.
Qed.

Lemma orderly_bulk {Er} fn fe (s : source k NP EP Er) h :
  (forall a h, orderly (fn a h : P (result err unit * handle k))) -> (forall a h, orderly (fe a h)) ->
  orderly (for_nodes_edges fn fe s h).
Proof.
  intros H1 H2. unfold for_nodes_edges. apply orderly_bind; [now apply orderly_source|].
  intros [[[]|] ?]; simpl; [now apply orderly_source|constructor].
Qed.

Lemma orderly_merge_node (n : Id k) p : orderly (s_merge_node cn mn n p : prog db SE (result err unit)).
Proof. unfold s_merge_node. orderly. unfold merge_node_txn. tidy. Qed.
Lemma orderly_merge_edge t e h : orderly (s_merge_edge ce me t e h : P (result err unit * handle k)).
Proof. unfold s_merge_edge. destruct (draw h). unfold and_handle. orderly. unfold merge_edge_txn. tidy. Qed.
Lemma orderly_extend_edge t e h : orderly (s_extend_edge ce t e h : P (result err unit * handle k)).
Proof. unfold s_extend_edge. destruct (draw_ulid h). unfold and_handle. orderly. Qed.

Lemma orderly_apply (o : op) h : orderly (sled_apply cn ce mn me o h : P (outcome * handle k)).
Proof.
  destruct o as [n p|t e|n|t|n p|t e|s|s]; cbn [sled_apply]; unfold lift, and_handle.
  - unfold s_insert_node. orderly.
  - unfold s_insert_edge. destruct (draw h). unfold and_handle. orderly. unfold insert_edge_txn. tidy.
  - unfold s_remove_node. orderly.
    + apply orderly_readonly. ro. unfold forward_entry, next. ro.
    + apply orderly_readonly. ro. unfold backward_entry, next. ro.
    + unfold remove_node_txn. tidy.
  - unfold s_remove_edge. orderly. unfold remove_edge_txn. tidy.
  - orderly. apply orderly_merge_node.
  - orderly. apply orderly_merge_edge.
  - unfold s_extend. apply orderly_bulk; intros; [|apply orderly_extend_edge]. unfold and_handle, s_extend_node. orderly.
  - unfold s_merge. apply orderly_bulk; intros; [|apply orderly_merge_edge]. unfold and_handle. orderly. apply orderly_merge_node.
Qed.

Lemma l_apply_alike c (o : op) h d : in_order d ->
  alike d (l_apply cn ce mn me c o h : P (outcome * handle k)) (sled_apply cn ce mn me o h).
Proof.
  intros Hd. destruct o; try apply alike_refl. cbn [l_apply sled_apply]. unfold lift, and_handle.
  apply alike_bind; [|intros; apply alike_refl]. apply alike_bind; [|intros; apply alike_refl].
  now apply l_remove_node_alike.
Qed.

Lemma l_history_alike cs (l : list op) : forall j h d, in_order d ->
  alike d (l_history cn ce mn me cs j l h : P (list outcome * handle k)) (sled_history cn ce mn me l h).
Proof.
  induction l as [|o l IH]; intros j h d Hd; simpl; [apply alike_refl|].
  apply alike_bind; [now apply l_apply_alike|]. intros fs. apply alike_bind; [|intros; apply alike_refl].
  apply IH. unfold db_of. rewrite (alike_exec _ _ _ (l_apply_alike (cs j) o h d Hd)).
  apply (orderly_exec _ (orderly_apply o h)), Hd.
Qed.

End Orderly.

(** ** A caller that is alone *)
Lemma leaf_history : forall k NP EP SE BE E (cn : codec BE NP) (ce : codec BE EP) mn me
    (cuts : nat -> cutting) (l : list (op k NP EP E)) (h : handle k) (d : db) (faults : list (option SE)),
  (forall x, om_sorted bytes_cmp (tbl x d)) ->
  exec (l_history (BE := BE) cn ce mn me cuts 0 l h) faults d = exec (sled_history cn ce mn me l h) faults d /\
  forall n, crash n (l_history (BE := BE) cn ce mn me cuts 0 l h) faults d = crash n (sled_history cn ce mn me l h) faults d.
Proof.
  intros k NP EP SE BE E cn ce mn me cuts l h d faults H. pose proof (l_history_alike (SE := SE) cn ce mn me cuts l 0 h d H) as A.
  split; [now apply alike_exec|]. intros n. now apply alike_crash.
Qed.
Lemma leaf_readers : forall k NP EP SE BE (cn : codec BE NP) (ce : codec BE EP) (d : db) (faults : list (option SE)),
  (forall x, om_sorted bytes_cmp (tbl x d)) ->
  (forall cuts, exec (l_vertices (k := k) (BE := BE) cuts) faults d = exec s_vertices faults d) /\
  (forall cuts, exec (l_iter_vertices (k := k) cn cuts) faults d = exec (s_iter_vertices cn) faults d) /\
  (forall cuts o, exec (l_iter_edges (k := k) ce cuts o) faults d = exec (s_iter_edges ce o) faults d) /\
  (forall cuts o, exec (l_iter_edges_with_props (k := k) cn ce cuts o) faults d = exec (s_iter_edges_with_props cn ce o) faults d) /\
  (forall cuts g q, exec (l_run (k := k) cn ce cuts g q) faults d = exec (s_run cn ce g q) faults d).
Proof.
  intros k NP EP SE BE cn ce d faults H. repeat split; intros; apply alike_exec.
  - now apply l_vertices_alike.
  - now apply l_iter_vertices_alike.
  - now apply l_iter_edges_alike.
  - now apply l_iter_props_alike.
  - now apply l_run_alike.
Qed.
