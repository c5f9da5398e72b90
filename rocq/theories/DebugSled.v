(** Facts about the Debug output of SledTripleStore. *)
From Coq Require Import Arith NArith List Bool Sorted Lia.
From Verif Require Import Bytes BytesFacts OMap OMapFacts Core IdType IdTypeFacts Store Mem Spec
  CodecFacts ListFacts MemSim History MemTop Prog ProgFacts Sled SledHistory SledDb SledOps SledBulk
  SledRun SledRead SledTop SledMain SledLeak SledTornSpec SledTorn SledTornTop Debug DebugSpec DebugFacts.
Import ListNotations.

Lemma hash_split {V} (l : list (option N * V)) : om_sorted hash_cmp l ->
  exists leak ps, l = map (fun e => (None, e)) leak ++ map (fun he => (Some (fst he), snd he)) ps /\ length leak <= 1 /\
    StronglySorted (fun x y => (fst x < fst y)%N) ps.
Proof.
  intros Hs. destruct l as [|[[h|] v] l].
  - exists [], []. repeat split; auto. constructor.
  - destruct (hash_sorted ((Some h, v) :: l) Hs) as (ps & -> & Hp).
    + intros h' v' [[= <- <-]|Hin]; [discriminate|]. inversion Hs as [|? ? _ Hf]; subst. rewrite Forall_forall in Hf.
      specialize (Hf _ Hin). unfold key_lt in Hf. simpl in Hf. destruct h'; [discriminate|]. discriminate.
    + exists [], ps. auto.
  - inversion Hs as [|? ? Hs' Hf]; subst. destruct (hash_sorted l Hs') as (ps & -> & Hp).
    + intros h' v' Hin. rewrite Forall_forall in Hf. specialize (Hf _ Hin). unfold key_lt in Hf. simpl in Hf.
      destruct h'; discriminate.
    + exists [v], ps. auto.
Qed.

Section Written.
Context {k : idkind} {NP EP SE BE E : Type} (cn : codec BE NP) (ce : codec BE EP).
Context (mn : NP -> NP -> NP) (me : EP -> EP -> EP).
Notation I := (Id k).
Notation T := (triple (Id k)).
Notation err := (sled_error SE BE).
Notation P A := (prog db SE A).
Notation PR A := (prog db SE (result err A)).
Notation op := (op k NP EP E).
Implicit Types t : T.
Implicit Types n : I.
Implicit Types o : op.
Implicit Types h : handle k.

(** Every record has been written by the serialiser. *)
Definition written (d : db) : Prop := forall r b, In (r, b) (t_edge d) -> exists e, ser ce e = Ok b.

Lemma written_insert r b e d : ser ce e = Ok b -> written d -> written (set_tbl TEdge (binsert r b (t_edge d)) d).
Proof. intros Hb H r' b' Hin. simpl in Hin. apply in_insert_weak in Hin. destruct Hin as [[-> ->]|Hin]; eauto. Qed.

Lemma in_remove_weak {V} key x (v : V) m : In (x, v) (bremove key m) -> In (x, v) m.
Proof.
  induction m as [|[y w] m IH]; simpl; auto. destruct (bytes_cmp key y); simpl; tauto.
Qed.

Lemma written_remove r d : written d -> written (set_tbl TEdge (bremove r (t_edge d)) d).
Proof. intros H r' b' Hin. simpl in Hin. apply in_remove_weak in Hin. eauto. Qed.

Lemma written_removals rs d : written d -> written (set_tbl TEdge (fold_left (fun x key => bremove key x) rs (t_edge d)) d).
Proof.
  intros H. assert (forall rs m, (forall r b, In (r, b) m -> exists e, ser ce e = Ok b) ->
    forall r b, In (r, b) (fold_left (fun x key => bremove key x) rs m) -> exists e, ser ce e = Ok b) as G.
  { clear. induction rs as [|x rs IH]; intros m Hm r b; simpl; [apply Hm|]. apply IH. intros r' b' Hin.
    apply in_remove_weak in Hin. eauto. }
  intros r b Hin. simpl in Hin. eapply G; [|exact Hin]. exact H.
Qed.

Lemma written_other x v d : x <> TEdge -> written d -> written (set_tbl x v d).
Proof. intros Hx H. destruct x; try congruence; exact H. Qed.

(** Programs that keep it. *)
Notation keep p := (forall d, written d -> wp (fun _ : SE => True) written (fun _ _ => True) p d).

Lemma keep_bind {A B} (p : P A) (f : A -> P B) : keep p -> (forall a, keep (f a)) -> keep (bind p f).
Proof.
  intros Hp Hf d H. apply wp_bind. eapply wp_mono; [| |apply Hp; exact H]; auto.
Qed.

Lemma keep_ok {A B} (p : PR A) (f : A -> PR B) : keep p -> (forall a, keep (f a)) -> keep (bind_ok p f).
Proof. intros Hp Hf. apply keep_bind; auto. intros [a|e] d H; [now apply Hf|]. simpl. auto. Qed.

Lemma keep_ret {A} (a : A) : keep (Ret a).
Proof. intros d H. simpl. auto. Qed.

Lemma keep_insert x key v : (x = TEdge -> exists e, ser ce e = Ok v) -> keep (tree_insert x key v : PR (option bytes)).
Proof.
  intros Hx d H. assert (written (set_tbl x (binsert key v (tbl x d)) d)).
  { destruct x; try (apply written_other; [discriminate|exact H]). destruct Hx as [e He]; auto. now apply (written_insert key v e). }
  simpl. auto.
Qed.

Lemma keep_remove x key : keep (tree_remove x key : PR (option bytes)).
Proof.
  intros d H. assert (written (set_tbl x (bremove key (tbl x d)) d)).
  { destruct x; try (apply written_other; [discriminate|exact H]). now apply written_remove. }
  simpl. auto.
Qed.

Lemma keep_txn {A} (body : txn A) :
  (forall d a d', written d -> body d = Ok (a, d') -> written d') -> keep (transaction body : PR A).
Proof. intros Hb d H. simpl. destruct (body d) as [[a d']|e] eqn:E0; eauto 6. Qed.

Lemma keep_next {A} (p : PR A) : keep p -> keep (next p).
Proof. intros Hp d H. simpl. auto. Qed.

Lemma keep_for {X S} (f : X -> S -> PR S) l : (forall x s, keep (f x s)) -> forall s, keep (for_ok f l s).
Proof. intros Hf. induction l as [|x l IH]; intros s; cbn [for_ok]; [apply keep_ret|]. apply keep_ok; auto. Qed.

Lemma keep_and_handle {A} (h : handle k) (p : P A) : keep p -> keep (and_handle h p).
Proof. intros Hp. apply keep_bind; auto. intros a. apply keep_ret. Qed.

Lemma keep_insert_node n p : keep (s_insert_node cn n p : PR unit).
Proof.
  unfold s_insert_node. apply keep_ok; [apply keep_ret|intros b]. apply keep_ok; [apply keep_insert; discriminate|].
  intros _. apply keep_ret.
Qed.

Lemma keep_insert_edge t e h : keep (s_insert_edge ce t e h : P (result err unit * handle k)).
Proof.
  unfold s_insert_edge. destruct (draw h) as [i h']. apply keep_and_handle. unfold bincode.
  destruct (ser ce e) as [b|x] eqn:Hs; [|simpl; intros; split; auto]. simpl bind_ok. unfold bind_ok at 1. simpl bind.
  apply keep_ok; [|intros _; apply keep_ret]. apply keep_txn.
  intros d a d' H [= _ <-]. repeat (apply written_other; [discriminate|]). now apply (written_insert _ b e).
Qed.

Lemma keep_remove_node n : keep (s_remove_node n : PR unit).
Proof.
  unfold s_remove_node. apply keep_ok.
  { intros d H. simpl. revert d H. intros d H. apply (keep_for forward_entry); auto. intros kv s. apply keep_next.
    apply keep_ok; [apply keep_ret|intros t]. apply keep_ret. }
  intros f. apply keep_ok.
  { intros d H. simpl. apply (keep_for backward_entry); auto. intros kv s. apply keep_next.
    apply keep_ok; [apply keep_ret|intros t]. apply keep_ret. }
  intros b. apply keep_ok; [|intros _; apply keep_ret]. apply keep_txn.
  intros d a d' H [= _ <-]. exact (written_removals (b_edge b) _ (written_removals (b_edge f) d H)).
Qed.

Lemma keep_remove_edge t : keep (s_remove_edge t : PR unit).
Proof.
  unfold s_remove_edge. apply keep_ok.
  { apply keep_txn. intros d a d' H. unfold remove_edge_txn, t_bind, t_remove, t_ret.
    destruct (bget (encode_spo t) (tbl TSpo d)) as [b|]; intros [= _ <-]; [exact (written_remove b d H)|exact H]. }
  intros _. apply keep_ok; [apply keep_remove|intros r]. apply keep_ok; [apply keep_remove|intros _].
  apply keep_ok; [apply keep_remove|intros _]. destruct r; [|apply keep_ret].
  apply keep_ok; [apply keep_remove|intros _; apply keep_ret].
Qed.

Lemma keep_merge_node n p : keep (s_merge_node cn mn n p : PR unit).
Proof.
  unfold s_merge_node. apply keep_ok; [|intros _; apply keep_ret]. apply keep_txn.
  intros d a d' H. unfold merge_node_txn, t_bind, t_get. destruct (bget (to_be_bytes n) (tbl TNode d)) as [b|].
  - unfold t_bincode. destruct (de cn b) as [q|]; simpl; [|discriminate]. destruct (ser cn (mn q p)) as [c|]; simpl; [|discriminate].
    intros [= _ <-]. exact H.
  - unfold t_bincode. destruct (ser cn p) as [c|]; simpl; [|discriminate]. intros [= _ <-]. exact H.
Qed.

Lemma keep_merge_edge t e h : keep (s_merge_edge ce me t e h : P (result err unit * handle k)).
Proof.
  unfold s_merge_edge. destruct (draw h) as [i h']. apply keep_and_handle.
  apply keep_ok; [|intros _; apply keep_ret]. apply keep_txn.
  assert (forall q (d : db) a d', written d ->
    t_bind (t_bincode (ser ce q)) (fun b => t_bind (t_insert TEdge (to_be_bytes i) b) (fun _ => t_ret (SE := SE) (BE := BE) tt)) d = Ok (a, d') -> written d') as Hput.
  { intros q d a d' H. unfold t_bind, t_bincode. destruct (ser ce q) as [c|] eqn:Hc; simpl; [|discriminate].
    intros [= _ <-]. now apply (written_insert _ c q). }
  intros d a d' H. unfold merge_edge_txn. unfold t_bind at 1, t_insert at 1.
  unfold t_bind at 1, t_insert at 1. unfold t_bind at 1, t_insert at 1.
  set (d1 := set_tbl TOsp _ _). assert (written d1) as H1 by (now do 3 (apply written_other; [discriminate|])).
  destruct (bget (encode_spo t) (tbl TSpo d)) as [old|]; [|now apply Hput].
  unfold t_bind at 1, t_remove at 1. set (d2 := set_tbl TEdge _ _). assert (written d2) as H2 by now apply written_remove.
  destruct (bget old (tbl TEdge d1)) as [v|]; [|now apply Hput].
  unfold t_bind at 1, t_bincode at 1. destruct (de ce v) as [q|]; simpl; [|discriminate]. now apply Hput.
Qed.

Lemma keep_extend_node n p : keep (s_extend_node cn n p : PR unit).
Proof. exact (keep_insert_node n p). Qed.

Lemma keep_extend_edge t e h : keep (s_extend_edge ce t e h : P (result err unit * handle k)).
Proof.
  unfold s_extend_edge. destruct (draw_ulid h) as [i h']. apply keep_and_handle. unfold bincode.
  destruct (ser ce e) as [b|x] eqn:Hs; [|simpl; intros; split; auto]. unfold bind_ok at 1. simpl bind at 1.
  apply keep_ok; [apply keep_insert; eauto|intros _]. apply keep_ok; [apply keep_insert; discriminate|intros r].
  apply keep_ok; [apply keep_insert; discriminate|intros _]. apply keep_ok; [apply keep_insert; discriminate|intros _].
  destruct r; [|apply keep_ret]. apply keep_ok; [apply keep_remove|intros _; apply keep_ret].
Qed.

Lemma keep_for_source {A Er} body (l : list (result Er A)) :
  (forall a h, keep (body a h : P (result err unit * handle k))) -> forall h, keep (for_source body l h).
Proof.
  intros Hb. induction l as [|[a|e] l IH]; intros h; cbn [for_source]; try apply keep_ret. apply keep_bind; auto.
  intros [[r|e] h']; cbn [fst snd]; [apply IH|apply keep_ret].
Qed.

Lemma keep_apply o h : keep (sled_apply cn ce mn me o h : P (outcome (E := E) * handle k)).
Proof.
  destruct o; cbn [sled_apply]; unfold SledHistory.lift; try (apply keep_bind; [|intros rh; apply keep_ret]).
  - apply keep_and_handle, keep_insert_node.
  - apply keep_insert_edge.
  - apply keep_and_handle, keep_remove_node.
  - apply keep_and_handle, keep_remove_edge.
  - apply keep_and_handle, keep_merge_node.
  - apply keep_merge_edge.
  - unfold s_extend, for_nodes_edges. apply keep_bind.
    + apply keep_for_source. intros [i p] h0. apply keep_and_handle, keep_extend_node.
    + intros [[r|e] h']; cbn [fst snd]; [|apply keep_ret]. apply keep_for_source. intros [t e] h0. apply keep_extend_edge.
  - unfold s_merge, for_nodes_edges. apply keep_bind.
    + apply keep_for_source. intros [i p] h0. apply keep_and_handle, keep_merge_node.
    + intros [[r|e] h']; cbn [fst snd]; [|apply keep_ret]. apply keep_for_source. intros [t e] h0. apply keep_merge_edge.
Qed.

Lemma keep_history l : forall h, keep (sled_history cn ce mn me l h : P (list (outcome (E := E)) * handle k)).
Proof.
  induction l as [|o l IH]; intros h; cbn [sled_history]; [apply keep_ret|]. apply keep_bind; [apply keep_apply|].
  intros rh. apply keep_bind; [apply IH|intros rsh; apply keep_ret].
Qed.

Lemma written_lives (ls : list (life (k := k) (NP := NP) (EP := EP) (SE := SE) (E := E))) :
  forall d, written d -> written (lives cn ce mn me ls d).
Proof.
  induction ls as [|f ls IH]; intros d H; simpl; auto. apply IH. unfold live.
  exact (wp_crash _ _ _ _ (lf_steps f) (lf_faults f) d (allowed_all _) (keep_history (lf_ops f) (lf_handle f) d H)).
Qed.

Lemma written_history l h faults d : written d ->
  written (db_of (sled_history cn ce mn me l h : P (list (outcome (E := E)) * handle k)) faults d).
Proof.
  intros H. pose proof (wp_exec _ _ _ _ faults d (allowed_all _) (keep_history l h d H)) as W.
  apply W.
Qed.

Lemma written_new : written db_new.
Proof. intros r b []. Qed.

End Written.

Section Page.
Context {k : idkind} {NP EP SE BE : Type} (cn : codec BE NP) (ce : codec BE EP) (hash : bytes -> N).
Context (Hce : codec_ok ce).
Notation I := (Id k).
Notation T := (triple (Id k)).
Notation G := (graph k NP EP).
Notation sabs := (sabs (k := k) cn ce).
Notation ln := (line I unit bytes).
Notation written := (written ce).
Let BC := bytes_cmp_ok.
Implicit Types t u : T.
Implicit Types d : db.

Lemma idx_entry U d o key r : faire (k := k) ce U d -> In (key, r) (idx o d) -> exists t, key = enc o t /\ rid o d t = Some r.
Proof.
  intros Fe H. destruct (fe_keys ce _ _ Fe o key r H) as [t ->]. exists t. split; auto. unfold rid.
  apply (get_iff_in BC); [apply (fe_isorted ce _ _ Fe)|exact H].
Qed.

Lemma sled_hash_get U d t r : faire (k := k) ce U d -> rid SPO d t = Some r ->
  bget r (sled_hashes hash (t_spo d)) = Some (hash (encode_spo t)).
Proof.
  intros Fe H. unfold sled_hashes. apply (collect_get BC).
  - intros w Hw. apply in_map_iff in Hw. destruct Hw as ([key j] & [= <- <-] & Hin).
    destruct (idx_entry U d SPO key j Fe Hin) as (u & -> & Hu). now rewrite (fe_inj ce _ _ Fe SPO SPO u t j Hu H).
  - apply in_map_iff. exists (encode_spo t, r). split; auto. exact (get_in BC _ _ _ H).
Qed.

Lemma sled_hash_none U d r : faire (k := k) ce U d -> (forall t, rid SPO d t <> Some r) ->
  bget r (sled_hashes hash (t_spo d)) = None.
Proof.
  intros Fe H. unfold sled_hashes. apply (collect_none BC). intros v Hin. apply in_map_iff in Hin.
  destruct Hin as ([key j] & [= -> <-] & Hin). destruct (idx_entry U d SPO key r Fe Hin) as (u & _ & Hu). now apply (H u).
Qed.

Lemma sled_nodes_listed U d : fair (k := k) cn ce U d ->
  node_lines (fun _ p => p = tt) (sabs d) (map (fun kv => (id_of (fst kv), tt)) (t_node d)).
Proof.
  intros [Fn _].
  assert (forall key b, In (key, b) (t_node d) -> exists (i : I) p, key = to_be_bytes i /\ id_of key = i /\ nod cn d i = Some p) as Hn.
  { intros key b Hin. destruct (fn_items cn _ Fn key b Hin) as (i & p & -> & Hp'). exists i, p. split; auto. split.
    - unfold id_of. now rewrite try_from_to_be_bytes.
    - unfold nod. rewrite (proj2 (get_iff_in BC _ _ _ (fn_sorted cn _ Fn)) Hin). now rewrite Hp'. }
  split; [|split].
  - pose proof (fn_sorted cn _ Fn) as S. unfold om_sorted in S.
    assert (forall kv, In kv (t_node d) -> exists i : I, fst kv = to_be_bytes i) as Hall.
    { intros [key b] Hin. destruct (Hn key b Hin) as (i & p & -> & _). simpl. eauto. }
    clear Hn. revert Hall. induction S as [|[a b] l S IH F]; intros Hall; simpl; constructor.
    * apply IH. intros kv Hin. apply Hall. now right.
    * apply Forall_forall. intros x Hx. apply in_map_iff in Hx. destruct Hx as ([a' b'] & <- & Hin). simpl.
      rewrite Forall_forall in F. specialize (F _ Hin). unfold key_lt in F. simpl in F.
      destruct (Hall _ (or_introl eq_refl)) as [i Hi]. destruct (Hall _ (or_intror Hin)) as [j Hj]. simpl in Hi, Hj. subst.
      unfold id_of. rewrite !try_from_to_be_bytes. apply id_cmp_lt. rewrite to_be_bytes_cmp in F. exact F.
  - intros i p Hin. apply in_map_iff in Hin. destruct Hin as ([key b] & [= <- <-] & Hin).
    destruct (Hn key b Hin) as (i & p & -> & Hi & Hp'). simpl. rewrite Hi. exists p. auto.
  - intros i q Hq. exists tt. simpl in Hq. unfold nod in Hq. destruct (bget (to_be_bytes i) (t_node d)) as [b|] eqn:E0; [|discriminate].
    apply (get_in BC) in E0. apply in_map_iff. exists (to_be_bytes i, b). split; auto. simpl. unfold id_of.
    now rewrite try_from_to_be_bytes.
Qed.

Lemma sled_order_sorted U d o : faire (k := k) ce U d -> StronglySorted (edge_lt o) (map (fun kv => (dec o (fst kv) : T)) (idx o d)).
Proof.
  intros Fe. assert (forall l : list (bytes * bytes), (forall x i, In (x, i) l -> exists t : T, x = enc o t) -> om_sorted bytes_cmp l ->
      StronglySorted (edge_lt o) (map (fun kv => (dec o (fst kv) : T)) l)) as H.
  { induction l as [|[x i] l IH]; intros Hk Hs; simpl; [constructor|].
    inversion Hs as [|? ? Hs' Hf]; subst. constructor.
    - apply IH; auto. intros d' i' Hin. apply (Hk d' i'). now right.
    - apply Forall_forall. intros t Ht. apply in_map_iff in Ht. destruct Ht as ([d' i'] & <- & Hin).
      rewrite Forall_forall in Hf. specialize (Hf _ Hin). unfold key_lt in Hf. simpl in Hf.
      destruct (Hk x i (or_introl eq_refl)) as [u ->]. destruct (Hk d' i' (or_intror Hin)) as [u' ->].
      simpl. rewrite !dec_enc. now apply enc_lt. }
  apply H; [|apply (fe_isorted ce _ _ Fe)]. intros x i. apply (fe_keys ce _ _ Fe).
Qed.

Lemma sled_order_in U d o t : faire (k := k) ce U d -> In t (map (fun kv => (dec o (fst kv) : T)) (idx o d)) <-> rid o d t <> None.
Proof.
  intros Fe. rewrite in_map_iff. split.
  - intros ([x r] & <- & Hin). destruct (idx_entry U d o x r Fe Hin) as (u & -> & Hu). simpl. rewrite dec_enc. congruence.
  - destruct (rid o d t) as [r|] eqn:E0; [|congruence]. intros _. exists (enc o t, r). split; [simpl; apply dec_enc|].
    exact (get_in BC _ _ _ E0).
Qed.

Lemma sled_edges_listed U d o : faire (k := k) ce U d -> indexes_agree (k := k) d ->
  edge_lines (sabs d) o (map (fun kv => dec o (fst kv)) (idx o d)).
Proof.
  intros Fe A. split; [now apply (sled_order_sorted U)|]. intros t. rewrite (sled_order_in U) by auto. simpl. unfold SledDb.view.
  rewrite A. destruct (rid SPO d t) as [r|] eqn:E0; [|tauto]. split; [|congruence]. intros _. now apply (fe_rec ce _ _ Fe SPO t).
Qed.

Lemma record_ser U d r b : faire (k := k) ce U d -> written d -> In (r, b) (t_edge d) ->
  exists e, ser ce e = Ok b /\ SledDb.record ce d r = Some e.
Proof.
  intros Fe W H. destruct (W r b H) as [e He]. exists e. split; auto. unfold SledDb.record.
  rewrite (proj2 (get_iff_in BC _ _ _ (fe_sorted ce _ _ Fe)) H). now rewrite (Hce _ _ He).
Qed.

(** The records, with the edges they belong to. *)
Lemma sled_props_listed U d : faire (k := k) ce U d -> written d ->
  exists leak ps, sled_edge_data (sled_hashes hash (t_spo d)) (t_edge d) =
      map (fun e => (None, e)) leak ++ map (fun he => (Some (fst he), snd he)) ps /\
    prop_lines hash (fun e b => ser ce e = Ok b) (sabs d) ps /\
    length leak <= 1 /\ (leak = [] <-> forall r, bget r (t_edge d) <> None -> exists t, rid SPO d t = Some r).
Proof.
  intros Fe W. unfold sled_edge_data.
  set (l := map (fun ie => (bget (fst ie) (sled_hashes hash (t_spo d)), snd ie)) (t_edge d)).
  assert (forall r, (exists t, rid SPO d t = Some r) \/ (forall t, rid SPO d t <> Some r)) as Dec.
  { intros r. destruct (bget r (sled_hashes hash (t_spo d))) as [h|] eqn:E0.
    - left. apply (get_in BC) in E0. apply collect_from in E0. apply in_map_iff in E0.
      destruct E0 as ([key j] & [= -> _] & Hin). destruct (idx_entry U d SPO key r Fe Hin) as (t & _ & Ht). eauto.
    - right. intros t Ht. rewrite (sled_hash_get U d t r Fe Ht) in E0. discriminate. }
  assert (forall h b, In (Some h, b) l <-> exists t r, rid SPO d t = Some r /\ In (r, b) (t_edge d) /\ h = hash (encode_spo t)) as Hl.
  { intros h b. unfold l. rewrite in_map_iff. split.
    - intros ([r b'] & [= Hh <-] & Hin). destruct (Dec r) as [[t Ht]|Hn].
      + rewrite (sled_hash_get U d t r Fe Ht) in Hh. injection Hh as <-. eauto.
      + rewrite (sled_hash_none U d r Fe Hn) in Hh. discriminate.
    - intros (t & r & Ht & Hin & ->). exists (r, b). simpl. rewrite (sled_hash_get U d t r Fe Ht). auto. }
  assert (forall b, In (None, b) l <-> exists r, (forall t, rid SPO d t <> Some r) /\ In (r, b) (t_edge d)) as Hln.
  { intros b. unfold l. rewrite in_map_iff. split.
    - intros ([r b'] & [= Hh <-] & Hin). exists r. split; auto. intros t Ht. rewrite (sled_hash_get U d t r Fe Ht) in Hh. discriminate.
    - intros (r & Hn & Hin). exists (r, b). simpl. rewrite (sled_hash_none U d r Fe Hn). auto. }
  destruct (hash_split (om_collect hash_cmp l)) as (leak & ps & Hps & Hlen & Hs).
  { apply (collect_sorted hash_cmp_ok). }
  exists leak, ps. split; auto. split; [|split; auto].
  - split; auto. split.
    + intros h b Hin. assert (In (Some h, b) l) as H.
      { apply (collect_from (cmp := hash_cmp)). rewrite Hps. apply in_app_iff. right. apply in_map_iff. exists (h, b). auto. }
      apply Hl in H. destruct H as (t & r & Ht & Hr & ->). destruct (record_ser U d r b Fe W Hr) as (e & He & Hrec).
      exists t, e. simpl. unfold SledDb.view. now rewrite Ht.
    + intros t e Ht. simpl in Ht. unfold SledDb.view in Ht. destruct (rid SPO d t) as [r|] eqn:E0; [|discriminate].
      unfold SledDb.record in Ht. destruct (bget r (t_edge d)) as [b|] eqn:E1; [|discriminate].
      apply (get_in BC) in E1. destruct (collect_has hash_cmp_ok l (Some (hash (encode_spo t))) b) as [w Hw].
      { apply Hl. eauto. }
      apply (get_in hash_cmp_ok) in Hw. rewrite Hps, in_app_iff, !in_map_iff in Hw.
      destruct Hw as [(b' & X & _)|([h' w'] & [= X1 X2] & Hin)]; [discriminate|]. exists w'. now rewrite <- X1.
  - split.
    + intros -> r Hr. destruct (Dec r) as [H|H]; auto. exfalso. destruct (bget r (t_edge d)) as [b|] eqn:E0; [|congruence].
      destruct (collect_has hash_cmp_ok l None b) as [w Hw]. { apply Hln. exists r. split; auto. now apply (get_in BC). }
      apply (get_in hash_cmp_ok) in Hw. rewrite Hps in Hw. simpl in Hw. apply in_map_iff in Hw. destruct Hw as (x & X & _). discriminate.
    + intros H. destruct leak as [|b leak]; auto. exfalso. assert (In (None, b) l) as Hin.
      { apply (collect_from (cmp := hash_cmp)). rewrite Hps. now left. }
      apply Hln in Hin. destruct Hin as (r & Hn & Hr). destruct (H r) as [t Ht]; [|now apply (Hn t)].
      rewrite (proj2 (get_iff_in BC _ _ _ (fe_sorted ce _ _ Fe)) Hr). discriminate.
Qed.

Definition sled_lines d : list ln :=
  [Title TStore; Title TNodes] ++ map (fun kv => NodeLine (id_of (fst kv)) tt) (t_node d) ++ [Title TProps] ++
    map (fun he => PropLine (fst he) (snd he)) (sled_edge_data (sled_hashes hash (t_spo d)) (t_edge d)) ++
    (Title (TEdges SPO) :: map (fun kv => EdgeLine (dec SPO (fst kv)) (om_get bytes_cmp (snd kv) (sled_hashes hash (t_spo d)))) (idx SPO d)) ++
    (Title (TEdges POS) :: map (fun kv => EdgeLine (dec POS (fst kv)) (om_get bytes_cmp (snd kv) (sled_hashes hash (t_spo d)))) (idx POS d)) ++
    (Title (TEdges OSP) :: map (fun kv => EdgeLine (dec OSP (fst kv)) (om_get bytes_cmp (snd kv) (sled_hashes hash (t_spo d)))) (idx OSP d)).

Lemma sled_page U d : sgood (k := k) cn ce U d -> written d ->
  exists leak, s_prints ce hash (sabs d) leak (sled_lines d) /\
    length leak <= 1 /\ (leak = [] <-> forall r, bget r (t_edge d) <> None -> exists t, rid SPO d t = Some r).
Proof.
  intros [Hf A] W. pose proof Hf as [Fn Fe]. destruct (sled_props_listed U d Fe W) as (leak & ps & Hps & Hp & Hk).
  exists leak. split; auto. exists (map (fun kv => (id_of (fst kv), tt)) (t_node d)), ps, (fun o => map (fun kv => dec o (fst kv)) (idx o d)).
  split; [exact (sled_nodes_listed U d Hf)|]. split; [|split]; auto.
  - intros o. now apply (sled_edges_listed U).
  - assert (forall o, map (fun kv => EdgeLine (NP := unit) (EP := bytes) (dec o (fst kv) : T) (bget (snd kv) (sled_hashes hash (t_spo d)))) (idx o d) =
      map (fun t => EdgeLine t (Some (hash (encode_spo t)))) (map (fun kv => dec o (fst kv)) (idx o d))) as He.
    { intros o. rewrite map_map. apply map_ext_in. intros [key r] Hin. destruct (idx_entry U d o key r Fe Hin) as (t & -> & Ht).
      simpl. rewrite dec_enc. f_equal. rewrite A in Ht. exact (sled_hash_get U d t r Fe Ht). }
    unfold sled_lines, page. rewrite Hps, map_app, (He SPO), (He POS), (He OSP), !map_map. rewrite <- !app_assoc. reflexivity.
Qed.

(** The same with orders that may differ on some edges. *)
Lemma sled_page_but U K d : fair (k := k) cn ce U d -> off K d -> written d ->
  exists leak, s_prints_but ce hash K (sabs d) leak (sled_lines d) /\
    length leak <= 1 /\ (leak = [] <-> forall r, bget r (t_edge d) <> None -> exists t, rid SPO d t = Some r).
Proof.
  intros Hf [A B] W. pose proof Hf as [Fn Fe]. destruct (sled_props_listed U d Fe W) as (leak & ps & Hps & Hp & Hk).
  exists leak. split; auto.
  assert (forall t, g_edge (sabs d) t <> None <-> rid SPO d t <> None) as Hg.
  { intros t. simpl. unfold SledDb.view. destruct (rid SPO d t) as [r|] eqn:E0; [|tauto].
    split; [congruence|]. intros _. now apply (fe_rec ce _ _ Fe SPO t). }
  exists (map (fun kv => (id_of (fst kv), tt)) (t_node d)), ps, (fun o => map (fun kv => dec o (fst kv)) (idx o d)),
    (fun o t => match rid o d t with Some r => bget r (sled_hashes hash (t_spo d)) | None => None end).
  split; [exact (sled_nodes_listed U d Hf)|]. split; [exact Hp|]. split; [|split; [|split]].
  - split; [apply (sled_order_sorted U); auto|]. intros t. now rewrite (sled_order_in U) by auto.
  - intros t Ht. apply (sled_order_in U d SPO t Fe) in Ht. destruct (rid SPO d t) as [r|] eqn:E0; [|congruence].
    now apply (sled_hash_get U d t r Fe).
  - intros o. split; [apply (sled_order_sorted U); auto|]. split; [|split].
    + intros t Ht. apply (sled_order_in U d o t Fe) in Ht. apply Hg. now apply (B o).
    + intros t Ht N. apply (sled_order_in U d o t Fe). rewrite (A o t N). now apply Hg.
    + intros t Ht. apply (sled_order_in U d o t Fe) in Ht. destruct (rid o d t) as [r|] eqn:E0; [|congruence].
      destruct (bget r (sled_hashes hash (t_spo d))) as [h|] eqn:E1.
      * left. pose proof E1 as E2. apply (get_in BC) in E2. apply collect_from in E2. apply in_map_iff in E2.
        destruct E2 as ([key j] & [= -> _] & Hin). destruct (idx_entry U d SPO key r Fe Hin) as (u & _ & Hu).
        rewrite (fe_inj ce _ _ Fe SPO o u t r Hu E0) in Hu. rewrite (sled_hash_get U d t r Fe Hu) in E1. congruence.
      * right. split; auto. destruct (in_dec triple_eq_dec t K) as [H|H]; auto. exfalso.
        rewrite (A o t H) in E0. rewrite (sled_hash_get U d t r Fe E0) in E1. discriminate.
  - assert (forall o, map (fun kv => EdgeLine (NP := unit) (EP := bytes) (dec o (fst kv) : T) (bget (snd kv) (sled_hashes hash (t_spo d)))) (idx o d) =
      map (fun t => EdgeLine t (match rid o d t with Some r => bget r (sled_hashes hash (t_spo d)) | None => None end))
        (map (fun kv => dec o (fst kv)) (idx o d))) as He.
    { intros o. rewrite map_map. apply map_ext_in. intros [key r] Hin. destruct (idx_entry U d o key r Fe Hin) as (t & -> & Ht).
      simpl. rewrite dec_enc. now rewrite Ht. }
    unfold sled_lines. rewrite Hps, map_app, (He SPO), (He POS), (He OSP). cbn [flat_map]. rewrite app_nil_r, !map_map, <- !app_assoc. reflexivity.
Qed.

End Page.

Section Top.
Context {k : idkind} {NP EP SE BE E : Type} (cn : codec BE NP) (ce : codec BE EP) (hash : bytes -> N).
Context (mn : NP -> NP -> NP) (me : EP -> EP -> EP).
Notation I := (Id k).
Notation T := (triple (Id k)).
Notation G := (graph k NP EP).
Notation sabs := (sabs (k := k) cn ce).
Notation ln := (line I unit bytes).
Notation left_by := (left_by (k := k) SE E cn ce mn me).
Notation debug := (s_debug (k := k) (SE := SE) (BE := BE) hash).
Let BC := bytes_cmp_ok.
Implicit Types d : db.
Implicit Types g : G.

Lemma debug_readonly faults d : db_of debug faults d = d.
Proof.
  apply readonly_exec. unfold s_debug. apply readonly_bind; [|intros r; constructor]. unfold s_debug_lines.
  assert (forall x, readonly (s_entries x : prog db SE (result (sled_error SE BE) (list (bytes * bytes))))) as He.
  { intros x. constructor. intros d'. apply readonly_for_ok. intros kv acc. constructor; [reflexivity| |]; intros; constructor. }
  assert (forall dc x hs, readonly (s_edge_lines dc x hs : prog db SE (result (sled_error SE BE) (list ln)))) as Hd.
  { intros dc x hs. constructor. intros d'. apply readonly_for_ok. intros kv acc. constructor; [reflexivity| |intros; constructor].
    intros _. apply readonly_bind_ok; [constructor|intros t; constructor]. }
  apply readonly_bind_ok.
  { constructor. intros d'. apply readonly_for_ok. intros kv acc. constructor; [reflexivity| |intros; constructor].
    intros _. apply readonly_bind_ok; [constructor|intros t; constructor]. }
  intros nodes. apply readonly_bind_ok; [apply He|intros spo]. apply readonly_bind_ok; [apply He|intros edges].
  do 3 (apply readonly_bind_ok; [apply Hd|intros]). constructor.
Qed.

(** A page, or fmt::Error after a failure of the storage. *)
Lemma debug_fair U d : fair (k := k) cn ce U d -> forall faults,
  ret_of debug faults d = Ok (sled_lines hash d) \/
  (ret_of debug faults d = Err tt /\ exists x, In (Some x) faults).
Proof.
  intros Hf faults. pose proof (rd_debug (SE := SE) (BE := BE) cn ce hash U (fun x => In (Some x) faults) d Hf) as H.
  pose proof (wp_exec _ _ _ _ faults d (fun x Hx => Hx) H) as (_ & W & _).
  unfold s_debug. rewrite ret_of_bind. unfold ret_of at 1. destruct W as [->|(x & Hx & ->)]; simpl; [left|right]; eauto.
Qed.

Lemma debug_lives (ls : list (life (k := k) (NP := NP) (EP := EP) (SE := SE) (E := E))) :
  codec_ok cn -> codec_ok ce -> NoDup (life_keys ls) ->
  exists l, forall faults, let r := ret_of debug faults (lives cn ce mn me ls db_new) in
    r = Ok l \/ (r = Err tt /\ exists x, In (Some x) faults).
Proof.
  intros Hn He Hd. destruct (good_new (k := k) cn ce nothing) as [G0 A0].
  pose proof (fair_lives cn ce Hn He mn me ls nothing db_new Hd (fun _ _ H => H) G0) as Hf.
  exists (sled_lines hash (lives cn ce mn me ls db_new)). intros faults. exact (debug_fair _ _ Hf faults).
Qed.

Lemma left_good d : codec_ok cn -> codec_ok ce -> left_by d -> (exists U, sgood (k := k) cn ce U d) /\ written ce d.
Proof.
  intros Hn He [ls Hd Hx|h l faults Hd Hno].
  - split; [|apply written_lives, written_new]. destruct (good_new (k := k) cn ce nothing) as [G0 A0].
    pose proof (fair_lives cn ce Hn He mn me ls nothing db_new Hd (fun _ _ H => H) G0) as Hf.
    destruct (moments_lives cn ce Hn He mn me ls nothing db_new Hd (fun _ _ H => H) G0 A0 Hx) as [A _].
    eexists. split; eauto.
  - split; [|apply written_history, written_new]. destruct (good_history cn ce mn me h l faults Hn He Hd Hno) as (_ & U & Hg & _).
    eauto.
Qed.

Lemma s_prints_equiv g g' leak l : g_equiv g g' -> s_prints ce hash g leak l -> s_prints ce hash g' leak l.
Proof.
  intros [E1 E2] (ns & ps & es & (A1 & A2 & A3) & (B1 & B2 & B3) & C & ->). exists ns, ps, es.
  split; [|split; [|split]]; auto.
  - split; [exact A1|]. split.
    + intros i p H. rewrite <- E1. now apply A2.
    + intros i q. rewrite <- E1. apply A3.
  - split; [exact B1|]. split.
    + intros h e H. destruct (B2 _ _ H) as (t & q & Hq & X). exists t, q. now rewrite <- E2.
    + intros t q. rewrite <- E2. apply B3.
  - intros o. destruct (C o) as [C1 C2]. split; auto. intros t. now rewrite <- E2.
Qed.

(** Every record belongs to an edge: counted. *)
Lemma no_leak_count U d : fair (k := k) cn ce U d ->
  ((forall r, bget r (t_edge d) <> None -> exists t : T, rid SPO d t = Some r) <->
   length (t_edge d) = length (now SE (s_iter_edges (k := k) ce SPO) d)).
Proof.
  intros Hg. assert (exists L, leaky (k := k) L d) as [L HL].
  { destruct Hg as [_ Fe].
    set (free := fun r => match bget r (sled_hashes hash (t_spo d)) with Some _ => false | None => true end).
    assert (forall r, free r = true <-> forall t : T, rid SPO d t <> Some r) as Hfree.
    { intros r. unfold free. split.
      - intros H t Ht. rewrite (sled_hash_get ce hash U d t r Fe Ht) in H. discriminate.
      - intros H. now rewrite (sled_hash_none ce hash U d r Fe H). }
    exists (filter free (map fst (t_edge d))).
    assert (forall r, In r (map fst (t_edge d)) <-> bget r (t_edge d) <> None) as Hk.
    { intros r. rewrite in_map_iff. split.
      - intros ([r' v] & <- & Hin). apply (get_iff_in BC _ _ _ (fe_sorted ce _ _ Fe)) in Hin. simpl. congruence.
      - intros H. destruct (bget r (t_edge d)) as [v|] eqn:Hv; [|congruence]. exists (r, v). split; auto.
        now apply (get_in BC). }
    split.
    - apply NoDup_filter. apply map_NoDup.
      + intros [a v] [b w] Ha Hb E0. simpl in E0. subst b. f_equal.
        apply (get_iff_in BC _ _ _ (fe_sorted ce _ _ Fe)) in Ha, Hb. congruence.
      + eapply sorted_NoDup; [|exact (fe_sorted ce _ _ Fe)]. intros x Hx. unfold key_lt in Hx.
        rewrite (cmp_refl BC) in Hx. discriminate.
    - intros r. rewrite filter_In, Hk, Hfree. split.
      + intros H. destruct (free r) eqn:E0; [left; split; [exact H|now apply Hfree]|right].
        unfold free in E0. destruct (bget r (sled_hashes hash (t_spo d))) as [h|] eqn:E1; [|discriminate].
        apply (get_in BC) in E1. apply collect_from in E1. apply in_map_iff in E1.
        destruct E1 as ([key j] & [= -> _] & Hin). destruct (idx_entry ce U d SPO key r Fe Hin) as (t & _ & Ht). eauto.
      + intros [[H _]|[t Ht]]; auto. pose proof (fe_rec ce _ _ Fe _ _ _ Ht) as H. unfold SledDb.record in H.
        destruct (bget r (t_edge d)); congruence.
    - intros r t H. apply filter_In in H. destruct H as [_ H]. now apply Hfree. }
  assert (lists_edges SPO (now SE (s_iter_edges (k := k) (BE := BE) ce SPO) d) (g_edge (sabs d))) as Hl.
  { rewrite (rds_now _ _ _ (rds_iter_edges ce never d SPO)). destruct Hg as [_ Fe]. eapply fair_edges; eauto. }
  rewrite (listed_count (SE := SE) cn ce U d L SPO Hg HL Hl). split.
  - intros H. destruct L as [|r L]; [apply Nat.add_0_r|]. exfalso. destruct (H r) as [t Ht].
    + apply (lk_recs _ _ HL). left. now left.
    + exact (lk_lost _ _ HL r t (or_introl eq_refl) Ht).
  - intros H r Hr. apply (lk_recs _ _ HL) in Hr. destruct Hr as [Hr|Hr]; auto. destruct L; [destruct Hr|simpl in H; lia].
Qed.

Lemma sled_prints d g : codec_ok cn -> codec_ok ce -> left_by d -> sled_shows SE cn ce d g ->
  exists leak l, ret_of debug [] d = Ok l /\ s_prints ce hash g leak l /\ length leak <= 1 /\
    (leak = [] <-> length (t_edge d) = length (now SE (s_iter_edges (k := k) ce SPO) d)).
Proof.
  intros Hn He Hl Hs. destruct (left_good d Hn He Hl) as [[U Hg] W].
  destruct (sled_page cn ce hash He U d Hg W) as (leak & Hp & Hlen & Hk).
  exists leak, (sled_lines hash d). split; [|split; [|split]]; auto.
  - destruct (debug_fair U d (proj1 Hg) []) as [H|[_ [x []]]]. exact H.
  - eapply s_prints_equiv; [|exact Hp]. eapply sled_shows_fun; [|exact Hs]. exact (good_shows (SE := SE) cn ce U d Hg).
  - rewrite Hk. apply (no_leak_count U). exact (proj1 Hg).
Qed.

Lemma debug_torn (ls : list (life (k := k) (NP := NP) (EP := EP) (SE := SE) (E := E))) :
  codec_ok cn -> codec_ok ce -> NoDup (life_keys ls) ->
  let d := lives cn ce mn me ls db_new in
  exists K L g n leak l, gone (SE := SE) (BE := BE) mn me (map lf_ops ls) [] g_empty K g n /\
    shows_but SE cn ce K d g /\ incl K L /\ length L = n /\ n <= length (extends_of (flat_map lf_ops ls)) /\
    incl L (extended_edges (flat_map lf_ops ls)) /\
    ret_of debug [] d = Ok l /\ s_prints_but ce hash K g leak l /\ length leak <= 1 /\
    (leak = [] <-> length (t_edge d) = length (now SE (s_iter_edges (k := k) ce SPO) d)).
Proof.
  intros Hn He Hd d.
  destruct (good_new (k := k) cn ce nothing) as [G0 A0].
  destruct (lives_last cn ce Hn He mn me ls nothing [] db_new Hd (fun _ _ H => H) G0 (off_agree _ A0)) as (Hf & K & n & Hg & Ho).
  apply (fun H => gone_start (SE := SE) (BE := BE) mn me _ _ _ _ _ _ H g_empty (abs_new cn ce)) in Hg.
  destruct (gone_torn mn me _ _ _ _ _ _ Hg) as (H1 & L & H2 & H3 & H4).
  rewrite <- flat_map_concat_map in H1, H4. rewrite app_nil_r in H3. fold d in Hf, Hg, Ho.
  assert (written ce d) as W by apply written_lives, written_new.
  destruct (sled_page_but cn ce hash He _ K d Hf Ho W) as (leak & Hp & Hlen & Hk).
  exists K, L, (sabs d), n, leak, (sled_lines hash d). split; [exact Hg|]. split; [eapply off_shows; eauto|].
  do 4 (split; auto). split; [|split; [exact Hp|split; [exact Hlen|]]].
  - destruct (debug_fair _ d Hf []) as [H|[_ [x []]]]. exact H.
  - rewrite Hk. now apply (no_leak_count (plus_keys nothing (life_keys ls))).
Qed.

(** What of [g] can be printed. *)
Definition printed g : graph k unit bytes :=
  Graph (fun i => match g_node g i with Some _ => Some tt | None => None end)
        (fun t => match g_edge g t with Some e => ok_value (ser ce e) | None => None end).

Lemma printed_prints g l : s_prints ce hash g [] l -> (forall t e, g_edge g t = Some e -> exists b, ser ce e = Ok b) ->
  prints hash (printed g) l.
Proof.
  intros (ns & ps & es & (A1 & A2 & A3) & (B1 & B2 & B3) & C & ->) Hser. exists ns, ps, es. split; [|split; [|split]]; auto.
  - split; [exact A1|]. split.
    + intros i p H. destruct (A2 _ _ H) as (q & Hq & ->). exists tt. simpl. now rewrite Hq.
    + intros i q H. simpl in H. destruct (g_node g i) as [p|] eqn:E0; [|discriminate]. eauto.
  - split; [exact B1|]. split.
    + intros h e H. destruct (B2 _ _ H) as (t & q & Hq & <- & Hs). exists t, e. simpl. rewrite Hq, Hs. auto.
    + intros t q H. simpl in H. destruct (g_edge g t) as [e|] eqn:E0; [|discriminate]. eauto.
  - intros o. destruct (C o) as [C1 C2]. split; auto. intros t. rewrite C2. simpl.
    destruct (g_edge g t) as [e|] eqn:E0; [|tauto]. destruct (Hser t e E0) as [b ->]. simpl. split; discriminate.
Qed.

Lemma sled_same d d' g g' : codec_ok cn -> codec_ok ce ->
  left_by d -> sled_shows SE cn ce d g -> left_by d' -> sled_shows SE cn ce d' g' ->
  length (t_edge d) = length (now SE (s_iter_edges (k := k) ce SPO) d) ->
  length (t_edge d') = length (now SE (s_iter_edges (k := k) ce SPO) d') ->
  no_collision hash g -> no_collision hash g' ->
  (ret_of debug [] d = ret_of debug [] d' <->
   (forall i, g_node g i = None <-> g_node g' i = None) /\ forall t, g_edge g t = g_edge g' t).
Proof.
  intros Hn He Hl Hs Hl' Hs' Hk Hk' Hc Hc'.
  destruct (sled_prints d g Hn He Hl Hs) as (leak & l & -> & Hp & _ & X). rewrite (proj2 X Hk) in Hp.
  destruct (sled_prints d' g' Hn He Hl' Hs') as (leak' & l' & -> & Hp' & _ & X'). rewrite (proj2 X' Hk') in Hp'.
  assert (forall d g, left_by d -> sled_shows SE cn ce d g -> forall t e, g_edge g t = Some e -> exists b, ser ce e = Ok b) as Hser.
  { clear - Hn He. intros d g Hl Hs t e Ht. destruct (left_good d Hn He Hl) as [[U Hg] W].
    destruct (sled_shows_fun cn ce d g (sabs d) Hs (good_shows (SE := SE) cn ce U d Hg)) as [_ Eq]. rewrite Eq in Ht. simpl in Ht.
    unfold SledDb.view in Ht. destruct (rid SPO d t) as [r|] eqn:E0; [|discriminate]. unfold SledDb.record in Ht.
    destruct (bget r (t_edge d)) as [b|] eqn:E1; [|discriminate]. apply (get_in bytes_cmp_ok) in E1. destruct (W r b E1) as [e' He'].
    rewrite (He _ _ He') in Ht. injection Ht as <-. eauto. }
  pose proof (printed_prints g l Hp (Hser d g Hl Hs)) as P. pose proof (printed_prints g' l' Hp' (Hser d' g' Hl' Hs')) as P'.
  assert (forall g, (forall t e, g_edge g t = Some e -> exists b, ser ce e = Ok b) ->
    forall t, g_edge (printed g) t <> None <-> g_edge g t <> None) as Hd.
  { intros x Hx t. simpl. destruct (g_edge x t) as [e|] eqn:E0; [|tauto]. destruct (Hx t e E0) as [b ->]. simpl. split; discriminate. }
  assert (no_collision hash (printed g)) as Q.
  { intros t u Ht Hu. apply Hc; [now apply (Hd g (Hser d g Hl Hs))|now apply (Hd g (Hser d g Hl Hs))]. }
  assert (no_collision hash (printed g')) as Q'.
  { intros t u Ht Hu. apply Hc'; [now apply (Hd g' (Hser d' g' Hl' Hs'))|now apply (Hd g' (Hser d' g' Hl' Hs'))]. }
  pose proof (prints_same hash _ _ _ _ Q Q' P P') as S. split.
  - intros [= El]. apply S in El. destruct El as [E1 E2]. split.
    + intros i. specialize (E1 i). simpl in E1. destruct (g_node g i), (g_node g' i); split; congruence.
    + intros t. specialize (E2 t). simpl in E2. destruct (g_edge g t) as [e|] eqn:Ee, (g_edge g' t) as [e'|] eqn:Ee'; auto.
      * destruct (Hser d g Hl Hs t e Ee) as [b Hb]. destruct (Hser d' g' Hl' Hs' t e' Ee') as [b' Hb'].
        rewrite Hb, Hb' in E2. simpl in E2. injection E2 as <-. pose proof (He _ _ Hb) as D1. pose proof (He _ _ Hb') as D2. congruence.
      * destruct (Hser d g Hl Hs t e Ee) as [b Hb]. rewrite Hb in E2. discriminate.
      * destruct (Hser d' g' Hl' Hs' t e' Ee') as [b Hb]. rewrite Hb in E2. discriminate.
  - intros [E1 E2]. f_equal. apply S. split.
    + intros i. simpl. specialize (E1 i). destruct (g_node g i), (g_node g' i); auto; destruct E1 as [A B]; [discriminate (B eq_refl)|discriminate (A eq_refl)].
    + intros t. simpl. now rewrite E2.
Qed.

(** Of torn databases too, equal outputs are equal nodes and equal edges in the SPO order. *)
Lemma in_but_page K g leak l : s_prints_but ce hash K g leak l ->
  (forall i, In (NodeLine i tt) l <-> g_node g i <> None) /\
  (forall t, g_edge g t <> None <-> exists h, In (EdgeLine t h) l) /\
  (forall h b, In (PropLine (Some h) b) l -> exists t e, g_edge g t = Some e /\ hash (encode_spo t) = h /\ ser ce e = Ok b) /\
  (forall t e, g_edge g t = Some e -> exists b, In (PropLine (Some (hash (encode_spo t))) b) l).
Proof.
  intros (ns & ps & es & hs & (A1 & A2 & A3) & (B1 & B2 & B3) & [C1 C2] & _ & O & ->).
  split; [|split; [|split]].
  - intros i. rewrite !in_app_iff, !in_map_iff, in_flat_map. split.
    + intros [[H|[H|[]]]|[(x & Hx & Hi)|[[H|[]]|[(x & Hx & _)|[(x & Hx & _)|(o & _ & Ho)]]]]]; try discriminate.
      * destruct x as [j []]. cbn [fst snd] in Hx. injection Hx as ->. destruct (A2 _ _ Hi) as (q & -> & _). discriminate.
      * destruct Ho as [Ho|Ho]; [discriminate|]. apply in_map_iff in Ho. destruct Ho as (x & Hx & _). discriminate.
    + intros H. destruct (g_node g i) as [q|] eqn:Ei; [|contradiction]. destruct (A3 _ _ Ei) as [[] Hi].
      right. left. exists (i, tt). auto.
  - intros t. split.
    + intros H. exists (hs SPO t). rewrite !in_app_iff, in_flat_map. do 5 right. exists SPO. split; [simpl; auto|].
      right. apply in_map_iff. exists t. split; auto. now apply C2.
    + intros [h H]. rewrite !in_app_iff, !in_map_iff, in_flat_map in H.
      destruct H as [[H|[H|[]]]|[(x & Hx & _)|[[H|[]]|[(x & Hx & _)|[(x & Hx & _)|(o & _ & Ho)]]]]]; try discriminate.
      destruct Ho as [Ho|Ho]; [discriminate|]. apply in_map_iff in Ho. destruct Ho as (u & Hu & Hin). injection Hu as -> _.
      destruct (O o) as (_ & O1 & _). auto.
  - intros h b H. rewrite !in_app_iff, !in_map_iff, in_flat_map in H.
    destruct H as [[H|[H|[]]]|[(x & Hx & _)|[[H|[]]|[(x & Hx & _)|[([h' b'] & Hx & Hin)|(o & _ & Ho)]]]]]; try discriminate.
    + cbn [fst snd] in Hx. injection Hx as -> ->. auto.
    + destruct Ho as [Ho|Ho]; [discriminate|]. apply in_map_iff in Ho. destruct Ho as (u & Hu & _). discriminate.
  - intros t e Ht. destruct (B3 t e Ht) as [b Hb]. exists b. rewrite !in_app_iff. do 4 right. left.
    apply in_map_iff. exists (hash (encode_spo t), b). auto.
Qed.

Lemma torn_same (ls ls' : list (life (k := k) (NP := NP) (EP := EP) (SE := SE) (E := E))) K g K' g' :
  codec_ok cn -> codec_ok ce -> NoDup (life_keys ls) -> NoDup (life_keys ls') ->
  let d := lives cn ce mn me ls db_new in
  let d' := lives cn ce mn me ls' db_new in
  shows_but SE cn ce K d g -> shows_but SE cn ce K' d' g' ->
  no_collision hash g -> no_collision hash g' ->
  ret_of debug [] d = ret_of debug [] d' ->
  (forall i, g_node g i = None <-> g_node g' i = None) /\ forall t, g_edge g t = g_edge g' t.
Proof.
  intros Hn He Nd Nd' d d' Hs Hs' Hc Hc' Eq.
  destruct (debug_torn ls Hn He Nd) as (K1 & _ & g1 & _ & leak & l & _ & S1 & _ & _ & _ & _ & P1 & L1 & _).
  destruct (debug_torn ls' Hn He Nd') as (K2 & _ & g2 & _ & leak' & l' & _ & S2 & _ & _ & _ & _ & P2 & L2 & _).
  fold d in S1, P1. fold d' in S2, P2. rewrite P1, P2 in Eq. injection Eq as <-.
  destruct Hs as (Sn & Se & _), S1 as (Sn1 & Se1 & _), Hs' as (Sn' & Se' & _), S2 as (Sn2 & Se2 & _).
  pose proof (lists_fun _ _ _ _ Sn Sn1) as En. pose proof (lists_fun _ _ _ _ Se Se1) as Ee.
  pose proof (lists_fun _ _ _ _ Sn' Sn2) as En'. pose proof (lists_fun _ _ _ _ Se' Se2) as Ee'.
  destruct (in_but_page _ _ _ _ L1) as (A1 & B1 & C1 & D1). destruct (in_but_page _ _ _ _ L2) as (A2 & B2 & C2 & D2).
  assert (forall i, g_node g i <> None <-> g_node g' i <> None) as Hnode by (intros i; rewrite En, En', <- A1, <- A2; tauto).
  assert (forall t, g_edge g t <> None <-> g_edge g' t <> None) as Hedge by (intros t; rewrite Ee, Ee', B1, B2; tauto).
  split.
  - intros i. specialize (Hnode i). destruct (g_node g i), (g_node g' i); split; intros; auto; try discriminate;
      [now destruct (proj1 Hnode)|now destruct (proj2 Hnode)].
  - intros t. specialize (Hedge t). destruct (g_edge g t) as [e|] eqn:E1, (g_edge g' t) as [e'|] eqn:E2; auto.
    + rewrite Ee in E1. destruct (D1 _ _ E1) as [b Hb].
      assert (forall u, g_edge g1 u <> None -> hash (encode_spo u) = hash (encode_spo t) -> u = t) as X1.
      { intros u Hu Eh. apply Hc; auto; rewrite Ee; auto. congruence. }
      assert (forall u, g_edge g2 u <> None -> hash (encode_spo u) = hash (encode_spo t) -> u = t) as X2.
      { intros u Hu Eh. apply Hc'; auto; [now rewrite Ee'|congruence]. }
      destruct (C1 _ _ Hb) as (u & q & Hq & Eu & Sq). destruct (C2 _ _ Hb) as (v & r & Hr & Ev & Sr).
      assert (u = t) as -> by (apply X1; [congruence|auto]). assert (v = t) as -> by (apply X2; [congruence|auto]).
      rewrite Ee' in E2. assert (q = e) by congruence. assert (r = e') by congruence. subst q r.
      pose proof (He _ _ Sq) as Y1. pose proof (He _ _ Sr) as Y2. congruence.
    + destruct (proj1 Hedge); auto. discriminate.
    + destruct (proj2 Hedge); auto. discriminate.
Qed.

End Top.
