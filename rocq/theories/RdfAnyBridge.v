(** Rdf.v and RdfSled.v are instances of RdfAny.v. *)
From Coq Require Import NArith List Bool.
From Verif Require Import Bytes OMap Core IdType Store Mem MemIndex Spec History Prog ProgFacts Sled SledHistory SledIndex Rdf RdfSled RdfSledTop RdfAny RdfAnySpec.
Import ListNotations.

(** ** In memory *)
Section InMemory.
Context {S NP EP F E : Type} (seqb : S -> S -> bool) (mn : NP -> NP -> NP) (me : EP -> EP -> EP).
Notation ix := (mem_names F seqb).
Notation gr := (mem_graph F mn me).
Notation I := (Id KUlid).
Notation ent := (entity S).
Notation err := (rdf_error S (index_error S I) unit).
Notation R := (any_rdf (mem_index S I) (mem KUlid NP EP) F).
Notation M A := (R -> result err A * R).

Notation pk := (of_rdf (S := S) (NP := NP) (EP := EP) (F := F)).
Definition sim {A} (m : R -> A * R) (g : rdf S NP EP -> A * rdf S NP EP) : Prop :=
  forall r f, m (pk r f) = (fst (g r), pk (snd (g r)) f).

Lemma sim_create e : sim (a_lookup_or_create ix e) (lookup_or_create_entity seqb e).
Proof.
  intros r f. destruct e as [s|i]; [|reflexivity]. cbn [a_lookup_or_create lookup_or_create_entity]. unfold and_then, of_names, new_ulid. cbn.
  destruct (left_to_right seqb (name_index r) s); [now destruct r|]. cbn.
  destruct (index_set seqb id_eqb s _ (name_index r)) as [[[]|x] y]; reflexivity.
Qed.
Lemma sim_find e : sim (a_lookup_entity ix e) (fun r => (lookup_entity seqb (name_index r) e, r)).
Proof.
  intros r f. destruct e as [s|i]; [|reflexivity]. cbn [a_lookup_entity lookup_entity]. unfold and_then, of_names. cbn.
  now destruct (left_to_right seqb (name_index r) s).
Qed.
Lemma sim_show i : sim (a_lookup_id ix i) (fun r => (lookup_id (name_index r) i, r)).
Proof. intros r f. reflexivity. Qed.
Lemma sim_map3 {A B} (m : A -> M B) g t : (forall a, sim (m a) (g a)) -> sim (a_try_map m t) (triple_try_map_st g t).
Proof.
  intros H r f. unfold a_try_map, triple_try_map_st, and_then. rewrite H. destruct (g (sub t) r) as [[a|e] r1]; cbn; auto.
  rewrite H. destruct (g (pred t) r1) as [[b|e] r2]; cbn; auto. rewrite H. now destruct (g (obj t) r2) as [[c|e] r3].
Qed.
Lemma sim_map3_read {A B} (m : A -> M B) g t : (forall a, sim (m a) (fun r => (g r a, r))) ->
  sim (a_try_map m t) (fun r => (triple_try_map (g r) t, r)).
Proof.
  intros H r f. unfold a_try_map, triple_try_map, and_then. rewrite H. cbn. destruct (g r (sub t)); cbn; auto.
  rewrite H. cbn. destruct (g r (pred t)); cbn; auto. rewrite H. cbn. now destruct (g r (obj t)).
Qed.
Lemma sim_then {A} (m : M A) g (k : A -> M unit) kg : sim m g ->
  (forall a r f, k a (pk r f) = (Ok tt, pk (set_graph (kg a (r_graph r)) r) f)) ->
  sim (and_then m k) (fun r => then_graph (g r) kg).
Proof.
  intros H1 H2 r f. unfold and_then, then_graph. rewrite H1. destruct (g r) as [[a|e] r']; cbn; [apply H2|reflexivity].
Qed.

Lemma sim_each {A} (m : A -> M unit) g (l : list (result E A)) : (forall a, sim (m a) (g a)) -> sim (a_for_each m l) (rdf_for_each g l).
Proof.
  intros H. induction l as [|[a|e] l IH]; intros r f; cbn; auto. rewrite H. destruct (g a r) as [[[]|e] r']; cbn; auto.
Qed.
Lemma sim_bulk fn fe gn ge (s : rdf_source S NP EP E) : (forall e p, sim (fn e p) (gn e p)) -> (forall t p, sim (fe t p) (ge t p)) ->
  sim (a_bulk fn fe s) (rdf_bulk gn ge s).
Proof.
  intros H1 H2 r f. unfold a_bulk, rdf_bulk. rewrite (sim_each _ (fun ip => gn (fst ip) (snd ip))) by auto.
  destruct (rdf_for_each (fun ip => gn (fst ip) (snd ip)) (rs_nodes s) r) as [[[]|e] r']; cbn; auto.
  now rewrite (sim_each _ (fun ip => ge (fst ip) (snd ip))) by auto.
Qed.

Lemma put_node e p : sim (a_insert_node ix gr e p) (rdf_insert_node seqb e p).
Proof. apply sim_then; [apply sim_create|reflexivity]. Qed.
Lemma put_edge t p : sim (a_insert_edge ix gr t p) (rdf_insert_edge seqb t p).
Proof. apply sim_then; [apply sim_map3, sim_create|reflexivity]. Qed.
Lemma join_node e p : sim (a_merge_node ix gr e p) (rdf_merge_node seqb mn e p).
Proof. apply sim_then; [apply sim_create|reflexivity]. Qed.
Lemma join_edge t p : sim (a_merge_edge ix gr t p) (rdf_merge_edge seqb me t p).
Proof. apply sim_then; [apply sim_map3, sim_create|reflexivity]. Qed.
Lemma drop_node e : sim (a_remove_node ix gr e) (rdf_remove_node seqb e).
Proof. apply (sim_then _ (fun r => (lookup_entity seqb (name_index r) e, r))); [apply sim_find|reflexivity]. Qed.
Lemma drop_edge t : sim (a_remove_edge ix gr t) (rdf_remove_edge seqb t).
Proof.
  apply (sim_then _ (fun r => (triple_try_map (lookup_entity seqb (name_index r)) t, r))); [|reflexivity].
  apply (sim_map3_read _ (fun r => lookup_entity seqb (name_index r))), sim_find.
Qed.

Lemma mem_mem_apply (o : rop S NP EP E) : sim (a_apply ix gr o) (rdf_apply seqb mn me o).
Proof.
  intros r f. destruct o as [e p|t p|e|t|e p|t p|s|s]; cbn [a_apply rdf_apply]; unfold a_left, as_left; cbn [fst snd].
  - now rewrite put_node.
  - now rewrite put_edge.
  - now rewrite drop_node.
  - now rewrite drop_edge.
  - now rewrite join_node.
  - now rewrite join_edge.
  - apply sim_bulk; [apply put_node|apply put_edge].
  - apply sim_bulk; [apply join_node|apply join_edge].
Qed.
Lemma mem_mem_history (l : list (rop S NP EP E)) : sim (a_history ix gr l) (rdf_history seqb mn me l).
Proof.
  induction l as [|o l IH]; intros r f; cbn [a_history rdf_history]; auto. rewrite mem_mem_apply.
  destruct (rdf_apply seqb mn me o r) as [x r1]. cbn [fst snd]. rewrite IH. now destruct (rdf_history seqb mn me l r1).
Qed.

Lemma sim_collect {A B} (m : A -> M B) g l : (forall a, sim (m a) (fun r => (g r a, r))) ->
  sim (a_collect m l) (fun r => (collect_result (g r) l, r)).
Proof.
  intros H r f. induction l as [|a l IH]; auto. cbn [a_collect collect_result]. unfold and_then. rewrite H. cbn [fst snd].
  destruct (g r a); auto. rewrite IH. cbn [fst snd]. now destruct (collect_result (g r) l).
Qed.

(** The readers *)
Lemma mem_items {A B} (show : A -> M B) g (l : list (result unit A)) r f :
  (forall a, sim (show a) (fun r => (g r a, r))) ->
  a_items show (map (fun x yf => (x, yf)) l) (pk r f) =
  (map (fun x => match x with Ok a => g r a | Err e => Err (GraphStorageError e) end) l, pk r f).
Proof.
  intros H. induction l as [|[a|e] l IH]; cbn [a_items map]; auto.
  - unfold and_then at 1, of_graph. cbn [fst snd]. change (AnyRdf _ _ _ _) with (pk r f). rewrite H. cbn [fst snd]. now rewrite IH.
  - unfold and_then at 1, of_graph. cbn [fst snd]. change (AnyRdf _ _ _ _) with (pk r f). now rewrite IH.
Qed.
Lemma sim_pair {P} (ip : I * P) : sim (a_show_pair ix ip) (fun r => (show_pair (name_index r) ip, r)).
Proof. intros r f. reflexivity. Qed.
Lemma sim_edge (te : triple I * EP) : sim (a_show_edge ix te) (fun r => (show_edge (name_index r) (Ok te), r)).
Proof. intros r f. destruct te as [t p]. reflexivity. Qed.
Lemma sim_props (t : props_triple I NP EP) : sim (a_show_props ix t) (fun r => (show_props (name_index r) (Ok t), r)).
Proof. intros r f. reflexivity. Qed.

Lemma map_show {A B} (f g : A -> B) l : (forall a, f a = g a) -> map f l = map g l.
Proof. intros H. now apply map_ext. Qed.

Lemma mem_mem_readers r f :
  a_vertices ix gr (pk r f) = (rdf_vertices r, pk r f) /\
  a_iter_vertices ix gr (pk r f) = (rdf_iter_vertices r, pk r f) /\
  forall o, a_iter_edges ix gr o (pk r f) = (rdf_iter_edges o r, pk r f) /\
    a_iter_edges_with_props ix gr o (pk r f) = (rdf_iter_edges_with_props o r, pk r f) /\
    a_into_iter_nodes ix gr o (pk r f) = (rdf_into_iter_nodes o r, pk r f).
Proof.
  split; [|split; [|intros o; split; [|split]]].
  - unfold a_vertices, and_then, of_graph, rdf_vertices. cbn [ag_vertices mem_graph fst snd a_graph a_env of_rdf]. change (AnyRdf _ _ _ _) with (pk r f).
    apply (sim_collect (a_lookup_id ix) (fun r => lookup_id (name_index r)) _ sim_show).
  - unfold a_iter_vertices, rdf_iter_vertices. change (a_graph (pk r f)) with (r_graph r). cbn [ag_iter_vertices mem_graph].
    rewrite (mem_items _ _ _ _ _ sim_pair). f_equal. apply map_ext. now intros [[i p]|e].
  - unfold a_iter_edges, rdf_iter_edges. change (a_graph (pk r f)) with (r_graph r). cbn [ag_iter_edges mem_graph].
    rewrite (mem_items _ _ _ _ _ sim_edge). f_equal.
  - unfold a_iter_edges_with_props, rdf_iter_edges_with_props. change (a_graph (pk r f)) with (r_graph r). cbn [ag_iter_props mem_graph].
    rewrite (mem_items _ _ _ _ _ sim_props). f_equal.
  - unfold a_into_iter_nodes, rdf_into_iter_nodes. change (a_graph (pk r f)) with (r_graph r). cbn [ag_into_nodes mem_graph fst snd].
    rewrite (mem_items _ _ _ _ _ sim_pair), (mem_items _ _ _ _ _ sim_edge). f_equal. f_equal; apply map_ext; now intros [[i p]|e].
Qed.


(** Queries *)
Lemma sim_query {A B} (m : A -> M B) g q : (forall a, sim (m a) (fun r => (g r a, r))) ->
  sim (a_query m q) (fun r => (query_try_map (g r) q, r)).
Proof.
  intros H. assert (forall x, sim (a_pair m x) (fun r => (try_pair (g r) x, r))) as H2.
  { intros [a b] r f. unfold a_pair, try_pair, and_then. cbn [fst snd]. rewrite H. cbn [fst snd]. destruct (g r a); auto.
    rewrite H. cbn [fst snd]. now destruct (g r b). }
  assert (forall x, sim (a_triple m x) (fun r => (try_triple (g r) x, r))) as H3.
  { intros [[a b] c] r f. unfold a_triple, try_triple, and_then. rewrite H. cbn [fst snd]. destruct (g r a); auto.
    rewrite H. cbn [fst snd]. destruct (g r b); auto. rewrite H. cbn [fst snd]. now destruct (g r c). }
  intros r f. destruct q as [l|l|l|l|l|l|l|l]; cbn [a_query query_try_map]; unfold and_then.
  1,3-5: rewrite (sim_collect _ (fun r => g r) _ H); cbn [fst snd]; now destruct (collect_result (g r) l).
  - rewrite (sim_collect _ (fun r => try_triple (g r)) _ H3); cbn [fst snd]; now destruct (collect_result (try_triple (g r)) l).
  - rewrite (sim_collect _ (fun r => try_pair (g r)) _ H2); cbn [fst snd]; now destruct (collect_result (try_pair (g r)) l).
  - rewrite (sim_collect _ (fun r => try_pair (g r)) _ H2); cbn [fst snd]; now destruct (collect_result (try_pair (g r)) l).
  - rewrite (sim_collect _ (fun r => try_pair (g r)) _ H2); cbn [fst snd]; now destruct (collect_result (try_pair (g r)) l).
Qed.
Lemma sim_set_names ids : forall new, sim (a_set_names ix seqb ids new) (fun r => (set_names seqb (name_index r) ids new, r)).
Proof.
  induction ids as [|i ids IH]; intros new r f; auto. cbn [a_set_names set_names]. unfold and_then_q, at_left. rewrite sim_show.
  unfold lookup_id. cbn [fst snd]. destruct (right_to_left id_eqb (name_index r) i) as [s|]; [|apply IH].
  destruct (index_set seqb id_eqb s i new) as [[[]|x] y]; [apply IH|reflexivity].
Qed.
Lemma sim_set_edges (es : list (result unit (triple I * EP))) : forall new, sim (a_set_edge_names ix seqb es new) (fun r => (set_edge_names seqb (name_index r) es new, r)).
Proof.
  induction es as [|[[t p]|e] es IH]; intros new r f; auto. cbn [a_set_edge_names set_edge_names]. unfold and_then_q.
  rewrite sim_set_names. cbn [fst snd]. destruct (set_names seqb (name_index r) [sub t; pred t; obj t] new); [apply IH|reflexivity].
Qed.
Lemma mem_mem_run g u q : sim (a_run ix gr seqb g u q) (fun r => (rdf_run seqb g u q r, r)).
Proof.
  intros r f. unfold a_run, rdf_run, and_then_q at 1, at_left at 1. rewrite (sim_query _ (fun r => lookup_entity seqb (name_index r)) _ sim_find). cbn [fst snd].
  destruct (query_try_map (lookup_entity seqb (name_index r)) q) as [q'|e]; auto.
  unfold and_then_q at 1, at_left at 1, of_graph. cbn [ag_run mem_graph fst snd a_graph a_env of_rdf]. change (AnyRdf _ _ _ _) with (pk r f).
  unfold and_then_q at 1. rewrite sim_set_names. cbn [fst snd].
  destruct (set_names seqb (name_index r) (vertices (run g q' (r_graph r))) index_new) as [x|e]; auto.
  unfold and_then_q. rewrite sim_set_edges. cbn [fst snd].
  now destruct (set_edge_names seqb (name_index r) (iter_edges SPO (run g q' (r_graph r))) x).
Qed.
End InMemory.

(** ** On sled *)
Section OnSled.
Context {S NP EP SE BE E : Type} (cs : codec BE S) (cu : codec BE (Id KUlid)) (cn : codec BE NP) (ce : codec BE EP).
Context (mn : NP -> NP -> NP) (me : EP -> EP -> EP).
Notation ix := (sled_names SE cs cu).
Notation gr := (sled_graph SE cn ce mn me).
Notation I := (Id KUlid).
Notation ent := (entity S).
Notation err := (rdf_error S (sled_index_error S I SE BE) (sled_error SE BE)).
Notation F := (list (option SE)).
Notation R := (any_rdf idb (db * handle KUlid) F).
Notation M A := (R -> result err A * R).
Notation P A := (prog rdb SE A).

Notation sk := (of_rdb (SE := SE)).
(** A method that needs the handle, and one that does not. *)
Definition does {A} (m : R -> A * R) (p : rhandle -> P (A * rhandle)) : Prop :=
  forall h f d, m (sk h d f) = let '(a, h', d', f') := exec (p h) f d in (a, sk h' d' f').
Definition reads {A} (m : R -> A * R) (p : P A) : Prop :=
  forall h f d, m (sk h d f) = let '(a, d', f') := exec p f d in (a, sk h d' f').

Lemma exec_on_names {A} (p : prog idb SE A) : forall f d,
  exec (on_names p) f d = let '(a, x, f') := exec p f (r_names d) in (a, RDb x (r_trees d), f').
Proof.
  induction p as [a|k IH|u k IHk e IHe]; intros f d; simpl.
  - now destruct d.
  - apply IH.
  - destruct f as [|[x|] f]; simpl; rewrite ?IHk, ?IHe; reflexivity.
Qed.

Lemma names_reads {A} (p : prog idb SE (result (sled_index_error S I SE BE) A)) :
  reads (of_names (S := S) (GE := sled_error SE BE) (run_on p)) (bind (on_names p) (fun r => Ret (from_names r))).
Proof.
  intros h f d. unfold of_names, run_on. cbn [fst snd a_names a_env of_rdb]. rewrite exec_bind, exec_on_names.
  destruct (exec p f (r_names d)) as [[[a|e] x] f']; reflexivity.
Qed.
Lemma graph_does (g : handle KUlid -> prog db SE (result (sled_error SE BE) unit * handle KUlid)) :
  does (of_graph (S := S) (IE := sled_index_error S I SE BE) (fun yf : db * handle KUlid * F =>
    match run_on (g (snd (fst yf))) (fst (fst yf), snd yf) with ((r, h), (d, fs)) => (r, ((d, h), fs)) end)) (graph_call g).
Proof.
  intros h f d. unfold of_graph, run_on, graph_call. cbn [fst snd a_graph a_env of_rdb]. rewrite exec_bind, exec_on_graph.
  destruct (exec (g (rh_graph h)) f (r_trees d)) as [[[[[]|e] h'] x] f']; reflexivity.
Qed.
Lemma graph_reads {A} (p : prog db SE (result (sled_error SE BE) A)) :
  reads (of_graph (S := S) (IE := sled_index_error S I SE BE) (fun yf : db * handle KUlid * F =>
    match run_on p (fst (fst yf), snd yf) with (r, (d, fs)) => (r, ((d, snd (fst yf)), fs)) end))
    (bind (on_graph p) (fun r => Ret (from_graph r))).
Proof.
  intros h f d. unfold of_graph, run_on. cbn [fst snd a_graph a_env of_rdb]. rewrite exec_bind, exec_on_graph.
  destruct (exec p f (r_trees d)) as [[[a|e] x] f']; reflexivity.
Qed.

Lemma does_ok {A} (a : A) : does (ok a : M A) (fun h => Ret (Ok a, h)).
Proof. intros h f d. reflexivity. Qed.
Lemma does_and {A B} (m : M A) p (k : A -> M B) q : does m p -> (forall a, does (k a) (q a)) ->
  does (and_then m k) (fun h => bind_h (p h) q).
Proof.
  intros H1 H2 h f d. unfold and_then, bind_h. rewrite H1, exec_bind. destruct (exec (p h) f d) as [[[[a|e] h'] d'] f']; [apply H2|reflexivity].
Qed.
Lemma reads_ok {A} (a : A) : reads (ok a : M A) (Ret (Ok a)).
Proof. intros h f d. reflexivity. Qed.
Lemma reads_and {A B} (m : M A) p (k : A -> M B) q : reads m p -> (forall a, reads (k a) (q a)) -> reads (and_then m k) (bind_ok p q).
Proof.
  intros H1 H2 h f d. unfold and_then. rewrite H1, exec_bind_ok. destruct (exec p f d) as [[[a|e] d'] f']; [apply H2|reflexivity].
Qed.
Lemma reads_ext {A} (m : R -> A * R) p p' : (forall f d, exec p f d = exec p' f d) -> reads m p -> reads m p'.
Proof. intros H1 H2 h f d. rewrite H2, H1. reflexivity. Qed.
Lemma does_reads {A} (m : M A) p : reads m p -> does m (fun h => bind p (fun r => Ret (r, h))).
Proof. intros H h f d. rewrite H, exec_bind. now destruct (exec p f d) as [[a d'] f']. Qed.

Lemma does_create e : does (a_lookup_or_create ix e) (rs_lookup_or_create cs cu e).
Proof.
  destruct e as [s|i]; [|apply does_ok]. intros h f d. cbn [a_lookup_or_create rs_lookup_or_create]. unfold and_then at 1.
  cbn [ai_left sled_names]. rewrite names_reads, !exec_bind. destruct (exec (on_names (si_left_to_right cs cu s)) f d) as [[[[i|]|x] d1] f1]; cbn; auto.
  unfold and_then, new_ulid. cbn. rewrite !exec_bind.
  pose proof (names_reads (si_set cs cu s (g_seq (rh_ulids h) (g_pos (rh_ulids h))))
    (RHandle (rh_graph h) (Gen (g_seq (rh_ulids h)) (Datatypes.S (g_pos (rh_ulids h))))) f1 d1) as H.
  rewrite exec_bind in H. unfold of_rdb in H. cbn in H. unfold of_rdb. cbn. rewrite H.
  destruct (exec (on_names (si_set cs cu s _)) f1 d1) as [[[[]|x] d2] f2]; reflexivity.
Qed.
Lemma reads_find e : reads (a_lookup_entity ix e) (rs_lookup_entity cs cu e).
Proof.
  destruct e as [s|i]; [|apply reads_ok]. intros h f d. cbn [a_lookup_entity rs_lookup_entity]. unfold and_then at 1.
  cbn [ai_left sled_names]. rewrite names_reads, !exec_bind. now destruct (exec (on_names (si_left_to_right cs cu s)) f d) as [[[[i|]|x] d1] f1].
Qed.
Lemma reads_show i : reads (a_lookup_id ix i) (rs_lookup_id cs cu i).
Proof.
  intros h f d. unfold a_lookup_id, rs_lookup_id, and_then at 1.
  cbn [ai_right sled_names]. rewrite names_reads, !exec_bind. now destruct (exec (on_names (si_right_to_left cs cu i)) f d) as [[[[s|]|x] d1] f1].
Qed.
Lemma does_create3 t : does (a_try_map (a_lookup_or_create ix) t) (rs_create3 cs cu t).
Proof.
  unfold a_try_map, rs_create3. apply does_and; [apply does_create|intros a].
  apply (does_and _ _ _ (fun b h => bind_h _ _)); [apply does_create|intros b].
  apply (does_and _ _ _ (fun c h => Ret _)); [apply does_create|intros c]. apply does_ok.
Qed.
Lemma reads_map3 {A B} (m : A -> M B) p t : (forall a, reads (m a) (p a)) -> reads (a_try_map m t) (try_map_prog p t).
Proof.
  intros H. unfold a_try_map, try_map_prog. apply reads_and; [apply H|intros a]. apply reads_and; [apply H|intros b].
  apply reads_and; [apply H|intros c]. apply reads_ok.
Qed.

Lemma s_put_node e p : does (a_insert_node ix gr e p) (rs_insert_node cs cu cn e p).
Proof. apply does_and; [apply does_create|intros a]. apply graph_does. Qed.
Lemma s_put_edge t p : does (a_insert_edge ix gr t p) (rs_insert_edge cs cu ce t p).
Proof. apply does_and; [apply does_create3|intros a]. apply graph_does. Qed.
Lemma s_join_node e p : does (a_merge_node ix gr e p) (rs_merge_node cs cu cn mn e p).
Proof. apply does_and; [apply does_create|intros a]. apply graph_does. Qed.
Lemma s_join_edge t p : does (a_merge_edge ix gr t p) (rs_merge_edge cs cu ce me t p).
Proof. apply does_and; [apply does_create3|intros a]. apply graph_does. Qed.
Lemma s_drop_node e : does (a_remove_node ix gr e) (rs_remove_node cs cu e).
Proof. apply does_and; [apply does_reads, reads_find|intros a]. apply graph_does. Qed.
Lemma s_drop_edge t : does (a_remove_edge ix gr t) (rs_remove_edge cs cu t).
Proof. apply does_and; [apply does_reads, reads_map3, reads_find|intros a]. apply graph_does. Qed.

Lemma does_each {A} (m : A -> M unit) p (l : list (result E A)) : (forall a, does (m a) (p a)) -> does (a_for_each m l) (rs_for_each p l).
Proof.
  intros H. induction l as [|[a|e] l IH]; intros h f d; auto. cbn [a_for_each rs_for_each]. rewrite H, exec_bind.
  destruct (exec (p a h) f d) as [[[[[]|e] h'] d'] f']; [apply IH|reflexivity].
Qed.
Lemma does_bulk fn fe pn pe (s : rdf_source S NP EP E) : (forall e p, does (fn e p) (pn e p)) -> (forall t p, does (fe t p) (pe t p)) ->
  does (a_bulk fn fe s) (rs_bulk (BE := BE) pn pe s).
Proof.
  intros H1 H2 h f d. unfold a_bulk, rs_bulk. rewrite (does_each _ (fun ip => pn (fst ip) (snd ip))) by auto. rewrite exec_bind.
  destruct (exec (rs_for_each (fun ip => pn (fst ip) (snd ip)) (rs_nodes s) h) f d) as [[[[[]|e] h'] d'] f']; [|reflexivity].
  now apply (does_each _ (fun ip => pe (fst ip) (snd ip))).
Qed.
Lemma does_left (m : M unit) p : does m p -> does (fun r => a_left (E := E) (m r)) (fun h => left_out (S := S) (BE := BE) (E := E) (p h)).
Proof.
  intros H h f d. unfold a_left, left_out. rewrite H, exec_bind. now destruct (exec (p h) f d) as [[[[[]|e] h'] d'] f'].
Qed.

Lemma sled_sled_apply (o : rop S NP EP E) : does (a_apply ix gr o) (rs_apply cs cu cn ce mn me o).
Proof.
  destruct o as [e p|t p|e|t|e p|t p|s|s]; cbn [a_apply rs_apply].
  - apply does_left, s_put_node.
  - apply does_left, s_put_edge.
  - apply does_left, s_drop_node.
  - apply does_left, s_drop_edge.
  - apply does_left, s_join_node.
  - apply does_left, s_join_edge.
  - apply does_bulk; [apply s_put_node|apply s_put_edge].
  - apply does_bulk; [apply s_join_node|apply s_join_edge].
Qed.
Lemma sled_sled_history (l : list (rop S NP EP E)) : does (a_history ix gr l) (rs_history cs cu cn ce mn me l).
Proof.
  induction l as [|o l IH]; intros h f d; auto. cbn [a_history rs_history]. rewrite exec_bind.
  pose proof (sled_sled_apply o h f d) as A. destruct (exec (rs_apply cs cu cn ce mn me o h) f d) as [[[x h1] d1] f1] eqn:Q.
  assert (a_apply ix gr o (sk h d f) = (x, sk h1 d1 f1)) as ->
    by (etransitivity; [exact A|exact (f_equal (fun '(a, h', d', f') => (a, sk h' d' f')) Q)]).
  pose proof (IH h1 f1 d1) as B. rewrite exec_bind. cbn [fst snd].
  destruct (exec (rs_history cs cu cn ce mn me l h1) f1 d1) as [[[xs h2] d2] f2] eqn:Q2.
  assert (a_history ix gr l (sk h1 d1 f1) = (xs, sk h2 d2 f2)) as ->; [|reflexivity].
  etransitivity; [exact B|exact (f_equal (fun '(a, h', d', f') => (a, sk h' d' f')) Q2)].
Qed.

(** The readers *)
Lemma reads_items {A B} (show : A -> M B) sp (item : bytes * bytes -> prog db SE (result (sled_error SE BE) A)) l :
  (forall a, reads (show a) (sp a)) ->
  reads (a_items show (map (fun kv (yf : db * handle KUlid * F) =>
    match run_on (next (item kv)) (fst (fst yf), snd yf) with (r, (d, fs)) => (r, ((d, snd (fst yf)), fs)) end) l))
    (map_prog (shown_item item sp) l).
Proof.
  intros H. induction l as [|kv l IH]; intros h f d; auto. cbn [a_items map map_prog]. unfold and_then at 1. rewrite graph_reads.
  unfold shown_item at 1. rewrite !exec_bind. destruct (exec (on_graph (next (item kv))) f d) as [[[a|e] d1] f1]; cbn [exec from_graph].
  - rewrite H. destruct (exec (sp a) f1 d1) as [[b d2] f2]. rewrite IH, exec_bind.
    now destruct (exec (map_prog (shown_item item sp) l) f2 d2) as [[bs d3] f3].
  - rewrite IH, exec_bind. now destruct (exec (map_prog (shown_item item sp) l) f1 d1) as [[bs d3] f3].
Qed.
Lemma reads_pair {X} (ip : I * X) : reads (a_show_pair ix ip) (rs_show_pair cs cu ip).
Proof. apply reads_and; [apply reads_show|intros a; apply reads_ok]. Qed.
Lemma reads_edge (te : triple I * EP) : reads (a_show_edge ix te) (rs_show_edge cs cu te).
Proof. apply reads_and; [apply reads_map3, reads_show|intros a; apply reads_ok]. Qed.
Lemma reads_props (t : props_triple I NP EP) : reads (a_show_props ix t) (rs_show_props cs cu t).
Proof.
  apply reads_and; [apply reads_pair|intros a]. apply reads_and; [apply reads_pair|intros b].
  apply reads_and; [apply reads_pair|intros c]. apply reads_ok.
Qed.
Lemma reads_collect {A B} (m : A -> M B) p l : (forall a, reads (m a) (p a)) -> reads (a_collect m l) (collect_prog p l).
Proof.
  intros H. induction l as [|a l IH]; [apply reads_ok|]. apply reads_and; [apply H|intros b]. apply reads_and; [apply IH|intros bs]. apply reads_ok.
Qed.

Lemma sled_sled_readers :
  reads (a_vertices ix gr) (rs_vertices cs cu) /\ reads (a_iter_vertices ix gr) (rs_iter_vertices cs cu cn) /\
  forall o, reads (a_iter_edges ix gr o) (rs_iter_edges cs cu ce o) /\
    reads (a_iter_edges_with_props ix gr o) (rs_iter_edges_with_props cs cu cn ce o).
Proof.
  split; [|split; [|intros o; split]].
  - intros h f d. unfold a_vertices, and_then, rs_vertices. cbn [ag_vertices sled_graph]. rewrite graph_reads, !exec_bind.
    destruct (exec (on_graph s_vertices) f d) as [[[l|e] d1] f1]; cbn [exec from_graph]; [|reflexivity].
    apply reads_collect, reads_show.
  - intros h f d. unfold a_iter_vertices, rs_iter_vertices, rs_scan. cbn [ag_iter_vertices sled_graph exec]. apply reads_items, reads_pair.
  - intros h f d. unfold a_iter_edges, rs_iter_edges, rs_scan. cbn [ag_iter_edges sled_graph exec]. apply reads_items, reads_edge.
  - intros h f d. unfold a_iter_edges_with_props, rs_iter_edges_with_props, rs_scan. cbn [ag_iter_props sled_graph exec]. apply reads_items, reads_props.
Qed.

(** Queries *)
Notation qerr := (lr_error err (rdf_error S (index_error S I) unit)).
Notation MQ A := (R -> result qerr A * R).
Lemma reads_left {A} (m : M A) p : reads m p -> reads (at_left m : MQ A) (on_left p).
Proof. intros H h f d. unfold at_left, on_left. rewrite H, exec_bind. now destruct (exec p f d) as [[[a|e] d'] f']. Qed.
Lemma reads_and_q {A B} (m : MQ A) p (k : A -> MQ B) q : reads m p -> (forall a, reads (k a) (q a)) -> reads (and_then_q m k) (bind_ok p q).
Proof.
  intros H1 H2 h f d. unfold and_then_q. rewrite H1, exec_bind_ok. destruct (exec p f d) as [[[a|e] d'] f']; [apply H2|reflexivity].
Qed.
Lemma reads_query {A B} (m : A -> M B) p q : (forall a, reads (m a) (p a)) -> reads (a_query m q) (query_try_prog p q).
Proof.
  intros H. assert (forall x, reads (a_pair m x) (pair_prog p x)) as H2.
  { intros x. apply reads_and; [apply H|intros a]. apply reads_and; [apply H|intros b]. apply reads_ok. }
  assert (forall x, reads (a_triple m x) (triple_prog p x)) as H3.
  { intros [[a b] c]. apply reads_and; [apply H|intros x]. apply reads_and; [apply H|intros y]. apply reads_and; [apply H|intros z]. apply reads_ok. }
  destruct q as [l|l|l|l|l|l|l|l]; (apply reads_and; [apply reads_collect; assumption|intros x; apply reads_ok]).
Qed.
Context (seqb : S -> S -> bool).
Lemma reads_set_names ids : forall new, reads (a_set_names ix seqb ids new) (rs_set_names cs cu seqb ids new).
Proof.
  induction ids as [|i ids IH]; intros new; [intros h f d; reflexivity|]. cbn [a_set_names rs_set_names].
  apply reads_and_q; [apply reads_left, reads_show|]. intros [s|j]; [|apply IH].
  destruct (index_set seqb id_eqb s i new) as [[[]|x] y]; [apply IH|]. intros h f d. reflexivity.
Qed.
Lemma reads_set_edges (es : list (result unit (triple I * EP))) : forall new,
  reads (a_set_edge_names ix seqb es new) (rs_set_edge_names cs cu seqb es new).
Proof.
  induction es as [|[[t p]|e] es IH]; intros new; try (intros h f d; reflexivity). cbn [a_set_edge_names rs_set_edge_names].
  apply reads_and_q; [apply reads_set_names|apply IH].
Qed.
Lemma sled_sled_run g u q : reads (a_run ix gr seqb g u q) (rs_run cs cu cn ce seqb g u q).
Proof.
  unfold a_run, rs_run. apply reads_and_q; [apply reads_left, reads_query, reads_find|intros q'].
  apply reads_and_q; [apply reads_left, graph_reads|intros m]. apply reads_and_q; [apply reads_set_names|intros x].
  apply reads_and_q; [apply reads_set_edges|intros y]. intros h f d. reflexivity.
Qed.
End OnSled.

Lemma sled_sled_reads {S NP EP SE BE} (cs : codec BE S) (cu : codec BE (Id KUlid)) (cn : codec BE NP) (ce : codec BE EP) mn me
    h (f : list (option SE)) d :
  let ix := sled_names SE cs cu in let gr := sled_graph SE cn ce mn me in
  let same A (x : A * any_rdf idb (db * handle KUlid) (list (option SE))) p := x = let '(a, d', f') := exec p f d in (a, of_rdb h d' f') in
  same _ (a_vertices ix gr (of_rdb h d f)) (rs_vertices cs cu) /\
  same _ (a_iter_vertices ix gr (of_rdb h d f)) (rs_iter_vertices cs cu cn) /\
  forall o, same _ (a_iter_edges ix gr o (of_rdb h d f)) (rs_iter_edges cs cu ce o) /\
    same _ (a_iter_edges_with_props ix gr o (of_rdb h d f)) (rs_iter_edges_with_props cs cu cn ce o).
Proof.
  intros ix gr same. destruct (sled_sled_readers (SE := SE) cs cu cn ce mn me) as (A & B & C). split; [apply A|]. split; [apply B|].
  intros o. split; apply C.
Qed.
