(** The statements about whole histories on a SledTripleStore. *)
From Coq Require Import Arith NArith List Bool Sorted Lia.
From Verif Require Import Bytes BytesFacts OMap OMapFacts Core IdType IdTypeFacts Store Mem Spec
  CodecFacts ListFacts MemFacts MemSim History MemTop EqFacts Prog ProgFacts Sled SledHistory SledDb
  SledOps SledBulk SledRun SledRead SledTop.
Import ListNotations.

(** ** C21: consuming and borrowing iterators *)
Section Into.
Context {k : idkind} {NP EP SE BE : Type} (cn : codec BE NP) (ce : codec BE EP).
Notation I := (Id k).
Notation T := (triple (Id k)).
Notation err := (sled_error SE BE).
Notation P A := (prog db SE A).

Definition same_prog {A} (p q : P A) : Prop := forall faults d, exec p faults d = exec q faults d.

Lemma into_iter_sled o :
  same_prog (s_into_iter_nodes (k := k) cn ce o) (s_iter_nodes cn ce o) /\
  same_prog (s_into_iter_vertices cn : P (list (result err (I * NP)))) (s_iter_vertices cn) /\
  same_prog (s_into_iter_edges (k := k) ce o) (s_iter_edges ce o) /\
  same_prog (s_into_iter_edges_with_props (k := k) cn ce o) (s_iter_edges_with_props cn ce o).
Proof.
  split; [|split; [|split]]; try (intros ? ?; reflexivity).
Qed.

Lemma iter_nodes_sled o (d : db) :
  now SE (s_iter_nodes (k := k) cn ce o) d = (now SE (s_iter_vertices (BE := BE) cn) d, now SE (s_iter_edges ce o) d).
Proof.
  unfold now, s_iter_nodes. rewrite !ret_of_bind.
  assert (forall A (p : P A), snd (exec p [] d) = @nil (option SE)) as N.
  { intros A p. generalize d. induction p as [a|c IH|u c IHc e IHe]; intros d0; simpl; auto. }
  rewrite N.
  assert (db_of (s_iter_vertices cn : P (list (result err (I * NP)))) [] d = d) as D.
  { pose proof (rds_iter_vertices (SE := SE) (k := k) cn never d) as W.
    destruct (wp_exec _ _ _ _ [] d (allowed_nil _) W) as (E & _). exact E. }
  rewrite D, N. reflexivity.
Qed.

Lemma vertices_sled (d : db) ns :
  now SE (s_iter_vertices (BE := BE) (k := k) cn) d = map Ok ns -> now SE (s_vertices (BE := BE)) d = Ok (map fst ns).
Proof.
  rewrite (rds_now _ _ _ (rds_iter_vertices (SE := SE) cn never d)).
  unfold now, s_vertices. rewrite ret_of_bind.
  assert (ret_of (scan t_node (fun kv => Ret (decode_id (fst kv))) : P (list (result err I))) [] d
    = map (fun kv => decode_id (fst kv)) (t_node d)) as ->.
  { apply (rds_now (SE := SE) (BE := BE)). apply rds_scan. intros kv. apply rd_ret. }
  unfold ret_of at 1. simpl. intros H. clear -H. revert ns H.
  induction (t_node d) as [|[key b] l IH]; intros [|[i p] ns] H; simpl in *; try discriminate; auto.
  unfold vertex_val at 1, ser_err in H. cbn [fst snd] in H. destruct (decode_id key) as [j|] eqn:Hk; simpl in *; [|discriminate].
  destruct (de cn b); simpl in H; [|discriminate]. injection H as -> -> H. now rewrite (IH ns H).
Qed.
End Into.

Section Main.
Context {k : idkind} {NP EP SE BE E : Type} (cn : codec BE NP) (ce : codec BE EP).
Context (mn : NP -> NP -> NP) (me : EP -> EP -> EP).
Notation I := (Id k).
Notation T := (triple (Id k)).
Notation G := (graph k NP EP).
Notation err := (sled_error SE BE).
Notation P A := (prog db SE A).
Notation fair := (fair (k := k) cn ce).
Notation agree := (indexes_agree (k := k)).
Notation sabs := (sabs (k := k) cn ce).
Notation op := (op k NP EP E).
Notation hist := (sled_history (SE := SE) cn ce mn me).
Notation sess := (sled_sessions (SE := SE) cn ce mn me).

Definition nothing : bytes -> Prop := fun _ => False.

Lemma good_history (h : handle k) (l : list op) faults :
  codec_ok cn -> codec_ok ce -> NoDup (history_keys h l) ->
  (forall r, In r (fst (ret_of (hist l h) faults db_new)) -> ~ failed r) ->
  fst (ret_of (hist l h) faults db_new) = map expected l /\
  exists U, sgood (k := k) cn ce U (db_of (hist l h) faults db_new) /\
    g_equiv (sabs (db_of (hist l h) faults db_new)) (spec_history mn me l g_empty).
Proof.
  intros Hn He Hd Hno. destruct (good_new (k := k) cn ce nothing) as [G0 A0].
  pose proof (handle_history cn ce Hn He mn me (fun _ : SE => True) nothing h l db_new Hd (fun _ _ H => H) G0) as W.
  destruct (wp_exec _ _ _ _ faults db_new (allowed_all _) W) as (Hf & (_ & H) & _).
  destruct (H A0 Hno) as (A & Hr & Hg). split; auto. eexists. split; [split; eauto|].
  eapply g_equiv_trans; [exact Hg|]. apply spec_history_equiv. apply abs_new.
Qed.

Lemma good_sessions (ss : list (handle k * list op)) faults :
  codec_ok cn -> codec_ok ce -> NoDup (session_keys ss) ->
  (forall rs r, In rs (ret_of (sess ss) faults db_new) -> In r rs -> ~ failed r) ->
  ret_of (sess ss) faults db_new = map (fun hl => map expected (snd hl)) ss /\
  exists U, sgood (k := k) cn ce U (db_of (sess ss) faults db_new) /\
    g_equiv (sabs (db_of (sess ss) faults db_new)) (spec_history mn me (flat_map snd ss) g_empty).
Proof.
  intros Hn He Hd Hno. destruct (good_new (k := k) cn ce nothing) as [G0 A0].
  pose proof (wp_sessions cn ce Hn He mn me (fun _ : SE => True) ss nothing db_new Hd (fun _ _ H => H) G0) as W.
  destruct (wp_exec _ _ _ _ faults db_new (allowed_all _) W) as (Hf & (_ & H) & _).
  destruct (H A0 Hno) as (A & Hr & Hg). split; auto. eexists. split; [split; eauto|].
  eapply g_equiv_trans; [exact Hg|]. apply spec_history_equiv. apply abs_new.
Qed.

(** What a consistent database that stands for [g] lets its readers see. *)
Definition stands_for (d : db) (g : G) : Prop := exists U, sgood (k := k) cn ce U d /\ g_equiv (sabs d) g.

Lemma stands_shows d g : stands_for d g -> sled_shows SE cn ce d g.
Proof. intros (U & H & Hg). eapply sled_shows_equiv; [exact Hg|]. eapply good_shows; eauto. Qed.

Lemma stands_run d g gn q : stands_for d g ->
  exists r g', now SE (s_run cn ce gn q) d = Ok r /\ answers q g g' /\
    (drawn_distinct (id_generator r) -> shows r g').
Proof.
  intros (U & [F A] & Hg). destruct (answer_fair (SE := SE) cn ce U d gn q F) as (r & g' & Hr & Sr & Ha).
  exists r, g'. split; [|split].
  - rewrite <- Hr. apply (rd_now (SE := SE) (BE := BE)). apply rd_run.
  - eapply answers_equiv; [|exact Ha]. eapply g_equiv_trans; [|exact Hg].
    split; intros x; [reflexivity|]. simpl. unfold SledDb.view. now rewrite A.
  - now apply sim_shows.
Qed.

(** C26 *)
Lemma history_shows (h : handle k) (l : list op) faults :
  codec_ok cn -> codec_ok ce -> NoDup (history_keys h l) ->
  (forall r, In r (fst (ret_of (hist l h) faults db_new)) -> ~ failed r) ->
  fst (ret_of (hist l h) faults db_new) = map expected l /\
  sled_shows SE cn ce (db_of (hist l h) faults db_new) (spec_history mn me l g_empty).
Proof.
  intros Hn He Hd Hno. destruct (good_history h l faults Hn He Hd Hno) as [Hr H]. split; auto. now apply stands_shows.
Qed.

Lemma history_run (h : handle k) (l : list op) faults gn q :
  codec_ok cn -> codec_ok ce -> NoDup (history_keys h l) ->
  (forall r, In r (fst (ret_of (hist l h) faults db_new)) -> ~ failed r) ->
  exists r g', now SE (s_run cn ce gn q) (db_of (hist l h) faults db_new) = Ok r /\
    answers q (spec_history mn me l g_empty) g' /\ (drawn_distinct (id_generator r) -> shows r g').
Proof.
  intros Hn He Hd Hno. apply stands_run. now apply good_history.
Qed.

Lemma history_works (h : handle k) (l : list op) r :
  codec_ok cn -> codec_ok ce -> codec_total cn -> codec_total ce -> NoDup (history_keys h l) ->
  In r (fst (ret_of (hist l h) [] db_new)) -> ~ failed r.
Proof.
  intros Hn He Tn Te Hd Hin. destruct (good_new (k := k) cn ce nothing) as [G0 A0].
  pose proof (handle_steps cn ce Hn He mn me (fun _ : SE => False) nothing h l db_new Hd (fun _ _ H => H) G0
    (partx cn ce) (between_partx cn ce) (part_partx cn ce) (or_intror (fun _ _ _ H => H)) Tn Te (fun _ H => H) A0) as W.
  destruct (wp_exec _ _ _ _ [] db_new (allowed_nil _) W) as (_ & (_ & Hr & _) & _). rewrite Hr in Hin.
  apply in_map_iff in Hin. destruct Hin as (o & <- & _). unfold expected. destruct (op_error o); simpl; auto.
Qed.

Lemma history_caused (h : handle k) (l : list op) faults r :
  codec_ok cn -> codec_ok ce -> NoDup (history_keys h l) ->
  In r (fst (ret_of (hist l h) faults db_new)) -> caused cn ce faults r.
Proof.
  intros Hn He Hd Hin. destruct (good_new (k := k) cn ce nothing) as [G0 A0].
  pose proof (handle_history cn ce Hn He mn me (fun x => In (Some x) faults) nothing h l db_new Hd (fun _ _ H => H) G0) as W.
  destruct (wp_exec _ _ _ _ faults db_new (fun x H => H) W) as (_ & (Hb & _) & _).
  rewrite Forall_forall in Hb. apply Hb in Hin. destruct r as [[]|[[x|b| |]|e]]; simpl in *; auto.
Qed.

(** C36 *)
Lemma sessions_show (ss : list (handle k * list op)) faults :
  codec_ok cn -> codec_ok ce -> NoDup (session_keys ss) ->
  (forall rs r, In rs (ret_of (sess ss) faults db_new) -> In r rs -> ~ failed r) ->
  ret_of (sess ss) faults db_new = map (fun hl => map expected (snd hl)) ss /\
  sled_shows SE cn ce (db_of (sess ss) faults db_new) (spec_history mn me (flat_map snd ss) g_empty).
Proof.
  intros Hn He Hd Hno. destruct (good_sessions ss faults Hn He Hd Hno) as [Hr H]. split; auto. now apply stands_shows.
Qed.

Lemma sessions_run (ss : list (handle k * list op)) faults gn q :
  codec_ok cn -> codec_ok ce -> NoDup (session_keys ss) ->
  (forall rs r, In rs (ret_of (sess ss) faults db_new) -> In r rs -> ~ failed r) ->
  exists r g', now SE (s_run cn ce gn q) (db_of (sess ss) faults db_new) = Ok r /\
    answers q (spec_history mn me (flat_map snd ss) g_empty) g' /\ (drawn_distinct (id_generator r) -> shows r g').
Proof.
  intros Hn He Hd Hno. apply stands_run. now apply good_sessions.
Qed.

(** C29, C30, C33, C36: processes that fail and die, extends having run to their end *)
Lemma lives_show (ls : list (life (k := k) (NP := NP) (EP := EP) (SE := SE) (E := E))) :
  codec_ok cn -> codec_ok ce -> NoDup (life_keys ls) ->
  extends_done cn ce mn me ls db_new ->
  exists g, moments (SE := SE) (BE := BE) mn me (map lf_ops ls) g_empty g /\
    sled_shows SE cn ce (lives cn ce mn me ls db_new) g.
Proof.
  intros Hn He Hd Hx. destruct (good_new (k := k) cn ce nothing) as [G0 A0].
  pose proof (fair_lives cn ce Hn He mn me ls nothing db_new Hd (fun _ _ H => H) G0) as Hf.
  destruct (moments_lives cn ce Hn He mn me ls nothing db_new Hd (fun _ _ H => H) G0 A0 Hx) as [A M].
  exists (sabs (lives cn ce mn me ls db_new)). split; [|eapply good_shows; split; eauto].
  assert (forall (ls : list (list op)) (g0 g g' : G), g_equiv g0 g -> moments (SE := SE) (BE := BE) mn me ls g g' -> moments (SE := SE) (BE := BE) (E := E) mn me ls g0 g') as Q.
  { intros [|ops ls'] g0 g g' H0 H; simpl in *.
    - eapply g_equiv_trans; [exact H|]. now apply g_equiv_sym.
    - destruct H as (g1 & H1 & H2). exists g1. split; auto. eapply moment_equiv; [exact H0|apply g_equiv_refl|exact H1]. }
  eapply Q; [|exact M]. apply g_equiv_sym, abs_new.
Qed.

(** C27 *)
Lemma lists_both {X V E1 E2} (lt : X -> X -> Prop) (l1 : list (result E1 (X * V))) (l2 : list (result E2 (X * V))) f :
  (forall a, ~ lt a a) -> (forall a b c, lt a b -> lt b c -> lt a c) ->
  lists lt l1 f -> lists lt l2 f -> exists xs, l1 = map Ok xs /\ l2 = map Ok xs.
Proof.
  intros Ir Tr (x & -> & S & H) (y & -> & S' & H'). exists x. split; auto. f_equal.
  eapply sorted_unique; [| |exact S'|exact S|]; simpl; eauto.
  intros [a p]. rewrite H, H'. tauto.
Qed.

Lemma backends_agree (neqb : NP -> NP -> bool) (eeqb : EP -> EP -> bool) (gm : gen k) (h : handle k) (l : list op) faults :
  codec_ok cn -> codec_ok ce -> NoDup (history_keys h l) ->
  (forall r, In r (fst (ret_of (hist l h) faults db_new)) -> ~ failed r) ->
  drawn_distinct (id_generator (mem_history mn me l (mem_new gm))) ->
  (forall p, neqb p p = true) -> (forall p, eeqb p p = true) ->
  let m := mem_history mn me l (mem_new gm) in
  let d := db_of (hist l h) faults db_new in
  (exists ns, iter_vertices m = map Ok ns /\ now SE (s_iter_vertices (BE := BE) cn) d = map Ok ns) /\
  (forall o, exists es, iter_edges o m = map Ok es /\ now SE (s_iter_edges ce o) d = map Ok es) /\
  try_eq id_eqb neqb eeqb (iter_vertices m) (iter_edges SPO m)
    (now SE (s_iter_vertices cn) d) (now SE (s_iter_edges ce SPO) d) = Ok true /\
  try_eq id_eqb neqb eeqb (now SE (s_iter_vertices cn) d) (now SE (s_iter_edges ce SPO) d)
    (iter_vertices m) (iter_edges SPO m) = Ok true /\
  forall gq gq' q, exists r, now SE (s_run cn ce gq' q) d = Ok r /\
    (drawn_distinct (id_generator r) -> drawn_distinct (id_generator (run gq q m)) ->
     iter_vertices r = iter_vertices (run gq q m) /\ forall o, iter_edges o r = iter_edges o (run gq q m)).
Proof.
  intros Hn He Hd Hno Dm Rn Re m d.
  pose proof (top_history mn me gm l Dm) as Sm. fold m in Sm.
  destruct (good_history h l faults Hn He Hd Hno) as [_ St]. fold d in St.
  pose proof (stands_shows d _ St) as Sd. set (g := spec_history mn me l g_empty) in *.
  assert (same_graph neqb eeqb g g) as Sg.
  { split; intros x; unfold opt_rel; [destruct (g_node g x)|destruct (g_edge g x)]; auto. }
  split; [|split; [|split; [|split]]].
  - eapply (lists_both id_lt); [apply id_lt_irr|apply id_lt_tr|apply Sm|apply Sd].
  - intros o. eapply (lists_both (edge_lt o)); [apply edge_lt_irr|apply edge_lt_tr|apply Sm|apply Sd].
  - destruct (try_eq_graph neqb eeqb (Source (iter_vertices m) (iter_edges SPO m))
      (Source (now SE (s_iter_vertices (BE := BE) cn) d) (now SE (s_iter_edges ce SPO) d)) g g) as (r & Hq & Hr).
    + split; [apply Sm|apply (proj2 Sm)].
    + split; [apply Sd|apply (proj2 Sd)].
    + cbn [src_nodes src_edges] in Hq. rewrite Hq. f_equal. now apply Hr.
  - destruct (try_eq_graph neqb eeqb (Source (now SE (s_iter_vertices (BE := BE) cn) d) (now SE (s_iter_edges ce SPO) d))
      (Source (iter_vertices m) (iter_edges SPO m)) g g) as (r & Hq & Hr).
    + split; [apply Sd|apply (proj2 Sd)].
    + split; [apply Sm|apply (proj2 Sm)].
    + cbn [src_nodes src_edges] in Hq. rewrite Hq. f_equal. now apply Hr.
  - intros gq gq' q. destruct (stands_run d g gq' q St) as (r & g' & Hr & Ha & Hs). exists r. split; auto.
    intros D1 D2. specialize (Hs D1).
    assert (shows (run gq q m) g') as Hs'.
    { apply (shows_run_iff (E := E) mn me gq q m g g'); auto. apply reachable_history, R_new. }
    split.
    + apply (lists_unique id_lt id_lt_irr id_lt_tr) with (f := g_node g') (f' := g_node g'); [apply Hs|apply Hs'|auto].
    + intros o. apply (lists_unique (edge_lt o) (edge_lt_irr o) (edge_lt_tr o)) with (f := g_edge g') (f' := g_edge g');
        [apply (proj2 Hs)|apply (proj2 Hs')|auto].
Qed.

End Main.
