(** Facts about Debug.v *)
From Coq Require Import Arith NArith List Bool Sorted Lia.
From Verif Require Import Bytes BytesFacts OMap OMapFacts Core IdType IdTypeFacts Store Mem Spec
  CodecFacts ListFacts MemFacts MemSim MemSetFacts History MemTop Prog ProgFacts Sled SledHistory SledDb SledOps SledBulk SledRead
  Debug DebugSpec.
Import ListNotations.

Lemma hash_cmp_ok : cmp_ok hash_cmp.
Proof.
  split.
  - intros [a|] [b|]; simpl; split; intros H; try congruence; try discriminate.
    + apply N.compare_eq in H. congruence.
    + injection H as ->. apply N.compare_refl.
  - intros [a|] [b|]; simpl; auto. apply N.compare_antisym.
  - intros [a|] [b|] [c|]; simpl; try discriminate; auto. rewrite !N.compare_lt_iff. lia.
Qed.

(** ** Collecting *)
Section Collect.
Context {K V : Type} {cmp : K -> K -> comparison} (C : cmp_ok cmp).
Notation put := (fun m kv => om_insert cmp (fst kv) (snd kv) m).

Lemma collect_app (l l' : list (K * V)) : om_collect cmp (l ++ l') = fold_left put l' (om_collect cmp l).
Proof. apply fold_left_app. Qed.

Lemma collect_snoc (l : list (K * V)) x v : om_collect cmp (l ++ [(x, v)]) = om_insert cmp x v (om_collect cmp l).
Proof. now rewrite collect_app. Qed.

Lemma collect_sorted (l : list (K * V)) : om_sorted cmp (om_collect cmp l).
Proof.
  induction l as [|[x v] l IH] using rev_ind; [constructor|]. rewrite collect_snoc. now apply (om_sorted_insert C).
Qed.

Lemma collect_from (l : list (K * V)) x v : In (x, v) (om_collect cmp l) -> In (x, v) l.
Proof.
  induction l as [|[y w] l IH] using rev_ind; [intros []|]. rewrite collect_snoc. intros H.
  apply in_insert_weak in H. apply in_app_iff. destruct H as [[-> ->]|H]; simpl; auto.
Qed.

Lemma collect_has (l : list (K * V)) x v : In (x, v) l -> exists w, om_get cmp x (om_collect cmp l) = Some w.
Proof.
  induction l as [|[y w] l IH] using rev_ind; [intros []|]. rewrite collect_snoc, in_app_iff. intros H.
  destruct (cmp x y) eqn:E; [apply (cmp_eq _ C) in E; subst; rewrite (get_insert_eq C); eauto| |];
    (assert (x <> y) as N by (intros ->; rewrite (cmp_refl C) in E; discriminate);
     rewrite (get_insert_neq C) by exact N; apply IH; destruct H as [H|[[= -> ->]|[]]]; [exact H|congruence]).
Qed.

(** Nothing is lost when equal keys have equal values. *)
Lemma collect_get (l : list (K * V)) x v : (forall w, In (x, w) l -> w = v) -> In (x, v) l ->
  om_get cmp x (om_collect cmp l) = Some v.
Proof.
  intros H Hin. destruct (collect_has l x v Hin) as [w Hw]. rewrite Hw. f_equal. apply H.
  apply collect_from. now apply (get_in C).
Qed.

Lemma collect_none (l : list (K * V)) x : (forall v, ~ In (x, v) l) -> om_get cmp x (om_collect cmp l) = None.
Proof.
  intros H. destruct (om_get cmp x (om_collect cmp l)) as [v|] eqn:E; auto. exfalso.
  apply (H v). apply collect_from. now apply (get_in C).
Qed.

End Collect.

(** ** Pages *)
Section Pages.
Context {k : idkind} {NP EP : Type} (hash : bytes -> N).
Notation I := (Id k).
Notation T := (triple (Id k)).
Notation G := (graph k NP EP).
Implicit Types g : G.

(** Membership of lines. *)
Section In.
Context {NP' EP' : Type}.
Context (ns : list (I * NP')) (leak : list EP') (ps : list (N * EP')) (es : edge_order -> list T).

Lemma in_page_node i p : In (NodeLine i p) (page hash ns leak ps es) <-> In (i, p) ns.
Proof.
  unfold page. rewrite !in_app_iff, !in_map_iff. simpl. rewrite !in_map_iff. split.
  - intros [[H|[H|[]]]|[((j & q) & [= -> ->] & H)|[[H|[]]|[(e & H & _)|[(he & H & _)|[[H|(t & H & _)]|[[H|(t & H & _)]|[H|(t & H & _)]]]]]]]];
      auto; discriminate.
  - intros H. right. left. exists (i, p). auto.
Qed.

Lemma in_page_prop h e : In (PropLine (Some h) e) (page hash ns leak ps es) <-> In (h, e) ps.
Proof.
  unfold page. rewrite !in_app_iff, !in_map_iff. simpl. rewrite !in_map_iff. split.
  - intros [[H|[H|[]]]|[(x & H & _)|[[H|[]]|[(x & H & _)|[((j & q) & [= -> ->] & H)|[[H|(t & H & _)]|[[H|(t & H & _)]|[H|(t & H & _)]]]]]]]];
      auto; discriminate.
  - intros H. do 4 right. left. exists (h, e). auto.
Qed.

Lemma in_page_edge t h : In (EdgeLine t h) (page hash ns leak ps es) <->
  h = Some (hash (encode_spo t)) /\ exists o, In t (es o).
Proof.
  unfold page. rewrite !in_app_iff, !in_map_iff. simpl. rewrite !in_map_iff. split.
  - intros [[H|[H|[]]]|[(x & H & _)|[[H|[]]|[(x & H & _)|[(x & H & _)|[[H|(u & [= <- <-] & H)]|[[H|(u & [= <- <-] & H)]|[H|(u & [= <- <-] & H)]]]]]]]];
      try discriminate; eauto.
  - intros [-> [[] H]]; do 5 right; [left|right; left|right; right]; right; eauto.
Qed.
End In.

Lemma node_lines_in g (ns : list (I * NP)) : node_lines eq g ns -> forall i p, In (i, p) ns <-> g_node g i = Some p.
Proof.
  intros (_ & A & B) i p. split.
  - intros H. destruct (A _ _ H) as (q & Hq & <-). exact Hq.
  - intros H. destruct (B _ _ H) as [q Hq]. destruct (A _ _ Hq) as (r & Hr & <-). congruence.
Qed.

Lemma prop_lines_in g (ps : list (N * EP)) : no_collision hash g -> prop_lines hash eq g ps ->
  forall h e, In (h, e) ps <-> exists t, g_edge g t = Some e /\ hash (encode_spo t) = h.
Proof.
  intros Hc (_ & A & B) h e. split.
  - intros H. destruct (A _ _ H) as (t & q & Hq & Hh & <-). eauto.
  - intros (t & Ht & <-). destruct (B _ _ Ht) as [e' H]. destruct (A _ _ H) as (u & q & Hu & Hh & <-).
    assert (u = t) as -> by (apply Hc; congruence). congruence.
Qed.

Lemma prints_same g g' l l' : no_collision hash g -> no_collision hash g' -> prints hash g l -> prints hash g' l' ->
  (g_equiv g g' <-> l = l').
Proof.
  intros Hc Hc' (ns & ps & es & Hn & Hp & He & ->) (ns' & ps' & es' & Hn' & Hp' & He' & ->). split.
  - intros [E1 E2].
    assert (ns = ns') as ->.
    { apply (sorted_unique (fun x y : I * NP => id_lt (fst x) (fst y))).
      - intros [a p]. apply id_lt_irr.
      - intros a b c. apply id_lt_tr.
      - apply Hn.
      - apply Hn'.
      - intros [i p]. rewrite (node_lines_in g), (node_lines_in g') by auto. now rewrite E1. }
    assert (ps = ps') as ->.
    { apply (sorted_unique (fun x y : N * EP => (fst x < fst y)%N)).
      - intros a. apply N.lt_irrefl.
      - intros a b c. apply N.lt_trans.
      - apply Hp.
      - apply Hp'.
      - intros [h e]. rewrite (prop_lines_in g), (prop_lines_in g') by auto. now setoid_rewrite E2. }
    assert (forall o, es o = es' o) as Ee.
    { intros o. apply (sorted_unique (edge_lt o)); [apply edge_lt_irr|apply edge_lt_tr|apply He|apply He'|].
      intros t. rewrite (proj2 (He o)), (proj2 (He' o)). now rewrite E2. }
    unfold page. now rewrite !Ee.
  - intros El.
    assert (forall i p, g_node g i = Some p <-> g_node g' i = Some p) as A.
    { intros i p. rewrite <- (node_lines_in g ns), <- (node_lines_in g' ns') by auto.
      rewrite <- (in_page_node ns [] ps es), <- (in_page_node ns' [] ps' es'). now rewrite El. }
    assert (forall t, g_edge g t <> None <-> g_edge g' t <> None) as B.
    { intros t. rewrite <- (proj2 (He SPO)), <- (proj2 (He' SPO)).
      pose proof (in_page_edge ns [] ps es t (Some (hash (encode_spo t)))) as X.
      pose proof (in_page_edge ns' [] ps' es' t (Some (hash (encode_spo t)))) as Y. rewrite El in X. rewrite X in Y.
      split; intros H; [destruct (proj1 Y) as (_ & o & Ho)|destruct (proj2 Y) as (_ & o & Ho)]; eauto.
      - now apply (He' SPO), (He' o).
      - now apply (He SPO), (He o). }
    assert (forall h e, In (h, e) ps <-> In (h, e) ps') as Cc.
    { intros h e. rewrite <- (in_page_prop ns [] ps es), <- (in_page_prop ns' [] ps' es'). now rewrite El. }
    split.
    + intros i. destruct (g_node g i) as [p|] eqn:E1.
      * symmetry. now apply A.
      * destruct (g_node g' i) as [p|] eqn:E2; auto. apply A in E2. congruence.
    + intros t. destruct (g_edge g t) as [e|] eqn:E1.
      * assert (In (hash (encode_spo t), e) ps') as H by (apply Cc; apply (prop_lines_in g); eauto).
        apply (prop_lines_in g') in H; auto. destruct H as (u & Hu & Hh).
        assert (u = t) as ->; [|congruence]. apply Hc'; auto; [congruence|]. apply B. congruence.
      * destruct (g_edge g' t) eqn:E2; auto. exfalso. apply (proj2 (B t)); congruence.
Qed.

(** ** MemTripleStore *)
Notation M := (mem k NP EP).
Let IC := id_cmp_ok k.

Lemma spo_entry (m : M) key i : agree m -> In (key, i) (spo_data m) -> exists t, key = encode_spo t /\ eid m t = Some i.
Proof.
  intros A H. destruct (ag_keys _ A SPO key i H) as [t ->]. exists t. split; auto. now apply (index_in SPO A).
Qed.

Lemma mem_hash_get (m : M) : agree m -> good m -> forall t i, eid m t = Some i ->
  om_get id_cmp i (mem_hashes hash m) = Some (hash (encode_spo t)).
Proof.
  intros A Go t i H. unfold mem_hashes. apply (collect_get IC).
  - intros w Hw. apply in_map_iff in Hw. destruct Hw as ([key j] & [= <- <-] & Hin).
    destruct (spo_entry m key j A Hin) as (u & -> & Hu). now rewrite (go_inj _ Go u t j).
  - apply in_map_iff. exists (encode_spo t, i). split; auto. now apply (index_in SPO A).
Qed.

Lemma mem_edge_lines_eq (m : M) o : agree m -> good m ->
  mem_edge_lines hash o (dec o) (index o m) m =
  Title (TEdges o) :: map (fun t => EdgeLine t (Some (hash (encode_spo t)))) (map (fun kv => dec o (fst kv)) (index o m)).
Proof.
  intros A Go. unfold mem_edge_lines. f_equal. rewrite map_map. apply map_ext_in. intros [key i] H.
  destruct (ag_keys _ A o key i H) as [t ->]. simpl. rewrite dec_enc. f_equal. apply mem_hash_get; auto.
  now apply (index_in o A).
Qed.

Lemma mem_edges_listed (m : M) o : agree m -> good m -> edge_lines (abs m) o (map (fun kv => dec o (fst kv)) (index o m)).
Proof.
  intros A Go. split.
  - assert (forall l : list (bytes * I), (forall d i, In (d, i) l -> exists t : T, d = enc o t) -> om_sorted bytes_cmp l ->
      StronglySorted (edge_lt o) (map (fun kv => (dec o (fst kv) : T)) l)) as H.
    { induction l as [|[d i] l IH]; intros Hk Hs; simpl; [constructor|].
      inversion Hs as [|? ? Hs' Hf]; subst. constructor.
      - apply IH; auto. intros d' i' Hin. apply (Hk d' i'). now right.
      - apply Forall_forall. intros t Ht. apply in_map_iff in Ht. destruct Ht as ([d' i'] & <- & Hin).
        rewrite Forall_forall in Hf. specialize (Hf _ Hin). unfold key_lt in Hf. simpl in Hf.
        destruct (Hk d i (or_introl eq_refl)) as [u ->]. destruct (Hk d' i' (or_intror Hin)) as [u' ->].
        simpl. rewrite !dec_enc. now apply enc_lt. }
    apply H; [|apply (ag_index _ A)]. intros d i. apply (ag_keys _ A).
  - intros t. rewrite in_map_iff. simpl. unfold abs_edge. split.
    + intros ([d i] & <- & Hin). destruct (ag_keys _ A o d i Hin) as [u ->]. simpl. rewrite dec_enc.
      apply (index_in o A) in Hin. rewrite Hin. now apply (go_present _ Go u).
    + destruct (eid m t) as [i|] eqn:E; [|congruence]. intros _. exists (enc o t, i). split; [simpl; apply dec_enc|].
      now apply (index_in o A).
Qed.

Lemma hash_sorted {V} (l : list (option N * V)) : om_sorted hash_cmp l ->
  (forall h v, In (h, v) l -> h <> None) ->
  exists ps, l = map (fun he => (Some (fst he), snd he)) ps /\ StronglySorted (fun x y => (fst x < fst y)%N) ps.
Proof.
  induction l as [|[h v] l IH]; intros Hs Hn; [exists []; split; constructor|].
  inversion Hs as [|? ? Hs' Hf]; subst. destruct IH as (ps & -> & Hp); auto.
  { intros h' v' Hin. apply (Hn h' v'). now right. }
  destruct h as [h|]; [|exfalso; apply (Hn None v (or_introl eq_refl)); reflexivity].
  exists ((h, v) :: ps). split; auto. constructor; auto. apply Forall_forall. intros x Hx.
  rewrite Forall_forall in Hf. specialize (Hf (Some (fst x), snd x)). unfold key_lt in Hf. simpl in *.
  rewrite N.compare_lt_iff in Hf. apply Hf. apply in_map_iff. eauto.
Qed.

Lemma mem_props_listed (m : M) : agree m -> good m ->
  exists ps, mem_edge_data hash m = map (fun he => (Some (fst he), snd he)) ps /\ prop_lines hash eq (abs m) ps.
Proof.
  intros A Go. unfold mem_edge_data.
  set (l := map (fun ie => (om_get id_cmp (fst ie) (mem_hashes hash m), snd ie)) (edge_props m)).
  assert (forall h e, In (h, e) l <-> exists t, abs_edge m t = Some e /\ h = Some (hash (encode_spo t))) as Hl.
  { intros h e. unfold l. rewrite in_map_iff. split.
    - intros ([i e'] & [= <- <-] & Hin). apply (get_iff_in IC) in Hin; [|apply (ag_props _ A)].
      destruct (go_noleak _ Go i) as [t Ht]; [unfold prop; congruence|]. exists t. unfold abs_edge. rewrite Ht.
      split; auto. simpl. now apply mem_hash_get.
    - intros (t & Ht & ->). unfold abs_edge in Ht. destruct (eid m t) as [i|] eqn:E; [|discriminate].
      exists (i, e). simpl. rewrite (mem_hash_get m A Go t i E). split; auto. now apply (get_in IC). }
  destruct (hash_sorted (om_collect hash_cmp l)) as (ps & Hps & Hs).
  { apply (collect_sorted hash_cmp_ok). }
  { intros h v Hin. apply collect_from, Hl in Hin. destruct Hin as (t & _ & ->). discriminate. }
  exists ps. split; auto. split; auto. split.
  - intros h e Hin. assert (In (Some h, e) l) as H.
    { apply (collect_from (cmp := hash_cmp)). rewrite Hps. apply in_map_iff. exists (h, e). auto. }
    apply Hl in H. destruct H as (t & Ht & [= ->]). exists t, e. auto.
  - intros t e Ht. destruct (collect_has hash_cmp_ok l (Some (hash (encode_spo t))) e) as [w Hw].
    { apply Hl. exists t. split; [exact Ht|reflexivity]. }
    apply (get_in hash_cmp_ok) in Hw. rewrite Hps in Hw. apply in_map_iff in Hw. destruct Hw as ([h' w'] & [= E1 E2] & Hin).
    exists w'. now rewrite <- E1.
Qed.

(** The page, also with collisions. *)
Lemma mem_page (m : M) : agree m -> good m -> prints hash (abs m) (mem_debug hash m).
Proof.
  intros A Go. destruct (mem_props_listed m A Go) as (ps & Hps & Hp).
  exists (node_props m), ps, (fun o => map (fun kv => dec o (fst kv)) (index o m)). split; [|split; [|split]]; auto.
  - split; [|split].
    + pose proof (ag_nodes _ A) as S. unfold om_sorted in S. induction S as [|a l S IH F]; constructor; auto.
    + intros i p Hin. exists p. split; auto. apply (get_iff_in IC); [apply (ag_nodes _ A)|exact Hin].
    + intros i p H. exists p. now apply (get_in IC).
  - intros o. now apply mem_edges_listed.
  - pose proof (mem_edge_lines_eq m SPO A Go) as E1. pose proof (mem_edge_lines_eq m POS A Go) as E2.
    pose proof (mem_edge_lines_eq m OSP A Go) as E3. unfold mem_edge_lines in E1, E2, E3. simpl in E1, E2, E3.
    injection E1 as E1. injection E2 as E2. injection E3 as E3.
    unfold mem_debug, mem_edge_lines, page. rewrite Hps, map_map. simpl. now rewrite E1, E2, E3.
Qed.

Lemma prints_equiv g g' l : g_equiv g g' -> prints hash g l -> prints hash g' l.
Proof.
  intros [E1 E2] (ns & ps & es & (A1 & A2 & A3) & (B1 & B2 & B3) & C & ->). exists ns, ps, es.
  split; [|split; [|split]]; auto.
  - split; [exact A1|]. split; intros i p; rewrite <- E1; [apply A2|apply A3].
  - split; [exact B1|]. split.
    + intros h e H. destruct (B2 _ _ H) as (t & q & Hq & X). exists t, q. now rewrite <- E2.
    + intros t q. rewrite <- E2. apply B3.
  - intros o. destruct (C o) as [C1 C2]. split; auto. intros t. now rewrite <- E2.
Qed.

End Pages.

Section MemTop_.
Context {k : idkind} {NP EP E : Type} (mn : NP -> NP -> NP) (me : EP -> EP -> EP) (hash : bytes -> N).
Notation M := (mem k NP EP).
Implicit Types m : M.

Lemma debug_prints m g : reachable E mn me m -> drawn_distinct (id_generator m) -> shows m g -> prints hash g (mem_debug hash m).
Proof.
  intros R D S. destruct (sim_of_shows mn me m g R S) as [A H]. destruct (H D) as [Go Eq].
  eapply prints_equiv; [exact Eq|]. now apply mem_page.
Qed.

Lemma debug_same m m' g g' : reachable E mn me m -> drawn_distinct (id_generator m) -> shows m g ->
  reachable E mn me m' -> drawn_distinct (id_generator m') -> shows m' g' ->
  no_collision hash g -> no_collision hash g' ->
  (g_equiv g g' <-> mem_debug hash m = mem_debug hash m').
Proof. intros R D S R' D' S' Hc Hc'. apply (prints_same hash g g'); auto; now apply debug_prints. Qed.

End MemTop_.

(** ** SledTripleStore *)
Section SledPages.
Context {k : idkind} {NP EP SE BE : Type} (cn : codec BE NP) (ce : codec BE EP) (hash : bytes -> N).
Notation I := (Id k).
Notation T := (triple (Id k)).
Notation G := (graph k NP EP).
Notation err := (sled_error SE BE).
Notation PR A := (prog db SE (result err A)).
Notation ln := (line I unit bytes).
Notation sabs := (sabs (k := k) cn ce).
Let BC := bytes_cmp_ok.

(** A loop that makes a line of every entry. *)
Lemma rd_lines {X A} F d (f : X -> result err A) (g : X -> A) (l : list X) :
  (forall x, In x l -> f x = Ok (g x)) -> forall acc,
  rd F d (for_ok (fun x acc => next (bind_ok (Ret (f x)) (fun a => Ret (Ok (acc ++ [a]))))) l acc : PR (list A)) (Ok (acc ++ map g l)).
Proof.
  induction l as [|x l IH]; intros H acc; simpl.
  - rewrite app_nil_r. apply rd_ret.
  - eapply rd_eq with (v := and_then (Ok (acc ++ [g x])) (fun s => Ok (s ++ map g l))).
    + apply rd_bind.
      * apply rd_next. rewrite H by now left. simpl. apply rd_ret.
      * intros a [= <-]. apply IH. intros y Hy. apply H. now right.
    + simpl. now rewrite <- app_assoc.
Qed.

Definition id_of (key : bytes) : I := match try_from_be_bytes key with Some i => i | None => uint_mk (width k) 0 end.

Lemma rd_debug U F d : fair (k := k) cn ce U d ->
  rd F d (s_debug_lines hash : PR (list ln)) (Ok (
    [Title TStore; Title TNodes] ++ map (fun kv => NodeLine (id_of (fst kv)) tt) (t_node d) ++ [Title TProps] ++
    map (fun he => PropLine (fst he) (snd he)) (sled_edge_data (sled_hashes hash (t_spo d)) (t_edge d)) ++
    (Title (TEdges SPO) :: map (fun kv => EdgeLine (dec SPO (fst kv)) (om_get bytes_cmp (snd kv) (sled_hashes hash (t_spo d)))) (idx SPO d)) ++
    (Title (TEdges POS) :: map (fun kv => EdgeLine (dec POS (fst kv)) (om_get bytes_cmp (snd kv) (sled_hashes hash (t_spo d)))) (idx POS d)) ++
    (Title (TEdges OSP) :: map (fun kv => EdgeLine (dec OSP (fst kv)) (om_get bytes_cmp (snd kv) (sled_hashes hash (t_spo d)))) (idx OSP d)))).
Proof.
  intros [Fn Fe].
  assert (forall x, rd F d (s_entries x : PR (list (bytes * bytes))) (Ok (x d))) as He.
  { intros x. apply rd_look.
    pose proof (rd_lines F d (fun kv : bytes * bytes => Ok kv) (fun kv => kv) (x d) (fun _ _ => eq_refl) []) as H.
    rewrite map_id in H. exact H. }
  assert (rd F d (s_node_lines : PR (list ln)) (Ok (map (fun kv => NodeLine (id_of (fst kv)) tt) (t_node d)))) as Hn.
  { apply rd_look. assert (forall l, (forall kv, In kv l -> In kv (t_node d)) -> forall acc : list ln,
      rd F d (for_ok (fun kv acc => next (bind_ok (Ret (decode_id (fst kv))) (fun i => Ret (Ok (acc ++ [NodeLine i tt]))))) l acc : PR (list ln))
        (Ok (acc ++ map (fun kv => NodeLine (id_of (fst kv)) tt) l))) as Hl.
    { induction l as [|kv l IH]; intros Hi acc; simpl; [rewrite app_nil_r; apply rd_ret|].
      eapply rd_eq with (v := and_then (Ok (acc ++ [NodeLine (id_of (fst kv)) tt])) (fun s => Ok (s ++ map (fun kv => NodeLine (id_of (fst kv)) tt) l))).
      - apply rd_bind; [|intros a [= <-]; apply IH; intros y Hy; apply Hi; now right].
        apply rd_next. destruct kv as [key b]. destruct (fn_items cn _ Fn key b (Hi _ (or_introl eq_refl))) as (i & p & -> & _).
        unfold decode_id, id_of. simpl. rewrite try_from_to_be_bytes. simpl. apply rd_ret.
      - simpl. now rewrite <- app_assoc. }
    exact (Hl (t_node d) (fun _ H => H) []). }
  assert (forall o hs, rd F d (s_edge_lines (dec o) (idx o) hs : PR (list ln))
    (Ok (map (fun kv => EdgeLine (dec o (fst kv)) (om_get bytes_cmp (snd kv) hs)) (idx o d)))) as Hd.
  { intros o hs. apply rd_look. assert (forall l, (forall kv, In kv l -> In kv (idx o d)) -> forall acc : list ln,
      rd F d (for_ok (fun kv acc => next (bind_ok (Ret (decode_key (dec o) (fst kv))) (fun t => Ret (Ok (acc ++ [EdgeLine t (om_get bytes_cmp (snd kv) hs)]))))) l acc : PR (list ln))
        (Ok (acc ++ map (fun kv => EdgeLine (dec o (fst kv)) (om_get bytes_cmp (snd kv) hs)) l))) as Hl.
    { induction l as [|kv l IH]; intros Hi acc; simpl; [rewrite app_nil_r; apply rd_ret|].
      eapply rd_eq with (v := and_then (Ok (acc ++ [EdgeLine (dec o (fst kv)) (om_get bytes_cmp (snd kv) hs)])) (fun s => Ok (s ++ map (fun kv => EdgeLine (dec o (fst kv)) (om_get bytes_cmp (snd kv) hs)) l))).
      - apply rd_bind; [|intros a [= <-]; apply IH; intros y Hy; apply Hi; now right].
        apply rd_next. destruct kv as [key r]. destruct (fe_keys ce _ _ Fe o key r (Hi _ (or_introl eq_refl))) as [t ->]. simpl.
        destruct (decode_key_spec (k := k) (SE := SE) (BE := BE) (dec o) (enc o t)) as [[_ ->]|[Hlen _]]; [|now rewrite enc_length in Hlen].
        simpl. apply rd_ret.
      - simpl. now rewrite <- app_assoc. }
    exact (Hl (idx o d) (fun _ H => H) []). }
  unfold s_debug_lines.
  assert (forall A B (p : PR A) (f : A -> PR B) a v, rd F d p (Ok a) -> rd F d (f a) v -> rd F d (bind_ok p f) v) as Hb.
  { intros A B p f a v H1 H2. eapply rd_eq; [apply rd_bind with (v := fun _ => v); [exact H1|]|reflexivity]. intros x [= <-]. exact H2. }
  eapply Hb; [exact Hn|]. eapply Hb; [apply He|]. cbv zeta. eapply Hb; [apply He|].
  eapply Hb; [apply (Hd SPO)|]. eapply Hb; [apply (Hd POS)|]. eapply Hb; [apply (Hd OSP)|]. apply rd_ret.
Qed.
End SledPages.
