(** What a copy of an RDF store within one sled database does when others are using the database. *)
From Coq Require Import Arith NArith List Bool Lia Sorted.
From Verif Require Import Bytes OMap Core IdType Store Mem MemIndex Spec GenSpec Prog ProgFacts Sled SledHistory SledTables SledTop
  SledLeaf SledLazy SledBeside SledIndex Rdf RdfSpec RdfSled RdfSledSpec RdfSledLeaf SledCopy RdfSledCopy RdfSledCopyTop SledTwo SledTwoFacts SledTwoTop
  RdfSledTwo RdfSledTwoTop RdfSledLazy RdfSledExactTop RdfSledEqTwoTop SledEqSameFacts SledSelfLiveFacts SledSelfLiveTop RdfSledSelfLive SledSched SledBeside RdfSledLeaf.
Import ListNotations.

(** ** All that a program may return *)
Section Ends.
Context {D SE : Type}.
Fixpoint ends_in {A} (Q : A -> Prop) (p : prog D SE A) : Prop :=
  match p with
  | Ret a => Q a
  | Look k => forall d, ends_in Q (k d)
  | Act _ k e => (forall d, ends_in Q (k d)) /\ forall x, ends_in Q (e x)
  end.
Lemma ends_any {A} (p : prog D SE A) : ends_in (fun _ => True) p.
Proof. induction p as [a|k IH|u k IH e IHe]; simpl; auto. Qed.
Lemma ends_bind {A B} Q (p : prog D SE A) (f : A -> prog D SE B) R : ends_in R p -> (forall a, R a -> ends_in Q (f a)) -> ends_in Q (bind p f).
Proof. intros Hp Hf. induction p as [a|k IH|u k IH e IHe]; simpl in *; auto. destruct Hp. split; auto. Qed.
Lemma ends_replay {A} (Q : A -> Prop) (p : prog D SE A) : ends_in Q p -> forall m P x m' P', replay p m P = Some (x, m', P') -> Q x.
Proof.
  induction p as [a|k IH|u k IH e IHe]; intros Hp m P x m' P' E; simpl in *.
  - injection E as <- _ _. exact Hp.
  - destruct m as [|[d|d d'|z] m]; try discriminate. eapply IH; eauto.
  - destruct Hp. destruct m as [|[d|d d'|z] m]; try discriminate; [eapply IH|eapply IHe]; eauto.
Qed.
End Ends.
Lemma ends_graph {SE A} (Q : A -> Prop) (p : prog db SE A) : ends_in Q p -> ends_in Q (on_graph p).
Proof. induction p as [a|k IH|u k IH e IHe]; simpl; auto. intros [H1 H2]. split; auto. Qed.

(** ** How many keys were drawn *)
Section Count.
Context {S NP EP SE BE ER : Type}.
Notation err := (rdf_error S (sled_index_error S (Id KUlid) SE BE) (sled_error SE BE)).
Notation H := rhandle.
Definition gpos (h : rhandle) : nat := g_pos (h_gen (rh_graph h)).
Definition stays {A} (body : A -> H -> prog rdb SE (result err unit * H)) : Prop :=
  forall a h m (P : Prop) rh m' P', replay (body a h) m P = Some (rh, m', P') -> gpos (snd rh) = gpos h.
Definition draws1 {A} (body : A -> H -> prog rdb SE (result err unit * H)) : Prop :=
  forall a h m (P : Prop) rh m' P', replay (body a h) m P = Some (rh, m', P') ->
    gpos (snd rh) = 1 + gpos h \/ (gpos (snd rh) = gpos h /\ exists e, fst rh = Err e).
Definition is_left {X Y} (a : result (lr_error X Y) unit) : Prop := exists e, a = Err (LeftE e).
Lemma feed_stays {A} (body : A -> H -> prog rdb SE (result err unit * H)) : stays body ->
  forall (xs : list (result ER A)) h m P a h' m' P', feed (by_list body) xs (Some (h, m, P)) = (a, Some (h', m', P')) -> gpos h' = gpos h.
Proof.
  intros Hb. induction xs as [|[x|e] xs IH]; intros h m P a h' m' P' E; cbn [feed] in *.
  - injection E as _ -> _ _. reflexivity.
  - cbn [by_list] in *. destruct (replay (body x h) m P) as [[[[[[]|e] h1] m1] P1]|] eqn:Er; cbn [fst snd] in *.
    + apply Hb in Er. cbn [snd] in Er. rewrite (IH _ _ _ _ _ _ _ E), Er. reflexivity.
    + injection E as _ -> _ _. apply Hb in Er. exact Er.
    + apply r_feed_none in E. discriminate.
  - injection E as _ -> _ _. reflexivity.
Qed.
Lemma feed_draws {A} (body : A -> H -> prog rdb SE (result err unit * H)) : draws1 body ->
  forall (xs : list (result ER A)) h m P a h' m' P', feed (by_list body) xs (Some (h, m, P)) = (a, Some (h', m', P')) ->
  let n := length (before_error (trim (by_list body) xs (Some (h, m, P)))) in
  gpos h <= gpos h' /\ n + gpos h <= gpos h' + 1 /\ (~ is_left a -> gpos h' = n + gpos h).
Proof.
  intros Hb. induction xs as [|[x|e] xs IH]; intros h m P a h' m' P' E; cbn [trim feed before_error length] in *.
  - injection E as _ -> _ _. lia.
  - cbn [by_list] in *. destruct (replay (body x h) m P) as [[[[[[]|e] h1] m1] P1]|] eqn:Er; cbn [fst snd] in *.
    + apply Hb in Er. cbn [snd fst] in Er. destruct Er as [Er|[_ [e Er]]]; [|discriminate]. destruct (IH _ _ _ _ _ _ _ E) as (G1 & G2 & G3).
      split; [lia|]. split; [lia|]. intros Ha. specialize (G3 Ha). lia.
    + injection E as <- -> _ _. apply Hb in Er. cbn [snd fst before_error length] in *. split; [lia|]. split; [lia|]. intros Ha. exfalso. apply Ha. eexists; reflexivity.
    + apply r_feed_none in E. discriminate.
  - injection E as _ -> _ _. lia.
Qed.
End Count.

Section Trimmed.
Context {S NP EP ER H EL : Type}.
Lemma trim_err {A} (f : A -> H -> result EL unit * H) (x : ER) xs : forall h, In (Err x) (trim f xs h) -> fst (feed f xs h) = Err (RightE x).
Proof.
  induction xs as [|[a|e] xs IH]; intros h; cbn [trim feed].
  - intros [].
  - intros [D|Hin]; [discriminate|]. destruct (f a h) as [[u|e] h1]; [auto|contradiction].
  - intros [D|[]]. injection D as ->. reflexivity.
Qed.
Context (fn : entity S * NP -> H -> result EL unit * H) (fe : triple (entity S) * EP -> H -> result EL unit * H).
Definition r_trim_both (s : rdf_source S NP EP ER) (h : H) : rdf_source S NP EP ER :=
  RdfSource (trim fn (rs_nodes s) h)
    (match feed fn (rs_nodes s) h with (Ok _, h1) => trim fe (rs_edges s) h1 | (Err _, _) => [] end).
Lemma r_feed_trim_both s h : r_feed_both fn fe (r_trim_both s h) h = r_feed_both fn fe s h.
Proof.
  unfold r_feed_both, r_trim_both. cbn [rs_nodes rs_edges]. rewrite feed_trim. destruct (feed fn (rs_nodes s) h) as [[u|e] h1]; auto. apply feed_trim.
Qed.
Lemma r_trim_both_prefix s h : (exists r, rs_nodes s = rs_nodes (r_trim_both s h) ++ r) /\ (exists r, rs_edges s = rs_edges (r_trim_both s h) ++ r).
Proof.
  unfold r_trim_both. cbn [rs_nodes rs_edges]. split; [apply trim_prefix|]. destruct (feed fn (rs_nodes s) h) as [[u|e] h1]; [apply trim_prefix|eexists; reflexivity].
Qed.
Lemma r_trim_both_all s h : fst (r_feed_both fn fe s h) = Ok tt -> r_trim_both s h = s.
Proof.
  unfold r_feed_both, r_trim_both. destruct s as [ns es]. cbn [rs_nodes rs_edges]. destruct (feed fn ns h) as [[u|e] h1] eqn:E1; [|discriminate]. intros E2.
  f_equal; [eapply trim_all; rewrite E1; reflexivity|eapply trim_all; exact E2].
Qed.
Lemma r_trim_used s h : used_edges (r_trim_both s h) = before_error (rs_edges (r_trim_both s h)).
Proof.
  unfold used_edges, r_trim_both. cbn [rs_nodes rs_edges]. destruct (first_error (trim fn (rs_nodes s) h)) as [x|] eqn:Ex; auto.
  assert (Hin : In (Err x) (trim fn (rs_nodes s) h)).
  { revert Ex. generalize (trim fn (rs_nodes s) h). induction l as [|[a|e] l IH]; simpl; [discriminate|auto|]. intros [= ->]. auto. }
  apply trim_err in Hin. destruct (feed fn (rs_nodes s) h) as [r h1]. cbn [fst] in Hin. rewrite Hin. reflexivity.
Qed.
Lemma r_trim_err s h x : In (Err x) (rs_edges (r_trim_both s h)) -> fst (r_feed_both fn fe s h) = Err (RightE x).
Proof.
  unfold r_trim_both, r_feed_both. cbn [rs_edges]. destruct (feed fn (rs_nodes s) h) as [[u|e] h1]; [apply trim_err|intros []].
Qed.
End Trimmed.
Lemma r_both_count {S NP EP SE BE ER} (fn : entity S * NP -> rhandle -> prog rdb SE (result (rdf_error S (sled_index_error S (Id KUlid) SE BE) (sled_error SE BE)) unit * rhandle))
    fe (s : rdf_source S NP EP ER) h m P a h' m' P' :
  stays fn -> draws1 fe -> r_feed_both (by_list fn) (by_list fe) s (Some (h, m, P)) = (a, Some (h', m', P')) ->
  let n := length (used_edges (r_trim_both (by_list fn) (by_list fe) s (Some (h, m, P)))) in
  n <= Datatypes.S (gpos h' - gpos h) /\ (~ is_left a -> n = gpos h' - gpos h).
Proof.
  intros Hn He E n. unfold n. rewrite r_trim_used. unfold r_feed_both, r_trim_both in *. cbn [rs_edges].
  destruct (feed (by_list fn) (rs_nodes s) (Some (h, m, P))) as [[u|e] [[[h1 m1] P1]|]] eqn:E1.
  - apply (feed_stays fn Hn) in E1. apply (feed_draws fe He) in E. destruct E as (G1 & G2 & G3). rewrite E1 in *. split; [lia|]. intros Ha. specialize (G3 Ha). lia.
  - apply r_feed_none in E. discriminate.
  - injection E as _ <- _ _. apply (feed_stays fn Hn) in E1. cbn [before_error length]. lia.
  - discriminate.
Qed.

(** ** The reader *)
Lemma r_take_fed {S NP EP SE BE H EL} (cs : codec BE S) cu (cn : codec BE NP) (ce : codec BE EP) (fn : entity S * NP -> H -> result EL unit * H) fe cuts cuts' h m x :
  follows (rs_take_over (SE := SE) cs cu cn ce fn fe cuts cuts' h) m x -> exists s, x = r_feed_both fn fe s h.
Proof.
  unfold rs_take_over. intros F. apply follows_inv in F. destruct F as (m1 & m2 & [r h1] & -> & F1 & F2). cbn [fst snd] in F2.
  apply loop_fed in F1. destruct F1 as [ns E1]. destruct r as [u|e].
  - apply loop_fed in F2. destruct F2 as [es E2]. exists (RdfSource ns es). unfold r_feed_both. cbn [rs_nodes rs_edges]. rewrite <- E1. exact E2.
  - destruct m2; simpl in F2; [|contradiction]. exists (RdfSource ns []). unfold r_feed_both. cbn [rs_nodes rs_edges]. rewrite <- E1. exact F2.
Qed.
Lemma ro_into_entry {EP SE BE} (ce : codec BE EP) o kv : readonly (into_edge_of_entry (SE := SE) ce o kv).
Proof.
  unfold into_edge_of_entry. apply readonly_bind_ok; [constructor|]. intros t. apply readonly_bind_ok.
  - constructor; auto; intros; constructor.
  - intros data. apply readonly_bind_ok; [|intros [p|]; constructor]. unfold opt_de, bincode. destruct data as [b|]; [destruct (de ce b)|]; repeat constructor.
Qed.
Lemma r_ro_take {S NP EP SE BE H EL} (cs : codec BE S) cu (cn : codec BE NP) (ce : codec BE EP) (fn : entity S * NP -> H -> result EL unit * H) fe cuts cuts' h :
  readonly (rs_take_over (SE := SE) cs cu cn ce fn fe cuts cuts' h).
Proof.
  unfold rs_take_over. apply readonly_bind; [apply ro_loop; intros kv; apply ro_shown; [apply ro_node_item|apply ro_show_pair]|].
  intros [[u|e] h1]; cbn [fst snd]; [apply ro_loop; intros kv; apply ro_shown; [apply ro_into_entry|apply ro_show_edge]|constructor].
Qed.
Lemma r_joined_both {S NP EP SE BE} (cs : codec BE S) cu (cn : codec BE NP) (ce : codec BE EP)
    (fn : entity S -> NP -> rhandle -> prog rdb SE (result (rdf_error S (sled_index_error S (Id KUlid) SE BE) (sled_error SE BE)) unit * rhandle)) fe cuts cuts' h :
  joined (r_over_both cs cu cn ce (fun ip => fn (fst ip) (snd ip)) (fun te => fe (fst te) (snd te)) cuts cuts' h) (rs_loop_both cs cu cn ce fn fe cuts cuts' h).
Proof.
  unfold r_over_both, over_both, rs_loop_both.
  apply joined_bind; [apply (joined_loop (fun d => t_node (r_trees d)) (shown_item (node_item cn) (rs_show_pair cs cu)) (fun ip => fn (fst ip) (snd ip)))|].
  intros [[u|e] h1]; cbn [fst snd]; [|constructor].
  apply (joined_loop (fun d => t_spo (r_trees d)) (shown_item (into_edge_of_entry ce SPO) (rs_show_edge cs cu)) (fun te => fe (fst te) (snd te))).
Qed.

(** ** What the calls draw *)
Section Calls.
Context {S NP EP SE BE : Type} (cs : codec BE S) (cu : codec BE (Id KUlid)) (cn : codec BE NP) (ce : codec BE EP).
Lemma ends_create (e : entity S) h : ends_in (fun rh => rh_graph (snd rh) = rh_graph h) (rs_lookup_or_create (SE := SE) cs cu e h).
Proof.
  destruct e as [s|i]; cbn [rs_lookup_or_create]; [|reflexivity].
  eapply ends_bind; [apply ends_any|]. intros [[i|]|x] _; [reflexivity| |reflexivity]. cbn [fresh]. eapply ends_bind; [apply ends_any|]. intros r _. reflexivity.
Qed.
Lemma ends_h {A B} (p : prog rdb SE (result (rdf_error S (sled_index_error S (Id KUlid) SE BE) (sled_error SE BE)) A * rhandle)) (f : A -> rhandle -> prog rdb SE (result _ B * rhandle)) h
    (Q : result _ B * rhandle -> Prop) :
  ends_in (fun rh => rh_graph (snd rh) = rh_graph h) p ->
  (forall a h1, rh_graph h1 = rh_graph h -> ends_in Q (f a h1)) -> (forall e h1, rh_graph h1 = rh_graph h -> Q (Err e, h1)) -> ends_in Q (bind_h p f).
Proof. intros Hp Hf He. unfold bind_h. eapply ends_bind; [exact Hp|]. intros [[a|e] h1]; cbn [fst snd]; intros E; [auto|apply He, E]. Qed.
Lemma ends_create3 (t : triple (entity S)) h : ends_in (fun rh => rh_graph (snd rh) = rh_graph h) (rs_create3 (SE := SE) cs cu t h).
Proof.
  unfold rs_create3. apply (ends_h _ _ h); [apply ends_create| |auto]. intros a h1 E1.
  apply (ends_h _ _ h1); [apply ends_create| |cbn [snd]; congruence]. intros b h2 E2.
  apply (ends_h _ _ h2); [apply ends_create| |cbn [snd]; congruence]. intros c h3 E3. cbn [ends_in snd]. congruence.
Qed.
Lemma stays_node (e : entity S) h (f : Id KUlid -> prog db SE (result (sled_error SE BE) unit)) :
  ends_in (fun rh => gpos (snd rh) = gpos h) (bind_h (rs_lookup_or_create cs cu e h) (fun id => graph_call (fun g => and_handle g (f id)))).
Proof.
  apply (ends_h _ _ h); [apply ends_create| |intros x h1 E; unfold gpos; cbn [snd]; now rewrite E]. intros i h1 E. unfold graph_call.
  apply (ends_bind _ _ _ (fun rh => snd rh = rh_graph h1)); [apply ends_graph; unfold and_handle; eapply ends_bind; [apply ends_any|]; reflexivity|].
  intros [r g] E2. cbn [ends_in snd fst] in *. unfold gpos. cbn [rh_graph]. now rewrite E2, E.
Qed.
Lemma draws_edge (t : triple (entity S)) h (f : triple (Id KUlid) -> handle KUlid -> prog db SE (result (sled_error SE BE) unit * handle KUlid)) :
  (forall t g, ends_in (fun rh => g_pos (h_gen (snd rh)) = 1 + g_pos (h_gen g)) (f t g)) ->
  ends_in (fun rh => gpos (snd rh) = 1 + gpos h \/ (gpos (snd rh) = gpos h /\ exists e, fst rh = Err e)) (bind_h (rs_create3 cs cu t h) (fun t => graph_call (f t))).
Proof.
  intros Hf. apply (ends_h _ _ h); [apply ends_create3| |intros x h1 E; right; unfold gpos; cbn [snd fst]; rewrite E; eauto]. intros u h1 E. unfold graph_call.
  eapply ends_bind; [apply ends_graph, Hf|]. intros [r g] E2. cbn [ends_in snd fst] in *. left. unfold gpos. cbn [rh_graph]. now rewrite E2, E.
Qed.
Lemma ends_handle {A} (g : handle KUlid) (p : prog db SE A) : ends_in (fun rh => snd rh = g) (and_handle g p).
Proof. unfold and_handle. eapply ends_bind; [apply ends_any|]. reflexivity. Qed.
Lemma ends_mono {D A} (Q Q' : A -> Prop) (p : prog D SE A) : (forall a, Q a -> Q' a) -> ends_in Q p -> ends_in Q' p.
Proof. intros Hq. induction p as [a|k IH|u k IH e IHe]; simpl; auto. intros [H1 H2]. split; auto. Qed.
Lemma stays_insert : stays (fun ip : entity S * NP => rs_insert_node (SE := SE) cs cu cn (fst ip) (snd ip)).
Proof. intros a h. eapply (ends_replay (fun rh => gpos (snd rh) = gpos h)). apply stays_node. Qed.
Lemma stays_merge mn : stays (fun ip : entity S * NP => rs_merge_node (SE := SE) cs cu cn mn (fst ip) (snd ip)).
Proof. intros a h. eapply (ends_replay (fun rh => gpos (snd rh) = gpos h)). apply stays_node. Qed.
Lemma draws_insert : draws1 (fun te : triple (entity S) * EP => rs_insert_edge (SE := SE) cs cu ce (fst te) (snd te)).
Proof.
  intros a h m P rh m' P'. apply (ends_replay (fun rh => gpos (snd rh) = 1 + gpos h \/ (gpos (snd rh) = gpos h /\ exists e, fst rh = Err e))). apply draws_edge. intros t g.
  unfold s_insert_edge. cbn [draw fresh]. eapply ends_mono; [|apply ends_handle]. intros x ->. reflexivity.
Qed.
Lemma draws_merge me : draws1 (fun te : triple (entity S) * EP => rs_merge_edge (SE := SE) cs cu ce me (fst te) (snd te)).
Proof.
  intros a h m P rh m' P'. apply (ends_replay (fun rh => gpos (snd rh) = 1 + gpos h \/ (gpos (snd rh) = gpos h /\ exists e, fst rh = Err e))). apply draws_edge. intros t g.
  unfold s_merge_edge. cbn [draw fresh]. eapply ends_mono; [|apply ends_handle]. intros x ->. reflexivity.
Qed.
End Calls.

Lemma nodup_fewer {A} (f : nat -> A) p n n' l l' : n <= n' -> NoDup (l ++ map f (seq p n') ++ l') -> NoDup (l ++ map f (seq p n) ++ l').
Proof.
  intros Hn. replace n' with (n + (n' - n)) by lia. rewrite seq_app, map_app. generalize (map f (seq p n)) as X, (map f (seq (p + n) (n' - n))) as Y. intros X Y.
  rewrite !NoDup_app_iff. intros (H1 & ((H2 & H3 & H4) & H5 & H6) & H7). split; auto. split.
  - split; auto. split; auto. intros x Hx. apply H6. apply in_app_iff. auto.
  - intros x Hx Hin. apply (H7 x Hx). rewrite !in_app_iff in *. tauto.
Qed.

(** ** The copy *)
Section Self.
Context {S NP EP SE BE : Type} (seqb : S -> S -> bool) (cs : codec BE S) (cu : codec BE (Id KUlid)) (cn : codec BE NP) (ce : codec BE EP) (mn : NP -> NP -> NP) (me : EP -> EP -> EP).
Notation err := (rdf_error S (sled_index_error S (Id KUlid) SE BE) (sled_error SE BE)).
Notation rop := (rop S NP EP err).
Context (fn : entity S -> NP -> rhandle -> prog rdb SE (result err unit * rhandle)) (fe : triple (entity S) -> EP -> rhandle -> prog rdb SE (result err unit * rhandle))
  (mk : rdf_source S NP EP err -> rop).
Notation fn' := (fun ip => fn (fst ip) (snd ip)).
Notation fe' := (fun te => fe (fst te) (snd te)).
Lemma r_self_beside (es : list (repoch (S := S) (NP := NP) (EP := EP) (SE := SE) (E := err))) (ts : list (rhandle * list rop))
    (wcuts : nat -> nat -> cutting) (cuts cuts' : list bytes) (schedule : list (nat * option SE)) (h h' : rhandle) a :
  stays fn' -> draws1 fe' ->
  (forall s, r_draws (mk s) = length (used_edges s)) ->
  ((forall den s t, ~ r_rewrites den (mk s) t) \/ mk = RMerge) ->
  (forall s, rl_history cs cu cn ce mn me (wcuts 0) 0 [mk s] h = bind (rs_bulk fn fe s h) (fun x => Ret ([fst x], snd x))) ->
  (forall a b, seqb a b = true <-> a = b) ->
  codec_ok cs -> codec_ok cu -> codec_ok cn -> codec_ok ce -> codec_total cu ->
  NoDup (flat_map epoch_keys es ++ r_drawn_keys h h' ++ callers_keys ts) -> Forall RdfSledSpec.calm es ->
  let d := rs_epochs cs cu cn ce mn me es rdb_new in
  let ps := beside (rs_loop_both cs cu cn ce fn fe cuts cuts' h) (rl_callers cs cu cn ce mn me wcuts 1 ts) in
  let ran := interleave schedule ps d in
  has_read (a, h') (fst ran) ->
  exists s, let calls := (h, [mk s]) :: ts in
  r_handed2 cs cu cn ce (during schedule ps d) (snd ran) (met schedule) calls s /\ (a = Ok tt -> r_complete2 cs cu cn ce (during schedule ps d) (snd ran) s) /\
  NoDup (flat_map epoch_keys es ++ callers_keys calls) /\
  exists schedule' qs, fst ran = Ret (inl (a, h')) :: map (fun q => bind q (fun b => Ret (inr b))) qs /\
    (forall i f, In (i, f) schedule' -> In (i, f) schedule) /\
    interleave schedule' (rl_callers cs cu cn ce mn me wcuts 0 calls) d = (Ret ([a], h') :: qs, snd ran).
Proof.
  intros Hst Hdr Dg Hrw Hcall Hseq Hcs Hcu Hcn Hce Htu Hd Hcalm d ps ran Hx. unfold ran in *. clear ran.
  destruct (interleave schedule ps d) as [ps' d'] eqn:Ei. cbn [fst snd] in *.
  destruct (run_self schedule _ _ _ d _ (a, h') ps' d'
    (alone_both (fun d => t_node (r_trees d)) (fun d => t_spo (r_trees d))
      (shown_item (node_item cn) (rs_show_pair cs cu)) (shown_item (into_edge_of_entry ce SPO) (rs_show_edge cs cu)) fn' fe' cuts cuts' h)
    (r_joined_both cs cu cn ce fn fe cuts cuts' h) Ei Hx) as (m & s' & ws' & Eps & HG & H1 & H2).
  destruct (HG [] True) as (P' & HP & Hf). rewrite app_nil_r in Hf. cbn [fst snd] in Hf. specialize (HP Logic.I).
  set (st := Some (h, rights m, True)) in *.
  change (follows (rs_take_over cs cu cn ce (by_list fn') (by_list fe') cuts cuts' st) (lefts m) (a, Some (h', [], P'))) in Hf.
  set (reader := rs_take_over cs cu cn ce (by_list fn') (by_list fe') cuts cuts' st) in *.
  set (cut := fun s : rdf_source S NP EP err => r_trim_both (by_list fn') (by_list fe') s st).
  assert (Hcount : forall s, (a, Some (h', [], P')) = r_feed_both (by_list fn') (by_list fe') s st ->
    length (used_edges (cut s)) <= Datatypes.S (gpos h' - gpos h) /\ (~ is_left a -> length (used_edges (cut s)) = gpos h' - gpos h)).
  { intros s E. symmetry in E. exact (r_both_count fn' fe' _ _ _ _ _ _ _ _ Hst Hdr E). }
  assert (Hkeys : forall s, (a, Some (h', [], P')) = r_feed_both (by_list fn') (by_list fe') s st ->
    NoDup (flat_map epoch_keys es ++ callers_keys ((h, [mk (cut s)]) :: ts))).
  { intros s E. destruct (Hcount s E) as [G1 _]. unfold callers_keys. cbn [flat_map fst snd]. unfold rs_keys, sum. cbn [map fold_right]. rewrite Dg, Nat.add_0_r.
    revert Hd. unfold r_drawn_keys, next_ids. rewrite !map_map. apply nodup_fewer. exact G1. }
  assert (Hcalls : forall s, (a, Some (h', [], P')) = r_feed_both (by_list fn') (by_list fe') s st ->
    follows (rl_history cs cu cn ce mn me (wcuts 0) 0 [mk (cut s)] h) (rights m) ([a], h')).
  { intros s E. rewrite Hcall. rewrite <- (r_feed_trim_both (by_list fn') (by_list fe') s st) in E. fold (cut s) in E. symmetry in E. unfold st in E. apply r_feed_both_list in E.
    destruct (replay_follows _ _ _ _ _ _ E HP) as (_ & m0 & -> & Hf0). rewrite app_nil_r. rewrite <- (app_nil_r m0). eapply follows_bind; [exact Hf0|]. reflexivity. }
  destruct (r_take_fed cs cu cn ce (by_list fn') (by_list fe') cuts cuts' st _ _ Hf) as [s0 F0].
  pose (calls0 := (h, [mk (cut s0)]) :: ts).
  assert (Fa : follows (bind reader (fun x => Ret (inl x))) (lefts m) (inl (a, Some (h', [], P')) : _ + (list (routcome (S := S) (SE := SE) (BE := BE) (E := err)) * rhandle))).
  { rewrite <- (app_nil_r (lefts m)). eapply follows_bind; [exact Hf|]. reflexivity. }
  assert (Fb : follows (bind (rl_history cs cu cn ce mn me (wcuts 0) 0 [mk (cut s0)] h) (fun x => Ret (inr x))) (rights m)
    (inr ([a], h') : (result (lr_error err err) unit * option (rhandle * list (ev (SE := SE) rdb) * Prop)) + _)).
  { rewrite <- (app_nil_r (rights m)). eapply follows_bind; [apply (Hcalls s0 F0)|]. reflexivity. }
  destruct (H2 _ _ (step1_wrap inr) _ _ _ _ Fa Fb) as [Er Es].
  assert (Ex : interleave s' (beside reader (rl_callers cs cu cn ce mn me wcuts 0 calls0)) d =
    (Ret (inl (a, Some (h', [], P'))) :: Ret (inr ([a], h')) :: map (fun q => bind q (fun b => Ret (inr b))) ws', d')) by exact Er.
  destruct (rtaken_beside S NP EP SE BE err _ _ seqb cs cu cn ce mn me (by_list fn') (by_list fe') Hseq Hcs Hcu Hcn Hce Htu es calls0 wcuts cuts cuts' s'
    st a (Some (h', [], P')) (Hkeys s0 F0) Hcalm) as (Hnm & Hone & s & Ef & Hh & Hcm).
  { unfold has_read. fold reader d. rewrite Ex. reflexivity. }
  fold reader d in Hnm, Hone, Hh, Hcm. unfold r_handed in Hh. unfold r_complete in Hcm. rewrite Ex in Hnm, Hone, Hh, Hcm. cbn [snd] in Hnm, Hone, Hh, Hcm.
  assert (Hseen : forall d1, during s' (beside reader (rl_callers cs cu cn ce mn me wcuts 0 calls0)) d d1 <-> during schedule ps d d1).
  { intros d1. exact (Es d1). }
  assert (Hmet : forall y, met s' y -> met schedule y). { intros y Hy. exact (H1 0 (Some y) Hy). }
  assert (Hfault : forall z : err, is_fault (met s') z -> is_fault (met schedule) z). { intros z (y & Hy & Ez). exists y. auto. }
  assert (Hden : forall d1 i e, called SE cs cu (knowing SE cs cu (during s' (beside reader (rl_callers cs cu cn ce mn me wcuts 0 calls0)) d) d1) i e -> r_denotes SE cs cu d' e i).
  { intros d1 i e (d2 & [D2 _] & ->). unfold shown. destruct (id_now cs cu d2 i) as [n|] eqn:En; [|reflexivity]. cbn [r_denotes]. apply Hone. exact (Hnm _ _ _ D2 En). }
  destruct (r_trim_both_prefix (by_list fn') (by_list fe') s st) as [[rn Pn] [re Pe]]. fold (cut s) in Pn, Pe.
  exists (cut s). cbv zeta. split; [|split; [|split]].
  - destruct Hh as (A1 & A2 & A3 & A4 & A5 & A6). rewrite Pn in A1, A3, A5. rewrite Pe in A2, A4, A6. split; [|split; [|split; [|split; [|split]]]].
    + intros e q Hin. destruct (A1 e q) as (i & d1 & D1 & L1 & C1); [apply in_app_iff; auto|]. exists i, d1. split; [now apply Hseen|]. split; [exact L1|]. eapply called_alike; eauto.
    + intros t q Hin. destruct (A2 t q) as (u & d1 & D1 & L1 & C1); [apply in_app_iff; auto|]. exists u, d1. split; [now apply Hseen|]. split; [exact L1|]. eapply called3_alike; eauto.
    + rewrite ok_items_app, map_app in A3. eapply sorted_prefix; exact A3.
    + rewrite ok_items_app, map_app in A4. eapply sorted_prefix; exact A4.
    + intros x Hin. apply Hfault, A5, in_app_iff. auto.
    + intros x Hin. destruct (A6 x) as [Hz|[-> [u Hu]]]; [apply in_app_iff; auto|left; auto|right]. split; auto.
      destruct Hu as (hl & o & [<-|Hhl] & Ho & Hr); [|exists u, hl, o; split; [right; exact Hhl|auto]].
      destruct Ho as [<-|[]]. destruct Hrw as [Hrw| ->]; [exfalso; eapply Hrw; exact Hr|].
      destruct Hr as (t & p & Hin0 & _).
      assert (Ha : ~ is_left a).
      { pose proof (r_trim_err _ _ _ _ _ Hin) as Ea. rewrite <- Ef in Ea. cbn [fst] in Ea. rewrite Ea. intros [z Ez]. discriminate. }
      destruct (Hcount s0 F0) as [_ G0]. destruct (Hcount s Ef) as [_ G1]. specialize (G0 Ha). specialize (G1 Ha). fold (cut s0) in Hin0.
      destruct (used_edges (cut s)) as [|[t1 p1] l] eqn:El.
      { exfalso. cbn [length] in G1. rewrite <- G1 in G0. destruct (used_edges (cut s0)); [contradiction|discriminate]. }
      assert (Hin1 : In (Ok (t1, p1)) (rs_edges (cut s))).
      { assert (Eb : before_error (rs_edges (cut s)) = (t1, p1) :: l) by (rewrite <- El; symmetry; apply r_trim_used).
        destruct (rs_edges (cut s)) as [|[x|x] l0]; cbn [before_error] in Eb; try discriminate. injection Eb as -> _. left; reflexivity. }
      destruct (A2 t1 p1) as (u1 & d1 & D1 & L1 & C1 & C2 & C3); [apply in_app_iff; auto|].
      exists u1, (h, [RMerge (cut s)]), (RMerge (cut s)). split; [left; reflexivity|]. split; [left; reflexivity|].
      exists t1, p1. split; [rewrite El; left; reflexivity|]. split; [eapply Hden; eauto|]. split; eapply Hden; eauto.
  - intros Ea. assert (Ecut : cut s = s). { apply r_trim_both_all. rewrite <- Ef. exact Ea. }
    rewrite Ecut. destruct (Hcm Ea) as [C1 C2]. split.
    + intros e Hall. apply C1. intros d1 D1. now apply Hall, Hseen.
    + intros t Hall. apply C2. intros d1 D1. now apply Hall, Hseen.
  - now apply Hkeys.
  - assert (Fa' : follows (bind reader (fun _ => Ret ([a], h'))) (lefts m) ([a], h')).
    { rewrite <- (app_nil_r (lefts m)). eapply follows_bind; [exact Hf|]. reflexivity. }
    destruct (H2 _ (fun q => q) (fun f q d => surjective_pairing (step1 f q d)) _ _ _ _ Fa' (Hcalls s Ef)) as [Er' _]. rewrite !map_id in Er'.
    assert (Hro : readonly (bind reader (fun _ => Ret ([a], h')))). { apply readonly_bind; [apply r_ro_take|]. intros; constructor. }
    destruct (drop_reader _ _ _ _ _ _ _ Hro Er') as (sB & B1 & B2).
    exists sB, ws'. split; [exact Eps|]. split; [|exact B2]. intros i f Hin. exact (H1 _ _ (B1 _ _ Hin)).
Qed.
End Self.

Lemma r_self_extend_live : forall S NP EP SE BE (seqb : S -> S -> bool) (cs : codec BE S) (cu : codec BE (Id KUlid)) (cn : codec BE NP) (ce : codec BE EP) mn me
    (es : list (repoch (S := S) (NP := NP) (EP := EP) (SE := SE) (E := rdf_error S (sled_index_error S (Id KUlid) SE BE) (sled_error SE BE))))
    (ts : list (rhandle * list (rop S NP EP (rdf_error S (sled_index_error S (Id KUlid) SE BE) (sled_error SE BE)))))
    (wcuts : nat -> nat -> cutting) (cuts cuts' : list bytes) (schedule : list (nat * option SE)) (h h' : rhandle) a,
  (forall a b, seqb a b = true <-> a = b) ->
  codec_ok cs -> codec_ok cu -> codec_ok cn -> codec_ok ce -> codec_total cu ->
  NoDup (flat_map epoch_keys es ++ r_drawn_keys h h' ++ callers_keys ts) -> Forall RdfSledSpec.calm es ->
  let d := rs_epochs cs cu cn ce mn me es rdb_new in
  let ps := beside (rs_extend_self cs cu cn ce cuts cuts' h) (rl_callers cs cu cn ce mn me wcuts 1 ts) in
  let ran := interleave schedule ps d in
  has_read (a, h') (fst ran) ->
  exists s, let calls := (h, [RExtend s]) :: ts in
  r_handed2 cs cu cn ce (during schedule ps d) (snd ran) (met schedule) calls s /\
  (a = Ok tt -> r_complete2 cs cu cn ce (during schedule ps d) (snd ran) s) /\
  NoDup (flat_map epoch_keys es ++ callers_keys calls) /\
  exists schedule' qs, fst ran = Ret (inl (a, h')) :: map (fun q => bind q (fun b => Ret (inr b))) qs /\
    (forall i f, In (i, f) schedule' -> In (i, f) schedule) /\
    interleave schedule' (rl_callers cs cu cn ce mn me wcuts 0 calls) d = (Ret ([a], h') :: qs, snd ran).
Proof.
  intros S NP EP SE BE seqb cs cu cn ce mn me es ts wcuts cuts cuts' schedule h h' a Hseq Hcs Hcu Hcn Hce Htu Hd Hcalm.
  apply (r_self_beside seqb cs cu cn ce mn me (rs_insert_node cs cu cn) (rs_insert_edge cs cu ce) RExtend es ts wcuts cuts cuts' schedule h h' a); auto.
  - apply stays_insert.
  - apply draws_insert.
Qed.

Lemma r_self_merge_live : forall S NP EP SE BE (seqb : S -> S -> bool) (cs : codec BE S) (cu : codec BE (Id KUlid)) (cn : codec BE NP) (ce : codec BE EP) mn me
    (es : list (repoch (S := S) (NP := NP) (EP := EP) (SE := SE) (E := rdf_error S (sled_index_error S (Id KUlid) SE BE) (sled_error SE BE))))
    (ts : list (rhandle * list (rop S NP EP (rdf_error S (sled_index_error S (Id KUlid) SE BE) (sled_error SE BE)))))
    (wcuts : nat -> nat -> cutting) (cuts cuts' : list bytes) (schedule : list (nat * option SE)) (h h' : rhandle) a,
  (forall a b, seqb a b = true <-> a = b) ->
  codec_ok cs -> codec_ok cu -> codec_ok cn -> codec_ok ce -> codec_total cu ->
  NoDup (flat_map epoch_keys es ++ r_drawn_keys h h' ++ callers_keys ts) -> Forall RdfSledSpec.calm es ->
  let d := rs_epochs cs cu cn ce mn me es rdb_new in
  let ps := beside (rs_merge_self cs cu cn ce mn me cuts cuts' h) (rl_callers cs cu cn ce mn me wcuts 1 ts) in
  let ran := interleave schedule ps d in
  has_read (a, h') (fst ran) ->
  exists s, let calls := (h, [RMerge s]) :: ts in
  r_handed2 cs cu cn ce (during schedule ps d) (snd ran) (met schedule) calls s /\
  (a = Ok tt -> r_complete2 cs cu cn ce (during schedule ps d) (snd ran) s) /\
  NoDup (flat_map epoch_keys es ++ callers_keys calls) /\
  exists schedule' qs, fst ran = Ret (inl (a, h')) :: map (fun q => bind q (fun b => Ret (inr b))) qs /\
    (forall i f, In (i, f) schedule' -> In (i, f) schedule) /\
    interleave schedule' (rl_callers cs cu cn ce mn me wcuts 0 calls) d = (Ret ([a], h') :: qs, snd ran).
Proof.
  intros S NP EP SE BE seqb cs cu cn ce mn me es ts wcuts cuts cuts' schedule h h' a Hseq Hcs Hcu Hcn Hce Htu Hd Hcalm.
  apply (r_self_beside seqb cs cu cn ce mn me (rs_merge_node cs cu cn mn) (rs_merge_edge cs cu ce me) RMerge es ts wcuts cuts cuts' schedule h h' a); auto.
  - apply stays_merge.
  - apply draws_merge.
Qed.
