(** What iterations next to writers return when no identifier drawn for a name is in use without
    one: every item is listed, under the names it is returned with, at a moment. *)
From Coq Require Import Arith NArith List Bool Sorted Lia.
From Verif Require Import Bytes BytesFacts OMap OMapFacts Core IdType IdTypeFacts Store Mem MemIndex Spec GenSpec
  CodecFacts ListFacts MemFacts MemSim History MemTop Prog ProgFacts Sled SledHistory SledSched SledDb SledOps SledBulk SledRead SledTables
  SledAny SledRun SledTop SledMain SledLeaf SledLeafFacts SledBeside SledRely SledOwn SledOwnOps SledBesideTop SledReaders
  SledIndex SledIndexFacts Rdf RdfSpec RdfTop RdfQuery RdfSled RdfSledSpec RdfSledSafe RdfSledConc RdfSledTop RdfSledRead RdfSledMain RdfSledLeaf RdfSledOwn
  RdfSledReaders RdfSledReadTop RdfSledExact.
Import ListNotations.

(** ** From the listings to the graph and back *)
Section Lists.
Context {k : idkind} {NP EP SE BE : Type} (cn : codec BE NP) (ce : codec BE EP).
Notation I := (Id k).
Notation T := (triple (Id k)).

Lemma listed_node d (i : I) p : In (Ok (i, p)) (now SE (s_iter_vertices (BE := BE) cn) d) -> mentions d i.
Proof.
  intros H. apply shown_node in H. apply in_map_iff in H. destruct H as ([key b] & Hv & Hin).
  unfold vertex_val, decode_id in Hv. cbn [fst snd] in Hv. destruct (try_from_be_bytes key) as [j|] eqn:Ej; [|discriminate].
  simpl in Hv. destruct (de cn b) as [q|]; simpl in Hv; [|discriminate]. injection Hv as -> ->. left. exists b.
  rewrite try_from_be_bytes_uint in Ej. destruct (Nat.eqb_spec (length key) (width k)) as [El|]; [|discriminate].
  injection Ej as <-. pose proof (to_from_be_bytes (k := k) key El) as H. rewrite from_be_bytes_uint in H. now rewrite H.
Qed.
Lemma listed_edge d o (t : T) p : In (Ok (t, p)) (now SE (s_iter_edges (BE := BE) ce o) d) -> forall i, part i t -> mentions d i.
Proof.
  intros H i Hi. apply shown_edge in H. apply in_map_iff in H. destruct H as ([key b] & Hv & Hin).
  unfold edge_val in Hv. cbn [fst snd] in Hv.
  destruct (decode_key_spec (k := k) (SE := SE) (BE := BE) (dec o) key) as [[El Hd]|[_ Hd]]; rewrite Hd in Hv; simpl in Hv; [|discriminate].
  destruct (get_de ce (bget b (t_edge d))) as [[q|]|]; simpl in Hv; try discriminate. injection Hv as <- _.
  right. exists o, (dec o key), b. split; [now rewrite enc_dec|exact Hi].
Qed.
Lemma node_to_list U d (i : I) b : fair (k := k) cn ce U d -> In (to_be_bytes i, b) (t_node d) ->
  exists p, In (Ok (i, p)) (now SE (s_iter_vertices (BE := BE) cn) d).
Proof.
  intros [Fn _] H. destruct (fn_items cn _ Fn _ _ H) as (j & p & E & Hp). apply to_be_bytes_inj in E. subst j.
  exists p. apply shown_node. apply in_map_iff. exists (to_be_bytes i, b). split; auto.
  unfold vertex_val. cbn [fst snd]. now rewrite decode_be, Hp.
Qed.
Lemma edge_to_list U d o (t : T) r : fair (k := k) cn ce U d -> indexes_agree (k := k) d -> In (enc o t, r) (idx o d) ->
  exists p, In (Ok (t, p)) (now SE (s_iter_edges (BE := BE) ce SPO) d).
Proof.
  intros [_ Fe] Ha H. assert (rid o d t = Some r) as Hr by now apply (get_iff_in bytes_cmp_ok _ _ _ (fe_isorted ce _ _ Fe o)).
  rewrite Ha in Hr. pose proof (fe_rec ce _ _ Fe _ _ _ Hr) as Hn. unfold record in Hn.
  destruct (bget r (t_edge d)) as [b|] eqn:Eb; [|congruence]. destruct (de ce b) as [e|] eqn:Ee; [|simpl in Hn; rewrite ?Ee in Hn; congruence].
  exists e. apply shown_edge. apply in_map_iff. exists (enc SPO t, r). split.
  - unfold edge_val. cbn [fst snd]. rewrite decode_enc. simpl. rewrite Eb. simpl. now rewrite Ee.
  - now apply (get_iff_in bytes_cmp_ok _ _ _ (fe_isorted ce _ _ Fe SPO)).
Qed.
End Lists.

(** ** The readers write nothing *)
Section Readers.
Context {S NP EP SE BE : Type} (cs : codec BE S) (cu : codec BE (Id KUlid)) (cn : codec BE NP) (ce : codec BE EP).
Notation I := (Id KUlid).
Notation ent := (entity S).
Notation gerr := (sled_error SE BE).
Notation err := (rdf_error S (sled_index_error S (Id KUlid) SE BE) gerr).
Notation P A := (prog rdb SE A).
Notation PR A := (prog rdb SE (result err A)).

Lemma ro_graph {X} (p : prog db SE X) : readonly p -> readonly (on_graph p : P X).
Proof. induction 1 as [x|c _ IH|u c e Hu _ IH _ IHe]; simpl; constructor; auto. intros d. rewrite Hu. now destruct d. Qed.
Lemma ro_next {X} (p : prog db SE (result gerr X)) : readonly p -> readonly (next p).
Proof. intros H. unfold next. constructor; auto. intros. constructor. Qed.
Lemma ro_lookup_id i : readonly (rs_lookup_id cs cu i : PR ent).
Proof.
  unfold rs_lookup_id. apply readonly_bind; [|intros; constructor].
  unfold si_right_to_left. destruct (ser cu i); repeat constructor. intros d. now destruct d.
Qed.
Lemma ro_show_pair {X} (ip : I * X) : readonly (rs_show_pair cs cu ip : PR (ent * X)).
Proof. apply readonly_bind_ok; [apply ro_lookup_id|intros; constructor]. Qed.
Lemma ro_show_edge (te : triple I * EP) : readonly (rs_show_edge cs cu te : PR (triple ent * EP)).
Proof.
  apply readonly_bind_ok; [|intros; constructor]. unfold try_map_prog.
  repeat (apply readonly_bind_ok; [apply ro_lookup_id|intros]). constructor.
Qed.
Lemma ro_show_props (t : props_triple I NP EP) : readonly (rs_show_props cs cu t : PR (props_triple ent NP EP)).
Proof. repeat (apply readonly_bind_ok; [apply ro_show_pair|intros]). constructor. Qed.
Lemma ro_scan {A B} cuts entries (item : bytes * bytes -> prog db SE (result gerr A)) (show : A -> PR B) :
  (forall kv, readonly (item kv)) -> (forall a, readonly (show a)) -> readonly (rl_scan cuts entries item show).
Proof.
  intros Hi Hs.
  assert (forall kv, readonly (shown_item item show kv)) as H.
  { intros kv. apply readonly_bind; [now apply ro_graph, ro_next|]. intros [a|e]; [apply Hs|constructor]. }
  unfold rl_scan. generalize (@None bytes). induction cuts as [|c cuts IH]; intros lo; simpl.
  - constructor. intros. now apply readonly_map_prog.
  - constructor. intros d. apply readonly_bind; [now apply readonly_map_prog|]. intros. apply readonly_bind; [apply IH|]. intros. constructor.
Qed.
Lemma ro_rl_nodes cuts : readonly (rl_iter_vertices cs cu cn cuts : P (list (result err (ent * NP)))).
Proof.
  apply ro_scan; [|apply ro_show_pair]. intros kv. apply readonly_bind_ok; [constructor|]. intros. apply readonly_bind_ok; [|intros; constructor].
  unfold bincode. constructor.
Qed.
Lemma ro_rl_edges cuts o : readonly (rl_iter_edges cs cu ce cuts o : P (list (result err (triple ent * EP)))).
Proof. apply ro_scan; [|apply ro_show_edge]. intros kv. apply readonly_bind_ok; [constructor|]. intros. apply ro_edge_item. Qed.
Lemma ro_rl_props cuts o : readonly (rl_iter_edges_with_props cs cu cn ce cuts o : P (list (result err (props_triple ent NP EP)))).
Proof. apply ro_scan; [|apply ro_show_props]. intros kv. apply readonly_bind_ok; [constructor|]. intros. apply ro_iter_impl. Qed.
Lemma ro_collect {A B} (f : A -> PR B) l : (forall a, readonly (f a)) -> readonly (collect_prog f l).
Proof.
  intros H. induction l as [|a l IH]; simpl; [constructor|]. apply readonly_bind_ok; auto. intros. apply readonly_bind_ok; auto. intros. constructor.
Qed.
Lemma ro_rl_vertices cuts : readonly (rl_vertices cs cu cuts : PR (list ent)).
Proof.
  apply readonly_bind.
  - apply ro_graph. unfold l_vertices. apply readonly_bind; [|intros; constructor].
    unfold l_scan. generalize (@None bytes). induction cuts as [|c cuts IH]; intros lo; simpl.
    + constructor. intros. apply readonly_map_prog. intros. apply ro_next. constructor.
    + constructor. intros. apply readonly_bind; [apply readonly_map_prog; intros; apply ro_next; constructor|]. intros. apply readonly_bind; [apply IH|]. intros. constructor.
  - intros [l|e]; [|constructor]. apply ro_collect. apply ro_lookup_id.
Qed.
End Readers.

(** ** The names at the moments of an execution *)
Section Moments.
Context {S NP EP SE BE E : Type} (seqb : S -> S -> bool) (seqb_eq : forall a b, seqb a b = true <-> a = b).
Context (cs : codec BE S) (cu : codec BE (Id KUlid)) (cn : codec BE NP) (ce : codec BE EP).
Context (Hcs : codec_ok cs) (Hcu : codec_ok cu) (Hcn : codec_ok cn) (Hce : codec_ok ce) (Htu : codec_total cu).
Context (mn : NP -> NP -> NP) (me : EP -> EP -> EP).
Notation I := (Id KUlid).
Notation ent := (entity S).
Notation P A := (prog rdb SE A).
Notation rop := (rop S NP EP E).
Notation repoch := (repoch (S := S) (NP := NP) (EP := EP) (SE := SE) (E := E)).
Notation nu := (name_now (SE := SE) cs cu).
Notation rho := (id_now (SE := SE) cs cu).
Notation callers := (rl_callers cs cu cn ce mn me).
Implicit Types d : rdb.
Context (es : list repoch) (ts : list (rhandle * list rop)).
Context (Hnd : NoDup (flat_map epoch_keys es)) (Hcalm : Forall RdfSledSpec.calm es).
Notation d0 := (rs_epochs cs cu cn ce mn me es rdb_new).
Context (Hap : apart_from_names SE cs cu cn ce d0 ts).
Notation touched := (flat_map (fun hl => flat_map entities_of (snd hl)) ts).

Definition bare (i : I) : Prop := In (EUlid i) touched \/ (mentions (r_trees d0) i /\ rho d0 i = None).
Definition drawn (i : I) : Prop := In i (callers_ulids ts).
Notation inv := (inv (SE := SE) cs cu bare drawn d0).

Lemma start_world : world cs cu cn ce (plus_keys (fun _ => False) (flat_map epoch_keys es)) d0.
Proof. now destruct (epochs_world seqb cs cu cn ce mn me seqb_eq Hcs Hcu Hcn Hce es Hnd Hcalm) as (H & _). Qed.

Lemma bare_not_drawn i : bare i -> drawn i -> False.
Proof.
  intros Hb Hd. destruct (Hap i Hd) as [H1 H2]. destruct Hb as [Hb|[Hm Hn]]; [exact (H1 Hb)|]. apply H2.
  destruct start_world as (Hok & Hf & Ha). assert (shown (rho d0) i = EUlid i) as Hs by (unfold shown; now rewrite Hn).
  destruct Hm as [(b & Hin)|(o & t & r & Hin & Hp)].
  - left. destruct (node_to_list (SE := SE) cn ce _ _ _ _ Hf Hin) as (p & Hl). exists p. rewrite <- Hs.
    apply node_listed; auto. eauto.
  - right. destruct (edge_to_list (SE := SE) cn ce _ _ _ _ _ Hf Ha Hin) as (p & Hl).
    exists (triple_map (shown (rho d0)) t), p. split; [apply edge_listed; eauto|].
    unfold ends, triple_map. simpl. rewrite <- Hs. destruct Hp as [Hp|[Hp|Hp]]; rewrite Hp; auto.
Qed.

Lemma inv_start : inv d0.
Proof.
  destruct start_world as (Hok & _ & _). split; auto; [|apply below_refl].
  intros i Hi. destruct (rho d0 i) as [s|] eqn:Hr; [right; exists s; auto|left; right; auto].
Qed.

Lemma inv_during {X} (p : P X) wcuts schedule : readonly p ->
  forall d1, during schedule (beside p (callers wcuts 0 ts)) d0 d1 -> inv d1.
Proof.
  intros Hp. apply clean_run; auto; [exact inv_start|].
  intros i q Hq. exists (fun _ => False). split; [intros j []|].
  destruct i as [|i]; simpl in Hq.
  - injection Hq as <-. apply clean_bind. apply clean_readonly; auto. simpl. auto.
  - rewrite nth_error_map in Hq. destruct (nth_error (callers _ _ _) i) as [q'|] eqn:Ei; [|discriminate].
    injection Hq as <-. destruct (rcallers_nth cs cu cn ce mn me _ _ _ _ _ Ei) as (hl & Hhl & ->). apply clean_bind.
    apply nth_error_In in Hhl. eapply clean_weak with (R := fun _ _ => True); [simpl; auto|]. apply clean_history; auto.
    + apply Forall_forall. intros e He j ->. left. apply in_flat_map. eauto.
    + intros j Hj. unfold drawn, callers_ulids. apply in_flat_map. eauto.
Qed.

(** An identifier in the graph is called the same from then on. *)
Lemma same_name d1 d2 i : inv d1 -> inv d2 -> mentions (r_trees d1) i -> (forall j s, rho d1 j = Some s -> rho d2 j = Some s) ->
  shown (rho d2) i = shown (rho d1) i.
Proof.
  intros V1 V2 Hm Hk. unfold shown. destruct (rho d1 i) as [s|] eqn:H1; [now rewrite (Hk _ _ H1)|].
  destruct (rho d2 i) as [s|] eqn:H2; [exfalso|reflexivity].
  destruct (iv_in _ _ _ _ _ _ V1 i Hm) as [Hb|(s' & Hs')]; [|congruence].
  destruct (iv_names _ _ _ _ _ _ V2 i s H2) as [H0|Hd]; [|exact (bare_not_drawn i Hb Hd)].
  apply (one_now (SE := SE) cs cu Hcs Hcu _ (iv_ok _ _ _ _ _ _ inv_start)) in H0.
  apply (iv_grew _ _ _ _ _ _ V1) in H0. apply (one_now (SE := SE) cs cu Hcs Hcu _ (iv_ok _ _ _ _ _ _ V1)) in H0. congruence.
Qed.

Context {X : Type} (p : P X) (Hro : readonly p) (wcuts : nat -> nat -> cutting) (schedule : list (nat * option SE)).
Notation seen := (during schedule (beside p (callers wcuts 0 ts)) d0).
Lemma node_exact d1 i q : seen d1 -> r_lists_node SE cs cu cn d1 (shown (rho d1) i) q -> mentions (r_trees d1) i.
Proof.
  intros Hs Hl. pose proof (inv_during p wcuts schedule Hro d1 Hs) as V. apply node_listed in Hl; auto; [|apply (iv_ok _ _ _ _ _ _ V)].
  destruct Hl as (j & Hj & Hin). apply (shown_inj _ _ (one_now (SE := SE) cs cu Hcs Hcu _ (iv_ok _ _ _ _ _ _ V))) in Hj. subst j.
  eapply listed_node; eauto.
Qed.
Lemma edge_exact d1 o u q : seen d1 -> r_lists_edge SE cs cu ce o d1 (triple_map (shown (rho d1)) u) q -> forall i, part i u -> mentions (r_trees d1) i.
Proof.
  intros Hs Hl. pose proof (inv_during p wcuts schedule Hro d1 Hs) as V. apply edge_listed in Hl; auto; [|apply (iv_ok _ _ _ _ _ _ V)].
  destruct Hl as (j & Hj & Hin).
  assert (j = u) as ->.
  { pose proof (one_now (SE := SE) cs cu Hcs Hcu _ (iv_ok _ _ _ _ _ _ V)) as O. destruct j as [a b c], u as [a' b' c'].
    unfold triple_map in Hj. simpl in Hj. injection Hj as H1 H2 H3. f_equal; symmetry; eapply shown_inj; eauto. }
  eapply listed_edge; eauto.
Qed.
Lemma called_exact d1 i e : seen d1 -> mentions (r_trees d1) i -> called SE cs cu (knowing SE cs cu seen d1) i e -> e = shown (rho d1) i.
Proof.
  intros Hs Hm (d2 & [Hd2 Hk] & ->). apply same_name; auto; eapply inv_during; eauto.
Qed.
Lemma called3_exact d1 u t : seen d1 -> (forall i, part i u -> mentions (r_trees d1) i) ->
  called3 SE cs cu (knowing SE cs cu seen d1) u t -> t = triple_map (shown (rho d1)) u.
Proof.
  intros Hs Hm (H1 & H2 & H3). destruct t as [a b c]. unfold triple_map. simpl in *.
  f_equal; apply called_exact; auto; apply Hm; unfold part; auto.
Qed.
Lemma called_less (s1 s2 : rdb -> Prop) i (e : ent) : (forall d, s1 d -> s2 d) -> called SE cs cu s1 i e -> called SE cs cu s2 i e.
Proof. intros H (d & Hd & ->). exists d. auto. Qed.
Notation final := (snd (interleave schedule (beside p (callers wcuts 0 ts)) d0)).
Lemma final_seen : seen final.
Proof. exists schedule, []. split; auto. now rewrite app_nil_r. Qed.
Context (Hgrow : forall d1 i s, seen d1 -> rho d1 i = Some s -> rho final i = Some s).
Lemma shown_fixed i : by_name (rho final) (shown (rho final) i) = shown (rho final) i.
Proof. unfold shown. destruct (rho final i) as [s|] eqn:H; simpl; auto. unfold shown. now rewrite H. Qed.
Lemma still d1 i : seen d1 -> mentions (r_trees d1) i -> by_name (rho final) (shown (rho d1) i) = shown (rho d1) i.
Proof.
  intros Hs Hm. rewrite <- (same_name d1 final i); [apply shown_fixed|eapply inv_during; eauto|eapply inv_during; eauto; apply final_seen|exact Hm|].
  intros j s. now apply Hgrow.
Qed.
Lemma node_fixed d1 e q : seen d1 -> r_lists_node SE cs cu cn d1 e q -> by_name (rho final) e = e.
Proof.
  intros Hs Hl. pose proof (inv_during p wcuts schedule Hro d1 Hs) as V. apply node_listed in Hl; auto; [|apply (iv_ok _ _ _ _ _ _ V)].
  destruct Hl as (i & -> & Hin). apply still; auto. eapply listed_node; eauto.
Qed.
Lemma edge_fixed d1 o t q : seen d1 -> r_lists_edge SE cs cu ce o d1 t q -> triple_map (by_name (rho final)) t = t.
Proof.
  intros Hs Hl. pose proof (inv_during p wcuts schedule Hro d1 Hs) as V. apply edge_listed in Hl; auto; [|apply (iv_ok _ _ _ _ _ _ V)].
  destruct Hl as (u & -> & Hin). pose proof (listed_edge ce _ _ _ _ Hin) as Hm. unfold triple_map. simpl.
  f_equal; apply still; auto; apply Hm; unfold part; auto.
Qed.

Lemma map_fixed {A B} (f g : A -> B) l : (forall x, In x l -> f x = g x) -> map f l = map g l.
Proof. intros H. now apply map_ext_in. Qed.

Section From.
Notation names := (rho final).
Section Nodes.
Context {A F : Type} (key : A -> ent) (prop : A -> NP -> Prop) (xs : list (result F A)).
Context (H1 : forall a, In (Ok a) xs -> exists i d1 q, seen d1 /\ prop a q /\ r_lists_node SE cs cu cn d1 (shown (rho d1) i) q /\
  called SE cs cu (knowing SE cs cu seen d1) i (key a)).
Lemma nodes_at a : In (Ok a) xs -> exists d1 q, seen d1 /\ prop a q /\ r_lists_node SE cs cu cn d1 (key a) q.
Proof.
  intros Hin. destruct (H1 a Hin) as (i & d1 & q & Hs & Hq & Hl & Hc). exists d1, q. repeat split; auto.
  rewrite (called_exact d1 i (key a)); auto. eapply node_exact; eauto.
Qed.
Lemma nodes_keys : map (fun a => by_name names (key a)) (ok_items xs) = map key (ok_items xs).
Proof.
  apply map_fixed. intros a Ha. apply ok_items_in in Ha. destruct (nodes_at a Ha) as (d1 & q & Hs & _ & Hl). eapply node_fixed; eauto.
Qed.
Lemma nodes_all (Q : Prop) e :
  ((forall d1, seen d1 -> exists e1 q, by_name names e1 = by_name names e /\ r_lists_node SE cs cu cn d1 e1 q) ->
   In (by_name names e) (map (fun a => by_name names (key a)) (ok_items xs)) \/ Q) ->
  (forall d1, seen d1 -> exists q, r_lists_node SE cs cu cn d1 e q) -> In e (map key (ok_items xs)) \/ Q.
Proof.
  intros H He. destruct (He _ final_seen) as (q & Hq). pose proof (node_fixed _ _ _ final_seen Hq) as Ee.
  rewrite nodes_keys, Ee in H. apply H. intros d1 Hd. destruct (He d1 Hd) as (q1 & H2). exists e, q1. split; auto.
Qed.
End Nodes.
Section Edges.
Context {A F : Type} (o : edge_order) (key : A -> triple ent) (prop : A -> EP -> Prop) (xs : list (result F A)).
Context (H1 : forall a, In (Ok a) xs -> exists u d1 q, seen d1 /\ prop a q /\ r_lists_edge SE cs cu ce o d1 (triple_map (shown (rho d1)) u) q /\
  called3 SE cs cu (knowing SE cs cu seen d1) u (key a)).
Lemma edges_at a : In (Ok a) xs -> exists d1 q, seen d1 /\ prop a q /\ r_lists_edge SE cs cu ce o d1 (key a) q.
Proof.
  intros Hin. destruct (H1 a Hin) as (i & d1 & q & Hs & Hq & Hl & Hc). exists d1, q. repeat split; auto.
  rewrite (called3_exact d1 i (key a)); auto. eapply edge_exact; eauto.
Qed.
Lemma edges_keys : map (fun a => triple_map (by_name names) (key a)) (ok_items xs) = map key (ok_items xs).
Proof.
  apply map_fixed. intros a Ha. apply ok_items_in in Ha. destruct (edges_at a Ha) as (d1 & q & Hs & _ & Hl). eapply edge_fixed; eauto.
Qed.
Lemma edges_all (Q : Prop) t :
  ((forall d1, seen d1 -> exists t1 q, triple_map (by_name names) t1 = triple_map (by_name names) t /\ r_lists_edge SE cs cu ce o d1 t1 q) ->
   In (triple_map (by_name names) t) (map (fun a => triple_map (by_name names) (key a)) (ok_items xs)) \/ Q) ->
  (forall d1, seen d1 -> exists q, r_lists_edge SE cs cu ce o d1 t q) -> In t (map key (ok_items xs)) \/ Q.
Proof.
  intros H He. destruct (He _ final_seen) as (q & Hq). pose proof (edge_fixed _ _ _ _ final_seen Hq) as Ee.
  rewrite edges_keys, Ee in H. apply H. intros d1 Hd. destruct (He d1 Hd) as (q1 & H2). exists t, q1. split; auto.
Qed.
End Edges.
End From.
End Moments.

(** ** The theorems *)
Lemma nodes_exactly : forall S NP EP SE BE E (seqb : S -> S -> bool)
  (cs : codec BE S) (cu : codec BE (Id KUlid)) (cn : codec BE NP) (ce : codec BE EP) mn me,
  (forall a b, seqb a b = true <-> a = b) ->
  codec_ok cs -> codec_ok cu -> codec_ok cn -> codec_ok ce -> codec_total cu ->
  forall (es : list (repoch (S := S) (NP := NP) (EP := EP) (SE := SE) (E := E))) (ts : list (rhandle * list (rop S NP EP E)))
    (wcuts : nat -> nat -> cutting) (rcuts : list bytes) (schedule : list (nat * option SE)) xs,
  NoDup (flat_map epoch_keys es ++ callers_keys ts) -> Forall RdfSledSpec.calm es ->
  let d := rs_epochs cs cu cn ce mn me es rdb_new in
  apart_from_names SE cs cu cn ce d ts ->
  let ps := beside (rl_iter_vertices (SE := SE) cs cu cn rcuts) (rl_callers cs cu cn ce mn me wcuts 0 ts) in
  let seen := during schedule ps d in
  let names := id_now (SE := SE) cs cu (snd (interleave schedule ps d)) in
  has_read xs (fst (interleave schedule ps d)) ->
  (forall e p, In (Ok (e, p)) xs -> exists d1, seen d1 /\ r_lists_node SE cs cu cn d1 e p) /\
  StronglySorted (behind_lt names) (map fst (ok_items xs)) /\
  (forall e, (forall d1, seen d1 -> exists p, r_lists_node SE cs cu cn d1 e p) ->
     In e (map fst (ok_items xs)) \/ exists x, In (Err x) xs).
Proof.
  intros S NP EP SE BE E seqb cs cu cn ce mn me Hseq Hcs Hcu Hcn Hce Htu es ts wcuts rcuts schedule xs Hnd Hcalm d Hap ps seen names Hx.
  destruct (nodes_next_to S NP EP SE BE E seqb cs cu cn ce mn me Hseq Hcs Hcu Hcn Hce Htu es ts wcuts rcuts schedule xs Hnd Hcalm Hx) as (H0 & H1 & H2 & _ & H4).
  fold d ps seen names in H0, H1, H2, H4. apply NoDup_app_iff in Hnd. destruct Hnd as (N1 & _ & _).
  pose proof (ro_rl_nodes (SE := SE) cs cu cn rcuts) as Hro.
  assert (forall a, In (Ok a) xs -> exists i d1 q, seen d1 /\ q = snd a /\ r_lists_node SE cs cu cn d1 (shown (id_now (SE := SE) cs cu d1) i) q /\
    called SE cs cu (knowing SE cs cu seen d1) i (fst a)) as H1'.
  { intros [e p] Hin. destruct (H1 e p Hin) as (i & d1 & Hs & Hl & Hc). exists i, d1, p. auto. }
  pose proof (fun Q e => nodes_all seqb Hseq cs cu cn ce Hcs Hcu Hcn Hce Htu mn me es ts N1 Hcalm Hap _ Hro wcuts schedule H0 fst (fun a q => q = snd a) xs H1' Q e) as All.
  pose proof (nodes_keys seqb Hseq cs cu cn ce Hcs Hcu Hcn Hce Htu mn me es ts N1 Hcalm Hap _ Hro wcuts schedule H0 fst (fun a q => q = snd a) xs H1') as Keys.
  pose proof (nodes_at seqb Hseq cs cu cn ce Hcs Hcu Hcn Hce Htu mn me es ts N1 Hcalm Hap _ Hro wcuts schedule fst (fun a q => q = snd a) xs H1') as At.
  split; [|split].
  - intros e p Hin. destruct (At _ Hin) as (d1 & q & Hs & -> & Hl). eauto.
  - unfold names. unfold names in H2. rewrite <- Keys. exact H2.
  - intros e He. apply All; auto.
Qed.

Lemma vertices_exactly : forall S NP EP SE BE E (seqb : S -> S -> bool)
  (cs : codec BE S) (cu : codec BE (Id KUlid)) (cn : codec BE NP) (ce : codec BE EP) mn me,
  (forall a b, seqb a b = true <-> a = b) ->
  codec_ok cs -> codec_ok cu -> codec_ok cn -> codec_ok ce -> codec_total cu ->
  forall (es : list (repoch (S := S) (NP := NP) (EP := EP) (SE := SE) (E := E))) (ts : list (rhandle * list (rop S NP EP E)))
    (wcuts : nat -> nat -> cutting) (rcuts : list bytes) (schedule : list (nat * option SE)) vs,
  NoDup (flat_map epoch_keys es ++ callers_keys ts) -> Forall RdfSledSpec.calm es ->
  let d := rs_epochs cs cu cn ce mn me es rdb_new in
  apart_from_names SE cs cu cn ce d ts ->
  let ps := beside (rl_vertices (SE := SE) cs cu rcuts) (rl_callers cs cu cn ce mn me wcuts 0 ts) in
  let seen := during schedule ps d in
  let names := id_now (SE := SE) cs cu (snd (interleave schedule ps d)) in
  has_read (Ok vs) (fst (interleave schedule ps d)) ->
  (forall e, In e vs -> exists d1 p, seen d1 /\ r_lists_node SE cs cu cn d1 e p) /\
  StronglySorted (behind_lt names) vs /\
  (forall e, (forall d1, seen d1 -> exists p, r_lists_node SE cs cu cn d1 e p) -> In e vs).
Proof.
  intros S NP EP SE BE E seqb cs cu cn ce mn me Hseq Hcs Hcu Hcn Hce Htu es ts wcuts rcuts schedule vs Hnd Hcalm d Hap ps seen names Hx.
  destruct (vertices_next_to S NP EP SE BE E seqb cs cu cn ce mn me Hseq Hcs Hcu Hcn Hce Htu es ts wcuts rcuts schedule (Ok vs) Hnd Hcalm Hx) as (H0 & H1 & H2 & H4).
  fold d ps seen names in H0, H1, H2, H4. apply NoDup_app_iff in Hnd. destruct Hnd as (N1 & _ & _).
  pose proof (ro_rl_vertices (SE := SE) cs cu rcuts) as Hro.
  set (xs := map (fun e => Ok e) vs : list (result unit (entity S))).
  assert (ok_items xs = vs) as Eok.
  { unfold xs. clear. induction vs as [|v vs IH]; [reflexivity|]. unfold ok_items in *. simpl. now f_equal. }
  assert (forall e, In (Ok e) xs <-> In e vs) as Iok.
  { intros e. rewrite <- (ok_items_in xs e), Eok. tauto. }
  assert (forall e, In (Ok e) xs -> exists i d1 q, seen d1 /\ True /\ r_lists_node SE cs cu cn d1 (shown (id_now (SE := SE) cs cu d1) i) q /\
    called SE cs cu (knowing SE cs cu seen d1) i e) as H1'.
  { intros e Hin. apply Iok in Hin. destruct (H1 e Hin) as (i & d1 & p & Hs & Hl & Hc). exists i, d1, p. auto. }
  pose proof (fun Q e => nodes_all seqb Hseq cs cu cn ce Hcs Hcu Hcn Hce Htu mn me es ts N1 Hcalm Hap _ Hro wcuts schedule H0 (fun e => e) (fun _ _ => True) xs H1' Q e) as All.
  pose proof (nodes_keys seqb Hseq cs cu cn ce Hcs Hcu Hcn Hce Htu mn me es ts N1 Hcalm Hap _ Hro wcuts schedule H0 (fun e => e) (fun _ _ => True) xs H1') as Keys.
  pose proof (nodes_at seqb Hseq cs cu cn ce Hcs Hcu Hcn Hce Htu mn me es ts N1 Hcalm Hap _ Hro wcuts schedule (fun e => e) (fun _ _ => True) xs H1') as At.
  rewrite Eok, map_id in Keys. fold d ps names in Keys.
  split; [|split].
  - intros e Hin. apply Iok in Hin. destruct (At e Hin) as (d1 & q & Hs & _ & Hl). eauto.
  - rewrite <- Keys. exact H2.
  - intros e He. assert (In e vs \/ False) as [|[]]; auto. rewrite Eok, map_id in All. apply All; auto.
Qed.

Lemma edges_exactly : forall S NP EP SE BE E (seqb : S -> S -> bool)
  (cs : codec BE S) (cu : codec BE (Id KUlid)) (cn : codec BE NP) (ce : codec BE EP) mn me,
  (forall a b, seqb a b = true <-> a = b) ->
  codec_ok cs -> codec_ok cu -> codec_ok cn -> codec_ok ce -> codec_total cu ->
  forall (es : list (repoch (S := S) (NP := NP) (EP := EP) (SE := SE) (E := E))) (ts : list (rhandle * list (rop S NP EP E)))
    (wcuts : nat -> nat -> cutting) (rcuts : list bytes) o (schedule : list (nat * option SE)) xs,
  NoDup (flat_map epoch_keys es ++ callers_keys ts) -> Forall RdfSledSpec.calm es ->
  let d := rs_epochs cs cu cn ce mn me es rdb_new in
  apart_from_names SE cs cu cn ce d ts ->
  let ps := beside (rl_iter_edges (SE := SE) cs cu ce rcuts o) (rl_callers cs cu cn ce mn me wcuts 0 ts) in
  let seen := during schedule ps d in
  let names := id_now (SE := SE) cs cu (snd (interleave schedule ps d)) in
  has_read xs (fst (interleave schedule ps d)) ->
  (forall t p, In (Ok (t, p)) xs -> exists d1, seen d1 /\ r_lists_edge SE cs cu ce o d1 t p) /\
  StronglySorted (behind_edge_lt names o) (map fst (ok_items xs)) /\
  (forall t, (forall d1, seen d1 -> exists p, r_lists_edge SE cs cu ce o d1 t p) ->
     In t (map fst (ok_items xs)) \/ exists x, In (Err x) xs).
Proof.
  intros S NP EP SE BE E seqb cs cu cn ce mn me Hseq Hcs Hcu Hcn Hce Htu es ts wcuts rcuts o schedule xs Hnd Hcalm d Hap ps seen names Hx.
  destruct (edges_next_to S NP EP SE BE E seqb cs cu cn ce mn me Hseq Hcs Hcu Hcn Hce Htu es ts wcuts rcuts o schedule xs Hnd Hcalm Hx) as (H0 & H1 & H2 & _ & H4).
  fold d ps seen names in H0, H1, H2, H4. apply NoDup_app_iff in Hnd. destruct Hnd as (N1 & _ & _).
  pose proof (ro_rl_edges (SE := SE) cs cu ce rcuts o) as Hro.
  assert (forall a, In (Ok a) xs -> exists u d1 q, seen d1 /\ q = snd a /\ r_lists_edge SE cs cu ce o d1 (triple_map (shown (id_now (SE := SE) cs cu d1)) u) q /\
    called3 SE cs cu (knowing SE cs cu seen d1) u (fst a)) as H1'.
  { intros [t p] Hin. destruct (H1 t p Hin) as (i & d1 & Hs & Hl & Hc). exists i, d1, p. auto. }
  pose proof (fun Q e => edges_all seqb Hseq cs cu cn ce Hcs Hcu Hcn Hce Htu mn me es ts N1 Hcalm Hap _ Hro wcuts schedule H0 o fst (fun a q => q = snd a) xs H1' Q e) as All.
  pose proof (edges_keys seqb Hseq cs cu cn ce Hcs Hcu Hcn Hce Htu mn me es ts N1 Hcalm Hap _ Hro wcuts schedule H0 o fst (fun a q => q = snd a) xs H1') as Keys.
  pose proof (edges_at seqb Hseq cs cu cn ce Hcs Hcu Hcn Hce Htu mn me es ts N1 Hcalm Hap _ Hro wcuts schedule o fst (fun a q => q = snd a) xs H1') as At.
  split; [|split].
  - intros t p Hin. destruct (At _ Hin) as (d1 & q & Hs & -> & Hl). eauto.
  - unfold names. unfold names in H2. rewrite <- Keys. exact H2.
  - intros t Ht. apply All; auto.
Qed.

Lemma props_exactly : forall S NP EP SE BE E (seqb : S -> S -> bool)
  (cs : codec BE S) (cu : codec BE (Id KUlid)) (cn : codec BE NP) (ce : codec BE EP) mn me,
  (forall a b, seqb a b = true <-> a = b) ->
  codec_ok cs -> codec_ok cu -> codec_ok cn -> codec_ok ce -> codec_total cu ->
  forall (es : list (repoch (S := S) (NP := NP) (EP := EP) (SE := SE) (E := E))) (ts : list (rhandle * list (rop S NP EP E)))
    (wcuts : nat -> nat -> cutting) (rcuts : list bytes) o (schedule : list (nat * option SE)) xs,
  NoDup (flat_map epoch_keys es ++ callers_keys ts) -> Forall RdfSledSpec.calm es ->
  let d := rs_epochs cs cu cn ce mn me es rdb_new in
  apart_from_names SE cs cu cn ce d ts ->
  let ps := beside (rl_iter_edges_with_props (SE := SE) cs cu cn ce rcuts o) (rl_callers cs cu cn ce mn me wcuts 0 ts) in
  let seen := during schedule ps d in
  let names := id_now (SE := SE) cs cu (snd (interleave schedule ps d)) in
  has_read xs (fst (interleave schedule ps d)) ->
  (forall s p ob, In (Ok (PropsTriple s p ob)) xs -> exists d1 d2 d3,
     seen d1 /\ r_lists_edge SE cs cu ce o d1 (Triple (fst s) (fst p) (fst ob)) (snd p) /\
     seen d2 /\ r_lists_node SE cs cu cn d2 (fst s) (snd s) /\
     seen d3 /\ r_lists_node SE cs cu cn d3 (fst ob) (snd ob)) /\
  StronglySorted (behind_edge_lt names o) (map edge_of (ok_items xs)) /\
  (forall t, (forall d1, seen d1 -> exists p, r_lists_edge SE cs cu ce o d1 t p) ->
     In t (map edge_of (ok_items xs)) \/ exists x, In (Err x) xs).
Proof.
  intros S NP EP SE BE E seqb cs cu cn ce mn me Hseq Hcs Hcu Hcn Hce Htu es ts wcuts rcuts o schedule xs Hnd Hcalm d Hap ps seen names Hx.
  destruct (props_next_to S NP EP SE BE E seqb cs cu cn ce mn me Hseq Hcs Hcu Hcn Hce Htu es ts wcuts rcuts o schedule xs Hnd Hcalm Hx) as (H0 & H1 & H2 & _ & H4).
  fold d ps seen names in H0, H1, H2, H4. apply NoDup_app_iff in Hnd. destruct Hnd as (N1 & _ & _).
  pose proof (ro_rl_props (SE := SE) cs cu cn ce rcuts o) as Hro.
  assert (forall a, In (Ok a) xs -> exists u d1 q, seen d1 /\ q = snd (p_pred a) /\ r_lists_edge SE cs cu ce o d1 (triple_map (shown (id_now (SE := SE) cs cu d1)) u) q /\
    called3 SE cs cu (knowing SE cs cu seen d1) u (edge_of a)) as H1'.
  { intros [s p ob] Hin. destruct (H1 s p ob Hin) as (u & d1 & d2 & d3 & Hs1 & Hl1 & Hs2 & Hl2 & Hs3 & Hl3 & Hc). exists u, d1, (snd p).
    repeat split; auto; (eapply called_less; [|apply Hc]); intros x [[H _] _]; exact H. }
  pose proof (fun Q e => edges_all seqb Hseq cs cu cn ce Hcs Hcu Hcn Hce Htu mn me es ts N1 Hcalm Hap _ Hro wcuts schedule H0 o edge_of (fun a q => q = snd (p_pred a)) xs H1' Q e) as All.
  pose proof (edges_keys seqb Hseq cs cu cn ce Hcs Hcu Hcn Hce Htu mn me es ts N1 Hcalm Hap _ Hro wcuts schedule H0 o edge_of (fun a q => q = snd (p_pred a)) xs H1') as Keys.
  pose proof (edges_at seqb Hseq cs cu cn ce Hcs Hcu Hcn Hce Htu mn me es ts N1 Hcalm Hap _ Hro wcuts schedule o edge_of (fun a q => q = snd (p_pred a)) xs H1') as At.
  split; [|split].
  - intros s p ob Hin. destruct (At _ Hin) as (d1 & q & Hs & -> & Hl).
    destruct (H1 s p ob Hin) as (u & d1' & d2 & d3 & _ & _ & Hs2 & Hl2 & Hs3 & Hl3 & Hc1 & _ & Hc3). cbn [sub obj] in Hc1, Hc3.
    exists d1, d2, d3. split; auto. split; [exact Hl|]. split; auto. split.
    + rewrite (called_exact seqb Hseq cs cu cn ce Hcs Hcu Hcn Hce Htu mn me es ts N1 Hcalm Hap _ Hro wcuts schedule d2 (sub u) (fst s) Hs2); auto.
      * eapply (node_exact seqb Hseq cs cu cn ce Hcs Hcu Hcn Hce Htu mn me es ts N1 Hcalm _ Hro wcuts schedule); eauto.
      * eapply called_less; [|exact Hc1]. intros x [[[H _] H'] _]. split; auto.
    + split; auto.
      rewrite (called_exact seqb Hseq cs cu cn ce Hcs Hcu Hcn Hce Htu mn me es ts N1 Hcalm Hap _ Hro wcuts schedule d3 (obj u) (fst ob) Hs3); auto.
      * eapply (node_exact seqb Hseq cs cu cn ce Hcs Hcu Hcn Hce Htu mn me es ts N1 Hcalm _ Hro wcuts schedule); eauto.
      * eapply called_less; [|exact Hc3]. intros x [[[H _] _] H']. split; auto.
  - unfold names. unfold names in H2. rewrite <- Keys. exact H2.
  - intros t Ht. apply All; auto.
Qed.
