(** Copies of RDF stores, and the consuming iterators of the RDF store over sled. *)
From Coq Require Import Arith NArith List Bool Sorted.
From Verif Require Import Bytes Core IdType IdTypeFacts Store Mem MemIndex Spec GenSpec History MemTop ListFacts
  Prog ProgFacts Sled SledHistory SledIndex SledMain Rdf RdfSpec RdfFacts RdfTop RdfQuery RdfIter
  RdfSled RdfSledSpec RdfSledRead RdfSledMain RdfCopySpec.
Import ListNotations.

(** ** Graphs *)
Section Graphs.
Context {S NP EP E : Type} (seqb : S -> S -> bool).
Context (seqb_eq : forall a b, seqb a b = true <-> a = b).
Context (mn : NP -> NP -> NP) (me : EP -> EP -> EP).
Notation ent := (entity S).
Notation EG := (egraph S NP EP).
Notation same := (entity_eqb seqb).
Notation same3 := (triple_eqb (entity_eqb seqb)).

(** A table filled item by item, each key at most once, holds the items. *)
Lemma fill {A P} (eqb : A -> A -> bool) (eqb_eq : forall a b, eqb a b = true <-> a = b)
    (f : A * P -> (A -> option P) -> A -> option P) (l : list (A * P)) :
  (forall x m a, m (fst x) = None -> f x m a = if eqb a (fst x) then Some (snd x) else m a) ->
  NoDup (map fst l) -> forall m, (forall x, In x l -> m (fst x) = None) ->
  forall a p, fold_left (fun m x => f x m) l m a = Some p <-> In (a, p) l \/ (m a = Some p).
Proof.
  intros Hf. induction l as [|[b q] l IH]; simpl; intros Hnd m Hm a p; [tauto|].
  inversion Hnd as [|? ? Hb Hnd']; subst. rewrite IH; auto.
  - rewrite Hf by (apply (Hm (b, q)); auto). simpl. destruct (eqb a b) eqn:Q.
    + apply eqb_eq in Q. subst b. pose proof (Hm (a, q) (or_introl eq_refl)) as N. simpl in N. rewrite N.
      split; [intros [H|H]; [auto|injection H as ->; auto]|intros [[H|H]|H]; [right; congruence|auto|discriminate]].
    + split; [intros [H|H]; auto|intros [[H|H]|H]; auto]. injection H as -> ->.
      assert (eqb a a = true) by now apply eqb_eq. congruence.
  - intros x Hx. rewrite Hf by (apply (Hm (b, q)); auto). simpl. destruct (eqb (fst x) b) eqn:Q; auto.
    apply eqb_eq in Q. exfalso. apply Hb. rewrite <- Q. now apply in_map.
Qed.

Lemma nodes_filled (fn : ent -> NP -> EG -> EG) (F : ent * NP -> (ent -> option NP) -> ent -> option NP) :
  (forall n p g, e_edge (fn n p g) = e_edge g) -> (forall n p g, e_node (fn n p g) = F (n, p) (e_node g)) ->
  forall l g, e_node (fold_left (fun g ip => fn (fst ip) (snd ip) g) l g) = fold_left (fun m x => F x m) l (e_node g) /\
    e_edge (fold_left (fun g ip => fn (fst ip) (snd ip) g) l g) = e_edge g.
Proof.
  intros H1 H2. induction l as [|[n p] l IH]; simpl; intros g; auto.
  destruct (IH (fn n p g)) as [A B]. now rewrite A, B, H1, H2.
Qed.
Lemma edges_filled (fe : triple ent -> EP -> EG -> EG) (F : triple ent * EP -> (triple ent -> option EP) -> triple ent -> option EP) :
  (forall n p g, e_node (fe n p g) = e_node g) -> (forall n p g, e_edge (fe n p g) = F (n, p) (e_edge g)) ->
  forall l g, e_edge (fold_left (fun g ip => fe (fst ip) (snd ip) g) l g) = fold_left (fun m x => F x m) l (e_edge g) /\
    e_node (fold_left (fun g ip => fe (fst ip) (snd ip) g) l g) = e_node g.
Proof.
  intros H1 H2. induction l as [|[n p] l IH]; simpl; intros g; auto.
  destruct (IH (fe n p g)) as [A B]. now rewrite A, B, H1, H2.
Qed.

Lemma delivers_used (s : rdf_source S NP EP E) g : e_delivers s g ->
  rdf_source_error s = None /\
  NoDup (map fst (used_nodes s)) /\ NoDup (map fst (used_edges s)) /\
  (forall e p, In (e, p) (used_nodes s) <-> e_node g e = Some p) /\
  (forall t p, In (t, p) (used_edges s) <-> e_edge g t = Some p).
Proof.
  intros (ns & es & H1 & H2 & H3 & H4 & H5 & H6).
  unfold rdf_source_error, used_nodes, used_edges. rewrite H1, H2, !first_error_ok, !before_error_ok. auto.
Qed.

Lemma by_pairs {A P} (f g : A -> option P) : (forall a p, f a = Some p <-> g a = Some p) -> forall a, f a = g a.
Proof.
  intros H a. destruct (f a) as [p|] eqn:Hf.
  - symmetry. now apply H.
  - destruct (g a) as [p|] eqn:Hg; auto. apply H in Hg. congruence.
Qed.

Lemma bulk_empty (Fn : ent * NP -> (ent -> option NP) -> ent -> option NP)
    (Fe : triple ent * EP -> (triple ent -> option EP) -> triple ent -> option EP)
    (fn : ent -> NP -> EG -> EG) (fe : triple ent -> EP -> EG -> EG) (s : rdf_source S NP EP E) g :
  (forall n p g, e_edge (fn n p g) = e_edge g) -> (forall n p g, e_node (fn n p g) = Fn (n, p) (e_node g)) ->
  (forall n p g, e_node (fe n p g) = e_node g) -> (forall n p g, e_edge (fe n p g) = Fe (n, p) (e_edge g)) ->
  (forall x m a, m (fst x) = None -> Fn x m a = if same a (fst x) then Some (snd x) else m a) ->
  (forall x m a, m (fst x) = None -> Fe x m a = if same3 a (fst x) then Some (snd x) else m a) ->
  e_delivers s g -> e_equiv (e_bulk fn fe s e_empty) g.
Proof.
  intros A1 A2 B1 B2 C1 C2 D. destruct (delivers_used s g D) as (_ & N1 & N2 & I1 & I2). unfold e_bulk.
  destruct (edges_filled fe Fe B1 B2 (used_edges s) (fold_left (fun g ip => fn (fst ip) (snd ip) g) (used_nodes s) e_empty)) as [X1 X2].
  destruct (nodes_filled fn Fn A1 A2 (used_nodes s) e_empty) as [Y1 Y2].
  split; apply by_pairs; intros a p.
  - rewrite X2, Y1. rewrite (fill same (entity_eqb_eq seqb seqb_eq) Fn); auto. simpl. rewrite I1.
    split; [intros [H|H]; [auto|discriminate]|auto].
  - rewrite X1, Y2. rewrite (fill same3 (entity3_eqb_eq seqb seqb_eq) Fe); auto. simpl. rewrite I2.
    split; [intros [H|H]; [auto|discriminate]|auto].
Qed.

Lemma r_copying_spec (s : rdf_source S NP EP E) o g :
  e_delivers s g -> r_copying s o ->
  fst (e_history seqb mn me (fun e => e) [] [o] e_empty) = [Ok tt] /\
  e_equiv (snd (e_history seqb mn me (fun e => e) [] [o] e_empty)) g.
Proof.
  intros D C. pose proof (proj1 (delivers_used s g D)) as He.
  assert (forall t : triple ent, triple_map (fun e => e) t = t) as Tm by (intros []; reflexivity).
  destruct C; simpl; rewrite He; split; auto.
  - apply bulk_empty with
      (Fn := fun x m a => if same a (fst x) then Some (snd x) else m a)
      (Fe := fun x m a => if same3 a (fst x) then Some (snd x) else m a); auto; intros; rewrite ?Tm; reflexivity.
  - apply bulk_empty with
      (Fn := fun x m a => if same a (fst x) then Some (merged mn (m (fst x)) (snd x)) else m a)
      (Fe := fun x m a => if same3 a (fst x) then Some (merged me (m (fst x)) (snd x)) else m a); auto; intros; rewrite ?Tm; try reflexivity.
    + simpl. now rewrite H.
    + simpl. now rewrite H.
Qed.

Lemma listed_once {F A P} (lt : A -> A -> Prop) (l : list (result F (A * P))) f :
  (forall a, ~ lt a a) -> lists lt l f ->
  exists items, l = map Ok items /\ NoDup (map fst items) /\ forall a p, In (a, p) items <-> f a = Some p.
Proof.
  intros Irr (items & H1 & H2 & H3). exists items. split; auto. split; auto.
  clear H1 H3. induction H2 as [|x items H2 IH H3]; simpl; constructor; auto.
  intros Hi. apply in_map_iff in Hi. destruct Hi as (y & Hy & Hi). rewrite Forall_forall in H3.
  apply (Irr (fst x)). rewrite <- Hy at 2. auto.
Qed.

(** ** Originals *)
Lemma mem_rdf_delivers r eg :
  rdf_reachable E seqb mn me r -> rdf_shows r eg -> e_delivers (rdf_source_of r) eg.
Proof.
  intros R [H1 H2]. destruct (reach_inv seqb seqb_eq mn me r R) as [One _].
  destruct (listed_once _ _ _ (behind_lt_irr _ _ One) H1) as (ns & A1 & A2 & A3).
  destruct (listed_once _ _ _ (behind_edge_lt_irr _ _ SPO One) (H2 SPO)) as (es & B1 & B2 & B3).
  destruct (rdf_into_iter_eq SPO r) as (Q1 & Q2 & _). exists ns, es. unfold rdf_source_of. cbn [rs_nodes rs_edges].
  rewrite Q2, Q1. cbn [fst snd]. repeat (split; [eassumption|]). assumption.
Qed.

(** ** Into a new store over Mem *)
Lemma copy_rdf_mem g u (s : rdf_source S NP EP E) o eg xs r :
  e_delivers s eg -> r_copying s o -> rdf_history seqb mn me [o] (rdf_new g u) = (xs, r) ->
  drawn_distinct (r_ulids r) -> drawn_distinct (id_generator (r_graph r)) ->
  (forall i n, In (EUlid i) (entities_of o) -> n < g_pos (r_ulids r) -> g_seq (r_ulids r) n <> i)%nat ->
  xs = [Ok tt] /\ rdf_shows r eg.
Proof.
  intros D C H D1 D2 Hf. destruct (r_copying_spec s o eg D C) as [A B].
  destruct (top_rdf_plain seqb seqb_eq mn me [o] g u xs r H D1 D2) as [X Y].
  - intros i n Hi. apply Hf. simpl in Hi. now rewrite app_nil_r in Hi.
  - split; [now rewrite X|]. destruct Y as [Y1 Y2], B as [B1 B2]. split.
    + eapply lists_ext; [|exact Y1]. exact B1.
    + intros o'. eapply lists_ext; [|exact (Y2 o')]. exact B2.
Qed.

End Graphs.

Section Sled.
Context {S NP EP SE BE E : Type} (seqb : S -> S -> bool).
Context (cs : codec BE S) (cu : codec BE (Id KUlid)) (cn : codec BE NP) (ce : codec BE EP).
Context (mn : NP -> NP -> NP) (me : EP -> EP -> EP).
Context (seqb_eq : forall a b, seqb a b = true <-> a = b).

(** ** The iterators *)
Lemma rs_into_iter o : forall fs d,
  exec (rs_into_iter_nodes (SE := SE) cs cu cn ce o) fs d = exec (rs_iter_nodes cs cu cn ce o) fs d /\
  exec (rs_into_iter_vertices (SE := SE) cs cu cn) fs d = exec (rs_iter_vertices cs cu cn) fs d /\
  exec (rs_into_iter_edges (SE := SE) cs cu ce o) fs d = exec (rs_iter_edges cs cu ce o) fs d /\
  exec (rs_into_iter_edges_with_props (SE := SE) cs cu cn ce o) fs d = exec (rs_iter_edges_with_props cs cu cn ce o) fs d.
Proof. intros fs d. split; [|auto]. destruct o; reflexivity. Qed.

Context (Hcs : codec_ok cs) (Hcu : codec_ok cu) (Hcn : codec_ok cn) (Hce : codec_ok ce) (Htu : codec_total cu).
Notation rop := (rop S NP EP E).
Notation repoch := (repoch (S := S) (NP := NP) (EP := EP) (SE := SE) (E := E)).
Notation epochs := (rs_epochs (SE := SE) (E := E) cs cu cn ce mn me).
Notation hist := (rs_history (SE := SE) (E := E) cs cu cn ce mn me).

Lemma rs_iter_nodes_now (es : list repoch) o :
  NoDup (flat_map epoch_keys es) -> Forall calm es ->
  let d := epochs es rdb_new in
  ret_of (rs_iter_nodes (SE := SE) cs cu cn ce o) [] d =
    (ret_of (rs_iter_vertices (SE := SE) cs cu cn) [] d, ret_of (rs_iter_edges (SE := SE) cs cu ce o) [] d).
Proof.
  intros Hnd Hc d. destruct (main_faults seqb cs cu cn ce mn me seqb_eq Hcs Hcu Hcn Hce Htu es [] Hnd Hc) as ((A & _) & (B & _)).
  fold d in A. cbv zeta in A. change (rs_scan _ _ _) with (rs_iter_vertices (SE := SE) cs cu cn) in A.
  unfold rs_iter_nodes. rewrite !ret_of_bind.
  change (rs_scan t_node (node_item cn) (rs_show_pair cs cu)) with (rs_iter_vertices (SE := SE) cs cu cn).
  rewrite A, !exec_nil. reflexivity.
Qed.

(** ** Originals over sled *)
Lemma sled_rdf_delivers (es : list repoch) eg :
  NoDup (flat_map epoch_keys es) -> Forall calm es ->
  let d := epochs es rdb_new in
  rs_shows SE cs cu cn ce d eg -> e_delivers (rs_source (SE := SE) cs cu cn ce d) eg.
Proof.
  intros Hnd Hc d [H1 H2].
  destruct (main_epochs seqb cs cu cn ce mn me seqb_eq Hcs Hcu Hcn Hce Htu es Hnd Hc) as [One _]. fold d in One.
  destruct (listed_once _ _ _ (behind_lt_irr _ _ One) H1) as (ns & A1 & A2 & A3).
  destruct (listed_once _ _ _ (behind_edge_lt_irr _ _ SPO One) (H2 SPO)) as (es' & B1 & B2 & B3).
  exists ns, es'. unfold rs_source. cbn [rs_nodes rs_edges].
  assert (ret_of (rs_into_iter_nodes (SE := SE) cs cu cn ce SPO) [] d =
    (ret_of (rs_iter_vertices (SE := SE) cs cu cn) [] d, ret_of (rs_iter_edges (SE := SE) cs cu ce SPO) [] d)) as ->.
  { unfold ret_of at 1. rewrite (proj1 (rs_into_iter SPO [] d)). exact (rs_iter_nodes_now es SPO Hnd Hc). }
  cbn [fst snd]. repeat (split; [eassumption|]). assumption.
Qed.

(** ** Into a new database *)
Lemma copy_rdf_sled h (s : rdf_source S NP EP E) (o : rop) eg fs :
  e_delivers s eg -> r_copying s o -> NoDup (rs_keys h [o]) ->
  let p := hist [o] h in
  let d := db_of p fs rdb_new in
  (forall r, In r (fst (ret_of p fs rdb_new)) -> r_failed r = false) ->
  (forall i, In (EUlid i) (entities_of o) -> id_now (SE := SE) cs cu d i = None) ->
  fst (ret_of p fs rdb_new) = [Ok tt] /\ rs_shows SE cs cu cn ce d eg.
Proof.
  intros D C Hnd p d Hno Hf. destruct (r_copying_spec seqb seqb_eq mn me s o eg D C) as [A B].
  destruct (main_history seqb cs cu cn ce mn me seqb_eq Hcs Hcu Hcn Hce Htu h [o] fs Hnd Hno) as (_ & _ & X & Y).
  fold p in X, Y. fold d in X, Y.
  rewrite (e_history_ext seqb mn me (by_name (id_now (SE := SE) cs cu d)) (fun e => e)) in X, Y.
  - split; [|eapply rs_shows_equiv; eauto]. rewrite A in X.
    inversion X as [|? r ? rs Hr Hrs]; subst. inversion Hrs; subst. destruct r as [[]|[]]; simpl in Hr; try contradiction; auto.
  - intros [n|i] He; simpl; auto. unfold shown. rewrite Hf; auto. simpl in He. now rewrite app_nil_r in He.
  - intros [n|i] He; simpl; auto. unfold shown. rewrite Hf; auto. simpl in He. now rewrite app_nil_r in He.
Qed.

End Sled.

(** Saved to a database and loaded again. *)
Lemma crash_all {D SE A} (p : prog D SE A) : forall fs d, exists n, crash n p fs d = db_of p fs d.
Proof.
  induction p as [a|c IH|u c IHc e IHe]; intros fs d.
  - exists 0%nat. reflexivity.
  - destruct (IH d fs d) as [n Hn]. exists n. exact Hn.
  - destruct fs as [|[x|] fs].
    + destruct (IHc d [] (u d)) as [n Hn]. exists (Datatypes.S n). exact Hn.
    + destruct (IHe x fs d) as [n Hn]. exists (Datatypes.S n). exact Hn.
    + destruct (IHc d fs (u d)) as [n Hn]. exists (Datatypes.S n). exact Hn.
Qed.

Lemma rdf_round_trip {S NP EP SE BE} (seqb : S -> S -> bool)
    (cs : codec BE S) (cu : codec BE (Id KUlid)) (cn : codec BE NP) (ce : codec BE EP) mn me :
  (forall a b, seqb a b = true <-> a = b) ->
  codec_ok cs -> codec_ok cu -> codec_ok cn -> codec_ok ce -> codec_total cu ->
  forall E (r : rdf S NP EP) eg h o fs g u o' xs r',
  rdf_reachable E seqb mn me r -> rdf_shows r eg ->
  r_copying (rdf_source_of r) o -> NoDup (rs_keys h [o]) ->
  let p := rs_history (SE := SE) cs cu cn ce mn me [o] h in
  let d := db_of p fs rdb_new in
  (forall x, In x (fst (ret_of p fs rdb_new)) -> r_failed x = false) ->
  (forall i, In (EUlid i) (entities_of o) -> id_now (SE := SE) cs cu d i = None) ->
  r_copying (rs_source (SE := SE) cs cu cn ce d) o' ->
  rdf_history seqb mn me [o'] (rdf_new g u) = (xs, r') ->
  drawn_distinct (r_ulids r') -> drawn_distinct (id_generator (r_graph r')) ->
  (forall i n, In (EUlid i) (entities_of o') -> n < g_pos (r_ulids r') -> g_seq (r_ulids r') n <> i)%nat ->
  rs_shows SE cs cu cn ce d eg /\ xs = [Ok tt] /\ rdf_shows r' eg.
Proof.
  intros Hq Hcs Hcu Hcn Hce Htu E r eg h o fs g u o' xs r' R Sh C Hnd p d Hno Hf C' Hx D1 D2 Hf'.
  pose proof (mem_rdf_delivers seqb Hq mn me r eg R Sh) as De.
  destruct (copy_rdf_sled seqb cs cu cn ce mn me Hq Hcs Hcu Hcn Hce Htu h _ o eg fs De C Hnd Hno Hf) as [_ Sd].
  fold p in Sd. fold d in Sd. split; auto.
  destruct (crash_all p fs rdb_new) as [n Hn].
  assert (rs_epochs (SE := SE) cs cu cn ce mn me [Alone (RLife h [o] fs n)] rdb_new = d) as Hd by exact Hn.
  eapply (copy_rdf_mem seqb Hq mn me g u (rs_source cs cu cn ce d) o' eg xs r'); eauto.
  rewrite <- Hd in Sd |- *.
  apply (sled_rdf_delivers seqb cs cu cn ce mn me Hq Hcs Hcu Hcn Hce Htu _ eg); auto.
  - simpl. now rewrite app_nil_r.
  - repeat constructor.
Qed.
