(** Copying stores, and laws of the set operations. *)
From Coq Require Import List.
From Verif Require Import Bytes Core IdType IdTypeFacts Store Mem Spec History MemFacts MemSetFacts MemTop EqFacts MemSim ListFacts
  Prog Sled SledHistory SledRead SledMain LawSpec.
Import ListNotations.

Section Graphs.
Context {k : idkind} {NP EP : Type}.
Notation G := (graph k NP EP).
Notation M := (mem k NP EP).
Context (neqb : NP -> NP -> bool) (eeqb : EP -> EP -> bool) (Rn : reflexive neqb) (Re : reflexive eeqb).

Lemma same_of_equiv (a b : G) : g_equiv a b -> same_graph neqb eeqb a b.
Proof.
  intros [H1 H2]. split; intros x; unfold opt_rel.
  - rewrite H1. destruct (g_node b x); auto. 
  - rewrite H2. destruct (g_edge b x); auto.
Qed.

Lemma equal_sources {L R} (s : source k NP EP L) (s' : source k NP EP R) a b :
  delivers s a -> delivers s' b -> g_equiv a b -> try_equal neqb eeqb s s'.
Proof.
  intros D D' H. destruct (try_eq_graph neqb eeqb s s' a b D D') as (r & Hq & Hr).
  unfold try_equal. rewrite Hq. f_equal. now apply Hr, same_of_equiv.
Qed.

Context {E : Type} (mn : NP -> NP -> NP) (me : EP -> EP -> EP).
Notation reach := (reachable E mn me).

Lemma equal_stores (m m' : M) a b :
  reach m -> reach m' -> shows m a -> shows m' b -> g_equiv a b -> try_equal neqb eeqb (mem_source m) (mem_source m').
Proof. intros R R' S S' H. eapply equal_sources; eauto; eapply mem_source_shows; eauto. Qed.

End Graphs.

(** ** Copies *)
Section Copies.
Context {k : idkind} {NP EP : Type}.
Notation G := (graph k NP EP).
Notation M := (mem k NP EP).

Lemma sled_source_delivers {SE BE} (cn : codec BE NP) (ce : codec BE EP) d (g : G) :
  sled_shows SE cn ce d g -> delivers (sled_source SE cn ce d) g.
Proof.
  intros [S1 S2]. unfold sled_source, delivers. simpl src_nodes. simpl src_edges.
  assert (now SE (s_into_iter_nodes (k := k) cn ce SPO) d = (now SE (s_iter_vertices cn) d, now SE (s_iter_edges ce SPO) d)) as ->.
  { transitivity (now SE (s_iter_nodes (k := k) cn ce SPO) d); [|apply iter_nodes_sled].
    unfold now, ret_of. now rewrite (proj1 (into_iter_sled cn ce SPO)). }
  cbn [fst snd]. split; [exact S1|exact (S2 SPO)].
Qed.

Context {E : Type} (mn : NP -> NP -> NP) (me : EP -> EP -> EP).
Notation reach := (reachable E mn me).

Lemma union_empty_l (g : G) : g_equiv (g_union g_empty g) g.
Proof. split; intros x; simpl; [destruct (g_node g x)|destruct (g_edge g x)]; auto. Qed.
Lemma merged_empty_l (g : G) : g_equiv (g_merged mn me g_empty g) g.
Proof. split; intros x; simpl; [destruct (g_node g x)|destruct (g_edge g x)]; auto. Qed.

Lemma copying_spec (s : source k NP EP E) c g :
  delivers s g -> copying s c -> g_equiv (spec_history mn me [c] g_empty) g /\ op_error c = None.
Proof.
  intros D C. split.
  - destruct C; simpl; eapply g_equiv_trans.
    + apply g_bulk_put; eauto.
    + apply union_empty_l.
    + apply g_bulk_merge; eauto.
    + apply merged_empty_l.
  - destruct C; simpl; eapply delivers_no_error; eauto.
Qed.

(** Into a new memory store. *)
Lemma copy_mem gn (s : source k NP EP E) c g :
  delivers s g -> copying s c ->
  let r := mem_history mn me [c] (mem_new gn) in
  drawn_distinct (id_generator r) ->
  reach r /\ shows r g.
Proof.
  intros D C r Dr. split; [apply reachable_history, R_new|].
  eapply shows_equiv; [apply (copying_spec s c g D C)|]. now apply top_history.
Qed.

Lemma copy_mem_ok gn (s : source k NP EP E) g :
  delivers s g -> fst (extend s (mem_new (NP := NP) (EP := EP) gn)) = Ok tt /\
  fst (merge mn me s (mem_new (NP := NP) (EP := EP) gn)) = Ok tt.
Proof.
  intros D. pose proof (delivers_no_error s g D) as He. split.
  - rewrite extend_result. unfold bulk_result. now rewrite He.
  - rewrite merge_result. unfold bulk_result. now rewrite He.
Qed.

(** Into a new database. *)
Lemma copy_sled {SE BE} (cn : codec BE NP) (ce : codec BE EP) (h : handle k) (s : source k NP EP E) c g
    (faults : list (option SE)) :
  codec_ok cn -> codec_ok ce -> NoDup (history_keys h [c]) ->
  delivers s g -> copying s c ->
  let p := sled_history cn ce mn me [c] h in
  (forall r, In r (fst (ret_of p faults db_new)) -> ~ failed r) ->
  fst (ret_of p faults db_new) = [Ok tt] /\ sled_shows SE cn ce (db_of p faults db_new) g.
Proof.
  intros Hn He Hd D C p Hno. destruct (copying_spec s c g D C) as [Q Er].
  destruct (history_shows cn ce mn me h [c] faults Hn He Hd Hno) as [H1 H2]. split.
  - unfold p. rewrite H1. simpl. unfold expected. now rewrite Er.
  - eapply sled_shows_equiv; eauto.
Qed.

End Copies.

(** ** Round trips and comparisons of copies *)
Section Same.
Context {k : idkind} {NP EP : Type}.
Notation G := (graph k NP EP).
Notation M := (mem k NP EP).
Context (neqb : NP -> NP -> bool) (eeqb : EP -> EP -> bool).
Context (mn : NP -> NP -> NP) (me : EP -> EP -> EP).

Lemma copy_mem_equal {E} gn (s : source k NP EP E) c g :
  reflexive neqb -> reflexive eeqb -> delivers s g -> copying s c ->
  let r := mem_history mn me [c] (mem_new gn) in
  drawn_distinct (id_generator r) ->
  shows r g /\ try_equal neqb eeqb (mem_source r) s /\ try_equal neqb eeqb s (mem_source r).
Proof.
  intros Rn Re D C r Dr. destruct (copy_mem mn me gn s c g D C Dr) as [R S]. fold r in R, S. split; auto.
  pose proof (mem_source_shows mn me r g R S) as Dr'.
  split; eapply equal_sources; eauto; apply g_equiv_refl.
Qed.

Lemma copy_sled_equal {E SE BE} (cn : codec BE NP) (ce : codec BE EP) (h : handle k) (s : source k NP EP E) c g
    (faults : list (option SE)) :
  reflexive neqb -> reflexive eeqb ->
  codec_ok cn -> codec_ok ce -> NoDup (history_keys h [c]) ->
  delivers s g -> copying s c ->
  let p := sled_history cn ce mn me [c] h in
  let d := db_of p faults db_new in
  (forall r, In r (fst (ret_of p faults db_new)) -> ~ failed r) ->
  fst (ret_of p faults db_new) = [Ok tt] /\ sled_shows SE cn ce d g /\
  try_equal neqb eeqb (sled_source SE cn ce d) s /\ try_equal neqb eeqb s (sled_source SE cn ce d).
Proof.
  intros Rn Re Hn He Hd D C p d Hno. destruct (copy_sled mn me cn ce h s c g faults Hn He Hd D C Hno) as [H1 H2].
  split; auto. split; auto. pose proof (sled_source_delivers cn ce d g H2) as D'.
  split; eapply equal_sources; eauto; apply g_equiv_refl.
Qed.

(** A memory store saved to a database and loaded again. *)
Lemma round_trip {E SE BE} (cn : codec BE NP) (ce : codec BE EP) (h : handle k) gn (m : M) c c'
    (faults : list (option SE)) :
  reflexive neqb -> reflexive eeqb ->
  codec_ok cn -> codec_ok ce -> reachable E mn me m -> drawn_distinct (id_generator m) ->
  copying (mem_source m) c -> NoDup (history_keys h [c]) ->
  let p := sled_history cn ce mn me [c] h in
  let d := db_of p faults db_new in
  (forall r, In r (fst (ret_of p faults db_new)) -> ~ failed r) ->
  copying (sled_source SE cn ce d) c' ->
  let r := mem_history mn me [c'] (mem_new gn) in
  drawn_distinct (id_generator r) ->
  iter_vertices r = iter_vertices m /\ (forall o, iter_edges o r = iter_edges o m) /\
  try_equal neqb eeqb (mem_source r) (mem_source m).
Proof.
  intros Rn Re Hn He R Dm C Hd p d Hno C' r Dr.
  destruct (top_shows mn me m R) as [g S].
  pose proof (mem_source_shows mn me m g R S) as D.
  destruct (copy_sled mn me cn ce h _ c g faults Hn He Hd D C Hno) as [_ Sd]. fold p d in Sd.
  pose proof (sled_source_delivers cn ce d g Sd) as D'.
  destruct (copy_mem mn me gn _ c' g D' C' Dr) as [Rr Sr]. fold r in Rr, Sr.
  split; [|split].
  - apply (lists_unique id_lt id_lt_irr id_lt_tr) with (f := g_node g) (f' := g_node g); [apply Sr|apply S|auto].
  - intros o. apply (lists_unique (edge_lt o) (edge_lt_irr o) (edge_lt_tr o)) with (f := g_edge g) (f' := g_edge g);
      [apply (proj2 Sr)|apply (proj2 S)|auto].
  - eapply equal_sources; eauto; [|apply g_equiv_refl]. eapply mem_source_shows; eauto.
Qed.

(** ** Laws of the set operations *)
Context (Rn : reflexive neqb) (Re : reflexive eeqb).
Notation reach := (reachable unit mn me).
Notation "a == b" := (try_equal neqb eeqb (mem_source a) (mem_source b)) (at level 70).

Lemma u_shows g (a b : M) r ga gb :
  reach a -> shows a ga -> reach b -> shows b gb -> gives (union g (mem_source b) a) r ->
  reach r /\ shows r (g_union ga gb).
Proof.
  intros Ra Sa Rb Sb [H D]. destruct (shows_union mn me g _ a ga gb Ra Sa (mem_source_shows mn me b gb Rb Sb)) as (r' & H' & S').
  assert (r' = r) as -> by congruence. split; auto. exact (R_union mn me g (mem_source b) a r Ra H).
Qed.

Lemma i_shows g (a b : M) r ga gb :
  reach a -> shows a ga -> reach b -> shows b gb -> gives (intersection g (mem_source b) a) r ->
  reach r /\ shows r (g_inter ga gb).
Proof.
  intros Ra Sa Rb Sb [H D]. destruct (shows_intersection mn me g _ a ga gb Ra Sa (mem_source_shows mn me b gb Rb Sb)) as (r' & H' & S').
  assert (r' = r) as -> by congruence. split; auto. exact (R_intersection mn me g (mem_source b) a r Ra H).
Qed.

Lemma d_shows g (a b : M) r ga gb :
  reach a -> shows a ga -> reach b -> shows b gb -> gives (difference g (mem_source b) a) r ->
  reach r /\ exists c, shows r c /\ (forall i, g_node c i = g_minus_nodes ga gb i) /\
     (forall t e, g_edge c t = Some e <-> diff_edge ga gb t e).
Proof.
  intros Ra Sa Rb Sb [H D]. destruct (shows_difference mn me g _ a ga gb Ra Sa (mem_source_shows mn me b gb Rb Sb)) as (r' & H' & S').
  assert (r' = r) as -> by congruence. split; auto. exact (R_difference mn me g (mem_source b) a r Ra H).
Qed.

Ltac cases := split; intros x; simpl;
  repeat match goal with |- context [match ?y with Some _ => _ | None => _ end] =>
    lazymatch y with context [match _ with Some _ => _ | None => _ end] => fail | _ => destruct y end end; auto; try congruence.

Lemma law_union_idem g (a r : M) : reach a -> gives (union g (mem_source a) a) r -> r == a.
Proof.
  intros R H. destruct (top_shows mn me a R) as [ga S]. destruct (u_shows g a a r ga ga) as [Rr Sr]; auto.
  eapply equal_stores; eauto. cases.
Qed.

Lemma law_inter_idem g (a r : M) : reach a -> gives (intersection g (mem_source a) a) r -> r == a.
Proof.
  intros R H. destruct (top_shows mn me a R) as [ga S]. destruct (i_shows g a a r ga ga) as [Rr Sr]; auto.
  eapply equal_stores; eauto. cases.
Qed.

Lemma new_shows (g : gen k) : reach (mem_new g) /\ shows (mem_new g : M) g_empty.
Proof.
  split; [apply R_new|]. eapply shows_equiv; [apply (abs_new g)|]. apply shows_abs, agree_new.
Qed.

Lemma law_union_empty g g' (a r : M) : reach a -> gives (union g (mem_source (mem_new g')) a) r -> r == a.
Proof.
  intros R H. destruct (top_shows mn me a R) as [ga S]. destruct (new_shows g') as [R0 S0].
  destruct (u_shows g a _ r ga _ R S R0 S0 H) as [Rr Sr]. eapply equal_stores; eauto. cases.
Qed.

Lemma law_empty_union g g' (a r : M) : reach a -> gives (union g (mem_source a) (mem_new g')) r -> r == a.
Proof.
  intros R H. destruct (top_shows mn me a R) as [ga S]. destruct (new_shows g') as [R0 S0].
  destruct (u_shows g _ a r _ ga R0 S0 R S H) as [Rr Sr]. eapply equal_stores; eauto. cases.
Qed.

Lemma law_inter_empty g g' (a r : M) : reach a -> gives (intersection g (mem_source (mem_new g')) a) r -> r == mem_new g'.
Proof.
  intros R H. destruct (top_shows mn me a R) as [ga S]. destruct (new_shows g') as [R0 S0].
  destruct (i_shows g a _ r ga _ R S R0 S0 H) as [Rr Sr]. eapply equal_stores; eauto. cases.
Qed.

Lemma law_union_assoc g1 g2 g3 g4 (a b c ab bc l r : M) :
  reach a -> reach b -> reach c ->
  gives (union g1 (mem_source b) a) ab -> gives (union g2 (mem_source c) ab) l ->
  gives (union g3 (mem_source c) b) bc -> gives (union g4 (mem_source bc) a) r -> l == r.
Proof.
  intros Ra Rb Rc H1 H2 H3 H4.
  destruct (top_shows mn me a Ra) as [ga Sa], (top_shows mn me b Rb) as [gb Sb], (top_shows mn me c Rc) as [gc Sc].
  destruct (u_shows g1 a b ab ga gb) as [R1 S1]; auto.
  destruct (u_shows g2 ab c l _ gc R1 S1 Rc Sc H2) as [R2 S2].
  destruct (u_shows g3 b c bc gb gc) as [R3 S3]; auto.
  destruct (u_shows g4 a bc r ga _ Ra Sa R3 S3 H4) as [R4 S4].
  eapply equal_stores; eauto. cases.
Qed.

Lemma law_inter_assoc g1 g2 g3 g4 (a b c ab bc l r : M) :
  reach a -> reach b -> reach c ->
  gives (intersection g1 (mem_source b) a) ab -> gives (intersection g2 (mem_source c) ab) l ->
  gives (intersection g3 (mem_source c) b) bc -> gives (intersection g4 (mem_source bc) a) r -> l == r.
Proof.
  intros Ra Rb Rc H1 H2 H3 H4.
  destruct (top_shows mn me a Ra) as [ga Sa], (top_shows mn me b Rb) as [gb Sb], (top_shows mn me c Rc) as [gc Sc].
  destruct (i_shows g1 a b ab ga gb) as [R1 S1]; auto.
  destruct (i_shows g2 ab c l _ gc R1 S1 Rc Sc H2) as [R2 S2].
  destruct (i_shows g3 b c bc gb gc) as [R3 S3]; auto.
  destruct (i_shows g4 a bc r ga _ Ra Sa R3 S3 H4) as [R4 S4].
  eapply equal_stores; eauto. cases.
Qed.

Lemma law_absorb_inter g1 g2 (a b ab r : M) :
  reach a -> reach b ->
  gives (union g1 (mem_source b) a) ab -> gives (intersection g2 (mem_source ab) a) r -> r == a.
Proof.
  intros Ra Rb H1 H2.
  destruct (top_shows mn me a Ra) as [ga Sa], (top_shows mn me b Rb) as [gb Sb].
  destruct (u_shows g1 a b ab ga gb) as [R1 S1]; auto.
  destruct (i_shows g2 a ab r ga _ Ra Sa R1 S1 H2) as [R2 S2].
  eapply equal_stores; eauto. cases.
Qed.

Lemma law_absorb_union g1 g2 (a b ab r : M) :
  reach a -> reach b ->
  gives (intersection g1 (mem_source b) a) ab -> gives (union g2 (mem_source ab) a) r -> r == a.
Proof.
  intros Ra Rb H1 H2.
  destruct (top_shows mn me a Ra) as [ga Sa], (top_shows mn me b Rb) as [gb Sb].
  destruct (i_shows g1 a b ab ga gb) as [R1 S1]; auto.
  destruct (u_shows g2 a ab r ga _ Ra Sa R1 S1 H2) as [R2 S2].
  eapply equal_stores; eauto. cases.
Qed.

(** a /\ (b \/ c) = (a /\ b) \/ (a /\ c) *)
Lemma law_inter_union g1 g2 g3 g4 g5 (a b c bc ab ac l r : M) :
  reach a -> reach b -> reach c ->
  gives (union g1 (mem_source c) b) bc -> gives (intersection g2 (mem_source bc) a) l ->
  gives (intersection g3 (mem_source b) a) ab -> gives (intersection g4 (mem_source c) a) ac ->
  gives (union g5 (mem_source ac) ab) r -> l == r.
Proof.
  intros Ra Rb Rc H1 H2 H3 H4 H5.
  destruct (top_shows mn me a Ra) as [ga Sa], (top_shows mn me b Rb) as [gb Sb], (top_shows mn me c Rc) as [gc Sc].
  destruct (u_shows g1 b c bc gb gc) as [R1 S1]; auto.
  destruct (i_shows g2 a bc l ga _ Ra Sa R1 S1 H2) as [R2 S2].
  destruct (i_shows g3 a b ab ga gb) as [R3 S3]; auto.
  destruct (i_shows g4 a c ac ga gc) as [R4 S4]; auto.
  destruct (u_shows g5 ab ac r _ _ R3 S3 R4 S4 H5) as [R5 S5].
  eapply equal_stores; eauto. cases.
Qed.

Lemma law_diff_self g g' (a r : M) : reach a -> gives (difference g (mem_source a) a) r -> r == mem_new g'.
Proof.
  intros R H. destruct (top_shows mn me a R) as [ga S]. destruct (new_shows g') as [R0 S0].
  destruct (d_shows g a a r ga ga R S R S H) as (Rr & c & Sr & Hn & He).
  eapply equal_stores; eauto. split; intros x; simpl.
  - rewrite Hn. unfold g_minus_nodes. now destruct (g_node ga x).
  - destruct (g_edge c x) eqn:F; auto. apply He in F. unfold diff_edge in F. destruct F as (F1 & F2 & _). congruence.
Qed.

Lemma law_diff_empty g g' (a r : M) : reach a -> gives (difference g (mem_source (mem_new g')) a) r -> r == a.
Proof.
  intros R H. destruct (top_shows mn me a R) as [ga S]. destruct (new_shows g') as [R0 S0].
  destruct (d_shows g a _ r ga _ R S R0 S0 H) as (Rr & c & Sr & Hn & He).
  eapply equal_stores; eauto. split; intros x; simpl.
  - now rewrite Hn.
  - apply option_ext. intros e. rewrite He. unfold diff_edge. simpl. split; [tauto|]. intros F. split; auto. split; auto.
    left. intros v Hv. now destruct Hv.
Qed.

(** What was subtracted is not in the result. *)
Lemma law_diff_disjoint g1 g2 g' (a b ab r : M) :
  reach a -> reach b ->
  gives (difference g1 (mem_source b) a) ab -> gives (intersection g2 (mem_source b) ab) r -> r == mem_new g'.
Proof.
  intros Ra Rb H1 H2.
  destruct (top_shows mn me a Ra) as [ga Sa], (top_shows mn me b Rb) as [gb Sb]. destruct (new_shows g') as [R0 S0].
  destruct (d_shows g1 a b ab ga gb Ra Sa Rb Sb H1) as (R1 & c & S1 & Hn & He).
  destruct (i_shows g2 ab b r _ gb R1 S1 Rb Sb H2) as [R2 S2].
  eapply equal_stores; eauto. split; intros x; simpl.
  - rewrite Hn. unfold g_minus_nodes. now destruct (g_node gb x).
  - destruct (g_edge gb x) eqn:F; auto. destruct (g_edge c x) eqn:F'; auto. apply He in F'.
    unfold diff_edge in F'. destruct F' as (_ & F2 & _). congruence.
Qed.

(** ** Queries *)
Lemma run_shows g q (a : M) ga : reach a -> shows a ga -> drawn_distinct (id_generator (run g q a)) ->
  reach (run g q a) /\ exists c, shows (run g q a) c /\ answers q ga c.
Proof.
  intros R S D. split; [now apply R_run|]. now apply (shows_run (E := unit) mn me g q a ga).
Qed.

Lemma answer_node q (g g' : G) n : answers q g g' -> selects_node q n -> g_node g' n = g_node g n.
Proof. intros [A _] Y. apply option_ext. intros p. rewrite A. tauto. Qed.
Lemma answer_no_node q (g g' : G) n : answers q g g' -> ~ selects_node q n -> g_node g' n = None.
Proof. intros [A _] Y. destruct (g_node g' n) eqn:F; auto. apply A in F. tauto. Qed.
Lemma answer_edge q (g g' : G) t : answers q g g' -> selects q t -> g_edge g' t = g_edge g t.
Proof. intros [_ A] Y. apply option_ext. intros p. rewrite A. tauto. Qed.
Lemma answer_no_edge q (g g' : G) t : answers q g g' -> ~ selects q t -> g_edge g' t = None.
Proof. intros [_ A] Y. destruct (g_edge g' t) eqn:F; auto. apply A in F. tauto. Qed.

Definition picks (q : query (Id k)) (op : G -> G -> G) : Prop :=
  forall ga gb ca cb c, answers q ga ca -> answers q gb cb -> answers q (op ga gb) c -> g_equiv c (op ca cb).

Lemma picks_union q : picks q g_union.
Proof.
  intros ga gb ca cb c [A1 A2] [B1 B2] [C1 C2]. split; intros x; apply option_ext; intros p; simpl.
  - rewrite C1. simpl. destruct (g_node cb x) eqn:F.
    + apply B1 in F. destruct F as [Y ->]. tauto.
    + rewrite A1. destruct (g_node gb x) eqn:F'; [|tauto]. split; intros [Y H].
      * exfalso. assert (g_node cb x = Some n) by (apply B1; auto). congruence.
      * exfalso. assert (g_node cb x = Some n) by (apply B1; auto). congruence.
  - rewrite C2. simpl. destruct (g_edge cb x) eqn:F.
    + apply B2 in F. destruct F as [Y ->]. tauto.
    + rewrite A2. destruct (g_edge gb x) eqn:F'; [|tauto]. split; intros [Y H].
      * exfalso. assert (g_edge cb x = Some e) by (apply B2; auto). congruence.
      * exfalso. assert (g_edge cb x = Some e) by (apply B2; auto). congruence.
Qed.

Lemma picks_inter q : picks q g_inter.
Proof.
  intros ga gb ca cb c [A1 A2] [B1 B2] [C1 C2]. split; intros x; apply option_ext; intros p; simpl.
  - rewrite C1. simpl. destruct (g_node cb x) eqn:F.
    + apply B1 in F. destruct F as [Y ->]. rewrite A1. tauto.
    + destruct (g_node gb x) eqn:F'; [|intuition discriminate]. split; [|discriminate]. intros [Y H].
      exfalso. assert (g_node cb x = Some n) by (apply B1; auto). congruence.
  - rewrite C2. simpl. destruct (g_edge cb x) eqn:F.
    + apply B2 in F. destruct F as [Y ->]. rewrite A2. tauto.
    + destruct (g_edge gb x) eqn:F'; [|intuition discriminate]. split; [|discriminate]. intros [Y H].
      exfalso. assert (g_edge cb x = Some e) by (apply B2; auto). congruence.
Qed.

Lemma law_run_union q g1 g2 g3 g4 g5 (a b ab r : M) :
  reach a -> reach b -> gives (union g1 (mem_source b) a) ab ->
  drawn_distinct (id_generator (run g2 q ab)) ->
  drawn_distinct (id_generator (run g3 q a)) -> drawn_distinct (id_generator (run g4 q b)) ->
  gives (union g5 (mem_source (run g4 q b)) (run g3 q a)) r -> run g2 q ab == r.
Proof.
  intros Ra Rb H1 D2 D3 D4 H5.
  destruct (top_shows mn me a Ra) as [ga Sa], (top_shows mn me b Rb) as [gb Sb].
  destruct (u_shows g1 a b ab ga gb) as [R1 S1]; auto.
  destruct (run_shows g2 q ab _ R1 S1 D2) as (R2 & c2 & S2 & A2).
  destruct (run_shows g3 q a _ Ra Sa D3) as (R3 & c3 & S3 & A3).
  destruct (run_shows g4 q b _ Rb Sb D4) as (R4 & c4 & S4 & A4).
  destruct (u_shows g5 _ _ r _ _ R3 S3 R4 S4 H5) as [R5 S5].
  eapply equal_stores; eauto. eapply picks_union; eauto.
Qed.

Lemma law_run_inter q g1 g2 g3 g4 g5 (a b ab r : M) :
  reach a -> reach b -> gives (intersection g1 (mem_source b) a) ab ->
  drawn_distinct (id_generator (run g2 q ab)) ->
  drawn_distinct (id_generator (run g3 q a)) -> drawn_distinct (id_generator (run g4 q b)) ->
  gives (intersection g5 (mem_source (run g4 q b)) (run g3 q a)) r -> run g2 q ab == r.
Proof.
  intros Ra Rb H1 D2 D3 D4 H5.
  destruct (top_shows mn me a Ra) as [ga Sa], (top_shows mn me b Rb) as [gb Sb].
  destruct (i_shows g1 a b ab ga gb) as [R1 S1]; auto.
  destruct (run_shows g2 q ab _ R1 S1 D2) as (R2 & c2 & S2 & A2).
  destruct (run_shows g3 q a _ Ra Sa D3) as (R3 & c3 & S3 & A3).
  destruct (run_shows g4 q b _ Rb Sb D4) as (R4 & c4 & S4 & A4).
  destruct (i_shows g5 _ _ r _ _ R3 S3 R4 S4 H5) as [R5 S5].
  eapply equal_stores; eauto. eapply picks_inter; eauto.
Qed.

(** extend gives the store that union gives. *)
Lemma law_extend_union g (a b r : M) :
  reach a -> reach b -> drawn_distinct (id_generator (snd (extend (mem_source b) a))) ->
  gives (union g (mem_source b) a) r -> snd (extend (mem_source b) a) == r.
Proof.
  intros Ra Rb D H.
  destruct (top_shows mn me a Ra) as [ga Sa], (top_shows mn me b Rb) as [gb Sb].
  destruct (u_shows g a b r ga gb) as [R1 S1]; auto.
  destruct (shows_extend_store mn me (mem_source b) a ga gb Ra Sa (mem_source_shows mn me b gb Rb Sb) D) as [_ S2].
  eapply equal_stores; eauto; [|apply g_equiv_refl]. exact (R_op mn me (OExtend (mem_source b)) a Ra).
Qed.

(** Extending twice by the same store is extending once. *)
Lemma law_extend_twice (a b : M) :
  reach a -> reach b ->
  let a1 := snd (extend (mem_source b) a) in
  let a2 := snd (extend (mem_source b) a1) in
  drawn_distinct (id_generator a2) -> drawn_distinct (id_generator a1) -> a2 == a1.
Proof.
  intros Ra Rb a1 a2 D2 D1.
  destruct (top_shows mn me a Ra) as [ga Sa], (top_shows mn me b Rb) as [gb Sb].
  pose proof (mem_source_shows mn me b gb Rb Sb) as Db.
  destruct (shows_extend_store mn me (mem_source b) a ga gb Ra Sa Db D1) as [_ S1]. fold a1 in S1.
  pose proof (R_op mn me (OExtend (mem_source b)) a Ra) as R1. change (reach a1) in R1.
  destruct (shows_extend_store mn me (mem_source b) a1 _ gb R1 S1 Db D2) as [_ S2]. fold a2 in S2.
  pose proof (R_op mn me (OExtend (mem_source b)) a1 R1) as R2. change (reach a2) in R2.
  eapply equal_stores; eauto. cases.
Qed.

(** Every set operation of two memory stores answers. *)
Lemma law_total g (a b : M) : reach a -> reach b ->
  (exists r, union g (mem_source b) a = Ok r) /\ (exists r, intersection g (mem_source b) a = Ok r) /\
  (exists r, difference g (mem_source b) a = Ok r).
Proof.
  intros Ra Rb. destruct (top_shows mn me a Ra) as [ga Sa], (top_shows mn me b Rb) as [gb Sb].
  pose proof (mem_source_shows mn me b gb Rb Sb) as Db. split; [|split].
  - destruct (shows_union mn me g _ a ga gb Ra Sa Db) as (r & H & _). eauto.
  - destruct (shows_intersection mn me g _ a ga gb Ra Sa Db) as (r & H & _). eauto.
  - destruct (shows_difference mn me g _ a ga gb Ra Sa Db) as (r & H & _). eauto.
Qed.

(** The part removed and the part kept. *)
Lemma law_parts g1 g2 g3 (a b d i r : M) :
  reach a -> reach b ->
  gives (difference g1 (mem_source b) a) d -> gives (intersection g2 (mem_source b) a) i ->
  gives (union g3 (mem_source i) d) r ->
  iter_vertices r = iter_vertices a /\ (forall o x, In x (iter_edges o r) -> In x (iter_edges o a)).
Proof.
  intros Ra Rb H1 H2 H3.
  destruct (top_shows mn me a Ra) as [ga Sa], (top_shows mn me b Rb) as [gb Sb].
  destruct (d_shows g1 a b d ga gb Ra Sa Rb Sb H1) as (R1 & c & S1 & Hn & He).
  destruct (i_shows g2 a b i ga gb) as [R2 S2]; auto.
  destruct (u_shows g3 d i r _ _ R1 S1 R2 S2 H3) as [R3 S3].
  split.
  - apply (lists_unique id_lt id_lt_irr id_lt_tr) with (f := g_node (g_union c (g_inter ga gb))) (f' := g_node ga);
      [apply S3|apply Sa|]. intros x. simpl. rewrite Hn. unfold g_minus_nodes.
    destruct (g_node gb x), (g_node ga x); auto.
  - intros o x Hx. destruct (proj2 S3 o) as (l & L & _ & HL). destruct (proj2 Sa o) as (l' & L' & _ & HL').
    rewrite L in Hx. rewrite L'. apply in_map_iff in Hx. destruct Hx as ([t e] & <- & Hx). apply in_map.
    apply HL'. apply HL in Hx. simpl in Hx.
    destruct (g_edge gb t) eqn:F.
    + destruct (g_edge ga t) eqn:F'; auto. apply He in Hx. unfold diff_edge in Hx. destruct Hx. congruence.
    + apply He in Hx. unfold diff_edge in Hx. tauto.
Qed.

End Same.
