(** What follows for a store after calls of extend that were cut short. *)
From Coq Require Import Arith NArith List Bool Sorted Lia.
From Verif Require Import Bytes BytesFacts OMap OMapFacts Core IdType IdTypeFacts Store Mem Spec
  CodecFacts ListFacts MemSim History Prog ProgFacts Sled SledHistory SledDb SledOps SledBulk SledRun
  SledRead SledTop SledMain SledTornSpec SledTorn.
Import ListNotations.

(** ** The relations *)
Section Rel.
Context {k : idkind} {NP EP SE BE E : Type}.
Context (mn : NP -> NP -> NP) (me : EP -> EP -> EP).
Notation T := (triple (Id k)).
Notation G := (graph k NP EP).
Notation op := (op k NP EP E).
Notation acts := (acts (E := E) mn me).
Notation whole := (whole (E := E) mn me).
Notation cut := (cut (E := E) mn me).
Notation goes := (goes (SE := SE) (BE := BE) (E := E) mn me).
Notation gone := (gone (SE := SE) (BE := BE) (E := E) mn me).
Notation done := (done (E := E) mn me).
Implicit Types K : list T.
Implicit Types g : G.

Lemma acts_spec (o : op) K g K' g' : no_remove_node o -> acts o K g K' g' -> g_equiv g' (spec_apply mn me o g).
Proof.
  intros Hn (_ & H1 & H2). split; auto. intros t. destruct (H2 t) as [H|((n & -> & _) & _)]; auto. destruct Hn.
Qed.

Lemma whole_spec (l : list op) K g K' g' : Forall no_remove_node l -> whole l K g K' g' ->
  g_equiv g' (spec_history mn me l g).
Proof.
  intros Hl H. induction H as [K g K' g' Hi He|o l K g K1 g1 K' g' Ha Hw IH]; auto.
  inversion Hl; subst. simpl. eapply g_equiv_trans; [apply IH; auto|].
  apply (spec_history_equiv mn me l). now apply (acts_spec o K g K1).
Qed.

Lemma whole_torn (l : list op) K g K' g' : whole l K g K' g' ->
  forall t, In t K' -> In t K /\ forall o, In o l -> ~ settles o t.
Proof.
  induction 1 as [K g K' g' Hi He|o l K g K1 g1 K' g' (Ha & _) Hw IH]; intros t Ht.
  - split; [now apply Hi|intros o []].
  - destruct (IH t Ht) as [H1 H2]. destruct (Ha t H1) as [H3 H4]. split; auto.
    intros o' [<-|Ho]; auto.
Qed.

Lemma elements_spec (o : op) g : spec_history mn me (elements o) g = spec_apply mn me o g.
Proof.
  assert (forall A (f : A -> op) (h : A -> G -> G) l g0, (forall a g, spec_apply mn me (f a) g = h a g) ->
    spec_history mn me (map f l) g0 = fold_left (fun g a => h a g) l g0) as Hm.
  { intros A f h l. induction l as [|a l IH]; intros g0 H; auto. simpl. rewrite H. apply IH. exact H. }
  destruct o as [v p|t e|v|t|v p|t e|s|s]; try reflexivity; simpl; unfold g_bulk; rewrite spec_history_app;
    rewrite (Hm _ _ _ _ _ (fun _ _ => eq_refl)).
  - destruct (first_error (src_nodes s)); [reflexivity|]. now rewrite (Hm _ _ _ _ _ (fun _ _ => eq_refl)).
  - destruct (first_error (src_nodes s)); [reflexivity|]. now rewrite (Hm _ _ _ _ _ (fun _ _ => eq_refl)).
Qed.

Lemma elements_keep (o : op) : no_remove_node o -> Forall no_remove_node (elements o).
Proof.
  intros H. apply Forall_forall. intros o' Ho'.
  destruct o as [v p|t e|v|t|v p|t e|s|s]; simpl in *; try (destruct Ho' as [<-|[]]; exact H);
    apply in_app_iff in Ho'; (destruct Ho' as [Ho'|Ho'];
      [|destruct (first_error (src_nodes s)); [destruct Ho'|]]); apply in_map_iff in Ho';
    destruct Ho' as (x & <- & _); exact Logic.I.
Qed.

Lemma done_spec (l : list op) K g K' g' : Forall no_remove_node l -> done l K g K' g' -> g_equiv g' (spec_history mn me l g).
Proof.
  intros Hl H. induction H as [K g K' g' Hi He|o l K g K1 g1 K' g' Ha Hw IH]; auto.
  inversion Hl; subst. simpl. eapply g_equiv_trans; [apply IH; auto|].
  apply (spec_history_equiv mn me l). rewrite <- elements_spec. eapply whole_spec; [now apply elements_keep|exact Ha].
Qed.

Lemma done_torn (l : list op) K g K' g' : done l K g K' g' ->
  forall t, In t K' -> In t K /\ forall o o', In o l -> In o' (elements o) -> ~ settles o' t.
Proof.
  induction 1 as [K g K' g' Hi He|o l K g K1 g1 K' g' Ha Hw IH]; intros t Ht.
  - split; [now apply Hi|intros o o' []].
  - destruct (IH t Ht) as [H1 H2]. destruct (whole_torn _ _ _ _ _ Ha t H1) as [H3 H4]. split; auto.
    intros o1 o' [<-|Ho] Hin; [apply H4; exact Hin | eapply H2; eauto].
Qed.

(** ** How many edges, and which *)
Lemma cut_torn b (l : list op) K g K' g' n : cut b l K g K' g' n ->
  n <= (if b then 1 else 0) /\
  exists L, length L = n /\ incl K' (L ++ K) /\ forall t, In t L -> exists e, In (OInsertEdge t e) l.
Proof.
  induction 1 as [l K g K' g' Hi He|t e l K g K' g' -> [Ht _]|o l K g K1 g1 K' g' n (Ha & _) Hc (IH1 & L & IH2 & IH3 & IH4)].
  - split; [destruct b; lia|]. exists []. split; auto. split; auto. intros t [].
  - split; [lia|]. exists [t]. split; auto. split.
    + intros u Hu. destruct (Ht u Hu) as [H|H]; simpl; auto.
    + intros u [<-|[]]. exists e. now left.
  - split; auto. exists L. split; auto. split.
    + intros t Ht. apply IH3, in_app_iff in Ht. apply in_app_iff. destruct Ht as [Ht|Ht]; auto. right. now apply Ha.
    + intros t Ht. destruct (IH4 t Ht) as [e He]. exists e. now right.
Qed.

Lemma element_extended (o : op) t e : is_extend o = true -> In (OInsertEdge t e) (elements o) -> In t (extended_edges [o]).
Proof.
  destruct o as [v p|u f|v|u|v p|u f|s|s]; try discriminate. intros _ H. simpl in *.
  unfold extended_edges. simpl. rewrite app_nil_r. apply in_app_iff in H. destruct H as [H|H].
  - apply in_map_iff in H. destruct H as (x & [=] & _).
  - destruct (first_error (src_nodes s)); [destruct H|]. apply in_map_iff in H.
    destruct H as (x & [= <- <-] & H). now apply in_map.
Qed.

Lemma extended_cons (o : op) l : extended_edges (o :: l) = extended_edges [o] ++ extended_edges l.
Proof.
  unfold extended_edges, extends_of. simpl. rewrite app_nil_r. now rewrite flat_map_app.
Qed.
Lemma extended_app (l l' : list op) : extended_edges (l ++ l') = extended_edges l ++ extended_edges l'.
Proof. unfold extended_edges, extends_of. now rewrite !flat_map_app. Qed.
Lemma extends_cons (o : op) l : length (extends_of (o :: l)) = (if is_extend o then 1 else 0) + length (extends_of l).
Proof. unfold extends_of. simpl. rewrite app_length. destruct o; reflexivity. Qed.
Lemma extends_app (l l' : list op) : length (extends_of (l ++ l')) = length (extends_of l) + length (extends_of l').
Proof. unfold extends_of. now rewrite flat_map_app, app_length. Qed.

Definition few (n c : nat) (ts : list T) K K' : Prop :=
  n <= c /\ exists L, length L = n /\ incl K' (L ++ K) /\ incl L ts.

Lemma few_trans n c ts K K1 n' c' ts' K' : few n c ts K K1 -> few n' c' ts' K1 K' ->
  few (n + n') (c + c') (ts ++ ts') K K'.
Proof.
  intros (H1 & L & H2 & H3 & H4) (H1' & L' & H2' & H3' & H4'). split; [lia|].
  exists (L ++ L'). split; [rewrite app_length; lia|]. split.
  - intros t Ht. apply H3', in_app_iff in Ht. rewrite !in_app_iff. destruct Ht as [Ht|Ht]; auto.
    apply H3, in_app_iff in Ht. tauto.
  - intros t Ht. rewrite in_app_iff in *. destruct Ht; auto.
Qed.

Lemma few_more n c ts K K' c' ts' : few n c ts K K' -> few n (c + c') (ts ++ ts') K K'.
Proof.
  intros H. replace n with (n + 0) by lia. eapply few_trans; [exact H|]. split; [lia|].
  exists []. split; auto. split; [apply incl_refl|intros t []].
Qed.

Lemma few_cut (o : op) K g K' g' n : cut (is_extend o) (elements o) K g K' g' n ->
  few n (if is_extend o then 1 else 0) (extended_edges [o]) K K'.
Proof.
  intros H. apply cut_torn in H. destruct H as (H1 & L & H2 & H3 & H4). split; auto. exists L. split; auto. split; auto.
  intros t Ht. destruct (H4 t Ht) as [e He]. eapply element_extended; [|exact He].
  destruct (is_extend o); auto. destruct L; [destruct Ht|simpl in H2; lia].
Qed.

Lemma few_sub c ts K K' : incl K' K -> few 0 c ts K K'.
Proof. intros H. split; [lia|]. exists []. split; auto. split; auto. intros t []. Qed.

Lemma goes_torn (l : list op) K g K' g' n : goes l K g K' g' n -> few n (length (extends_of l)) (extended_edges l) K K'.
Proof.
  induction 1 as [K g K' g' Hi He|o l K g K' g' n Hc|o l r K g K1 g1 K' g' n n' Hd Hg IH].
  - now apply few_sub.
  - rewrite extends_cons, extended_cons. apply few_more. eapply few_cut; eauto.
  - rewrite extends_cons, extended_cons. eapply few_trans; [|exact IH]. unfold does in Hd.
    destruct r as [[]|[e|e]]; try (destruct Hd as (_ & -> & Hw); apply few_sub; intros t Ht; eapply whole_torn; eauto).
    eapply few_cut; eauto.
Qed.

Lemma gone_torn (ls : list (list op)) K g K' g' n : gone ls K g K' g' n ->
  few n (length (extends_of (concat ls))) (extended_edges (concat ls)) K K'.
Proof.
  induction 1 as [K g K' g' Hi He|l ls K g K1 g1 K' g' n n' Hg Hn IH].
  - now apply few_sub.
  - simpl. rewrite extends_app, extended_app. eapply few_trans; [eapply goes_torn; eauto|exact IH].
Qed.

(** ** Doing an extend again *)
Definition inserts (o : op) : Prop := match o with OInsertNode _ _ | OInsertEdge _ _ => True | _ => False end.
Definition node_in (l : list op) (i : Id k) : Prop := exists p, In (OInsertNode i p) l.
Definition edge_in (l : list op) (t : T) : Prop := exists e, In (OInsertEdge t e) l.

(** The same graph but for what [l] writes. *)
Definition alike (l : list op) g g' : Prop :=
  (forall i, g_node g i = g_node g' i \/ node_in l i) /\ (forall t, g_edge g t = g_edge g' t \/ edge_in l t).

Lemma alike_refl l g : alike l g g.
Proof. split; auto. Qed.
Lemma alike_trans l g g1 g2 : alike l g g1 -> alike l g1 g2 -> alike l g g2.
Proof.
  intros [A B] [C D]. split; [intros i; destruct (A i), (C i) | intros t; destruct (B t), (D t)]; auto; left; congruence.
Qed.
Lemma alike_equiv l g g' : g_equiv g' g -> alike l g g'.
Proof. intros [A B]. split; [intros i; rewrite A | intros t; rewrite B]; auto. Qed.

Lemma alike_insert l (o : op) g : inserts o -> In o l -> alike l g (spec_apply mn me o g).
Proof.
  intros H Hin. destruct o as [v p|t e| | | | | |]; try contradiction; split; simpl; auto.
  - intros i. destruct (id_eq_dec i v) as [->|]; auto. right. now exists p.
  - intros u. destruct (triple_eq_dec u t) as [->|]; auto. right. now exists e.
Qed.

Lemma alike_over (l : list op) : Forall inserts l -> forall g g', alike l g g' ->
  g_equiv (spec_history mn me l g) (spec_history mn me l g').
Proof.
  induction 1 as [|o l Ho Hl IH]; intros g g' [A B].
  - split; [intros i; destruct (A i) as [|(p & [])] | intros t; destruct (B t) as [|(e & [])]]; auto.
  - simpl. apply IH. destruct o as [v p|t e| | | | | |]; try contradiction; split; simpl.
    + intros i. destruct (id_eq_dec i v) as [|Nv]; auto.
      destruct (A i) as [|(q & [H|H])]; auto; [congruence|right; now exists q].
    + intros u. destruct (B u) as [|(q & [H|H])]; auto; [discriminate|right; now exists q].
    + intros i. destruct (A i) as [|(q & [H|H])]; auto; [discriminate|right; now exists q].
    + intros u. destruct (triple_eq_dec u t) as [|Nv]; auto.
      destruct (B u) as [|(q & [H|H])]; auto; [congruence|right; now exists q].
Qed.

Lemma inserts_keep (o : op) : inserts o -> no_remove_node o.
Proof. destruct o; simpl; auto. Qed.

Lemma extend_inserts (s : source k NP EP E) : Forall inserts (elements (OExtend s)).
Proof.
  apply Forall_forall. intros o H. simpl in H. apply in_app_iff in H.
  destruct H as [H|H]; [|destruct (first_error (src_nodes s)); [destruct H|]]; apply in_map_iff in H;
    destruct H as (x & <- & _); exact Logic.I.
Qed.

Definition within (l : list op) K g K' g' : Prop := alike l g g' /\ forall t, In t K' -> In t K \/ edge_in l t.

Lemma within_cut b (l0 l : list op) K g K' g' n : Forall inserts l -> incl l l0 -> cut b l K g K' g' n -> within l0 K g K' g'.
Proof.
  intros Hl Hi H. induction H as [l K g K' g' Hk He|t e l K g K' g' Hb [Ht Hg]|o l K g K1 g1 K' g' n Ha Hc IH].
  - split; [now apply alike_equiv|]. auto.
  - assert (In (OInsertEdge t e) l0) as Hin by (apply Hi; now left). split.
    + destruct Hg as [Hg|Hg]; [now apply alike_equiv|].
      eapply alike_trans; [apply (alike_insert l0 (OInsertEdge t e)); [exact Logic.I|exact Hin]|]. now apply alike_equiv.
    + intros u Hu. destruct (Ht u Hu) as [|Hu']; auto. right. exists e. now rewrite Hu'.
  - inversion Hl as [|? ? Ho Hl']; subst. destruct IH as [IH1 IH2]; auto; [intros x Hx; apply Hi; now right|].
    assert (In o l0) as Hin by (apply Hi; now left). split.
    + eapply alike_trans; [apply (alike_insert l0 o); auto|]. eapply alike_trans; [|exact IH1].
      apply alike_equiv. eapply acts_spec; [now apply inserts_keep|exact Ha].
    + intros t Ht. destruct (IH2 t Ht) as [H|H]; auto. left. now apply Ha.
Qed.

Lemma whole_cut b (l : list op) K g K' g' : whole l K g K' g' -> cut b l K g K' g' 0.
Proof. induction 1; [now apply Cu_here|eapply Cu_next; eauto]. Qed.

Lemma within_refl l K g K' g' : incl K' K -> g_equiv g' g -> within l K g K' g'.
Proof. intros H1 H2. split; [now apply alike_equiv|]. auto. Qed.
Lemma within_trans l K g K1 g1 K' g' : within l K g K1 g1 -> within l K1 g1 K' g' -> within l K g K' g'.
Proof.
  intros [A B] [C D]. split; [eapply alike_trans; eauto|]. intros t Ht. destruct (D t Ht) as [H|H]; auto.
Qed.

Lemma within_gone (s : source k NP EP E) (ls : list (list op)) K g K' g' n :
  Forall (Forall (eq (OExtend s))) ls -> gone ls K g K' g' n -> within (elements (OExtend s)) K g K' g'.
Proof.
  intros Hls H. induction H as [K g K' g' Hi He|l ls K g K1 g1 K' g' n n' Hg Hn IH].
  - now apply within_refl.
  - inversion Hls as [|? ? Hl Hls']; subst. eapply within_trans; [|apply IH; auto]. clear IH Hn Hls Hls'.
    clear g' K' n'. induction Hg as [K g K1 g1 Hi He|o l K g K1 g1 n Hc|o l r K g K2 g2 K1 g1 n n0 Hd Hg IH].
    + now apply within_refl.
    + inversion Hl; subst. eapply within_cut; [apply extend_inserts|apply incl_refl|exact Hc].
    + inversion Hl; subst. eapply within_trans; [|apply IH; auto]. unfold does in Hd.
      assert (exists b n, cut b (elements (OExtend s)) K g K2 g2 n) as (b & c & Hc).
      { destruct r as [[]|[e|e]]; try (destruct Hd as (_ & _ & Hd); exists false, 0; now apply whole_cut). eauto. }
      eapply within_cut; [apply extend_inserts|apply incl_refl|exact Hc].
Qed.

Lemma extend_again (s : source k NP EP E) ls g K g1 K' g' n :
  Forall (Forall (eq (OExtend s))) ls -> gone ls [] g K g1 n -> whole (elements (OExtend s)) K g1 K' g' ->
  (forall t, ~ In t K') /\ g_equiv g' (spec_apply mn me (OExtend s) g).
Proof.
  intros Hls Hg Hw. destruct (within_gone s ls [] g K g1 n Hls Hg) as [HA HK]. split.
  - intros t Ht. destruct (whole_torn _ _ _ _ _ Hw t Ht) as [H1 H2].
    destruct (HK t H1) as [[]|(e & He)]. apply (H2 _ He). reflexivity.
  - eapply g_equiv_trans.
    + eapply whole_spec; [|exact Hw]. apply elements_keep. exact Logic.I.
    + rewrite <- elements_spec. apply g_equiv_sym. apply alike_over; [apply extend_inserts|exact HA].
Qed.

End Rel.

(** ** Databases *)
Section Top.
Context {k : idkind} {NP EP SE BE E : Type} (cn : codec BE NP) (ce : codec BE EP).
Context (mn : NP -> NP -> NP) (me : EP -> EP -> EP).
Notation T := (triple (Id k)).
Notation G := (graph k NP EP).
Notation op := (op k NP EP E).
Notation life := (life (k := k) (NP := NP) (EP := EP) (SE := SE) (E := E)).
Notation hist := (sled_history (SE := SE) cn ce mn me).
Notation lives := (lives cn ce mn me).
Notation goes := (goes (SE := SE) (BE := BE) (E := E) mn me).
Notation gone := (gone (SE := SE) (BE := BE) (E := E) mn me).
Notation fair := (fair (k := k) cn ce).
Notation sabs := (sabs (k := k) cn ce).
Implicit Types K : list T.
Implicit Types g : G.

Lemma goes_start (l : list op) K g K' g' n : goes l K g K' g' n -> forall g0, g_equiv g g0 -> goes l K g0 K' g' n.
Proof.
  induction 1 as [K g K' g' Hi He|o l K g K' g' n Hc|o l r K g K1 g1 K' g' n n' Hd Hg IH]; intros g0 H0.
  - apply Go_nil; [exact Hi|]. eapply g_equiv_trans; [exact He|exact H0].
  - apply Go_cut. eapply cut_start; [apply incl_refl|exact H0|exact Hc].
  - eapply Go_next with (r := r); [|exact Hg]. unfold does in *.
    destruct r as [[]|[e|e]]; try (destruct Hd as (H1 & H2 & Hd); split; [exact H1|]; split; [exact H2|]; eapply whole_start; [apply incl_refl|exact H0|exact Hd]).
    eapply cut_start; [apply incl_refl|exact H0|exact Hd].
Qed.

Lemma gone_start (ls : list (list op)) K g K' g' n : gone ls K g K' g' n -> forall g0, g_equiv g g0 -> gone ls K g0 K' g' n.
Proof.
  intros H g0 H0. destruct H as [K g K' g' Hi He|l ls K g K1 g1 K' g' n n' Hg Hn].
  - apply Gn_nil; [exact Hi|]. eapply g_equiv_trans; [exact He|exact H0].
  - eapply Gn_cons; [|exact Hn]. eapply goes_start; eauto.
Qed.

Lemma shows_but_equiv K d g g' : g_equiv g g' -> shows_but SE cn ce K d g -> shows_but SE cn ce K d g'.
Proof.
  intros [Hn He] (A & B & C). split; [|split].
  - eapply lists_ext; [exact Hn|exact A].
  - eapply lists_ext; [exact He|exact B].
  - intros o. destruct (C o) as (f & F1 & F2 & F3). exists f. split; auto. split.
    + intros t Ht. rewrite <- He. now apply F2.
    + intros t Ht. rewrite <- He. now apply F3.
Qed.

(** C53 *)
Lemma torn_lives (ls : list life) :
  codec_ok cn -> codec_ok ce -> NoDup (life_keys ls) ->
  exists K L g n, gone (map lf_ops ls) [] g_empty K g n /\ shows_but SE cn ce K (lives ls db_new) g /\
    incl K L /\ length L = n /\ n <= length (extends_of (flat_map lf_ops ls)) /\
    incl L (extended_edges (flat_map lf_ops ls)).
Proof.
  intros Hn He Hd. destruct (good_new (k := k) cn ce nothing) as [G0 A0].
  destruct (lives_last cn ce Hn He mn me ls nothing [] db_new Hd (fun _ _ H => H) G0 (off_agree _ A0)) as (Hf & K & n & Hg & Ho).
  apply (fun H => gone_start _ _ _ _ _ _ H g_empty (abs_new cn ce)) in Hg.
  destruct (gone_torn mn me _ _ _ _ _ _ Hg) as (H1 & L & H2 & H3 & H4).
  rewrite <- flat_map_concat_map in H1, H4. rewrite app_nil_r in H3.
  exists K, L, (sabs (lives ls db_new)), n. split; [exact Hg|]. split; [eapply off_shows; eauto|].
  split; auto.
Qed.

(** Complete calls on what is left. *)
Lemma torn_done (ls : list life) :
  codec_ok cn -> codec_ok ce -> NoDup (life_keys ls) ->
  exists K g, incl K (extended_edges (flat_map lf_ops ls)) /\ shows_but SE cn ce K (lives ls db_new) g /\
  forall (h : handle k) (l : list op) faults, NoDup (life_keys ls ++ history_keys h l) ->
  let '(rs, _, d', _) := exec (hist l h) faults (lives ls db_new) in
  (forall r, In r rs -> ~ failed r) ->
  rs = map expected l /\
  exists K' g', done mn me l K g K' g' /\ shows_but SE cn ce K' d' g' /\
    ((forall t, ~ In t K') -> sled_shows SE cn ce d' g').
Proof.
  intros Hn He Hd. destruct (good_new (k := k) cn ce nothing) as [G0 A0].
  destruct (lives_last cn ce Hn He mn me ls nothing [] db_new Hd (fun _ _ H => H) G0 (off_agree _ A0)) as (Hf & K & n & Hg & Ho).
  destruct (gone_torn mn me _ _ _ _ _ _ Hg) as (_ & L & _ & H3 & H4).
  rewrite <- flat_map_concat_map in H4. rewrite app_nil_r in H3.
  exists K, (sabs (lives ls db_new)). split; [eapply incl_tran; eauto|]. split; [eapply off_shows; eauto|].
  intros h l faults Hk. apply NoDup_app_iff in Hk. destruct Hk as (_ & N2 & N3).
  assert (forall x, In x (history_keys h l) -> ~ plus_keys nothing (life_keys ls) x) as Hb.
  { intros x Hx [[]|H]. now apply (N3 x). }
  pose proof (handle_lasts cn ce Hn He mn me (fun _ : SE => True) _ h l K (lives ls db_new) N2 Hb Hf Ho) as W.
  pose proof (wp_exec _ _ _ _ faults (lives ls db_new) (allowed_all _) W) as X. unfold ret_of, db_of in X.
  destruct (exec (hist l h) faults (lives ls db_new)) as [[[rs h'] d'] rest]. simpl in X.
  destruct X as ((Hf' & _) & Hfin & _). intros Hno. destruct (Hfin Hno) as (Hr & K' & Hdn & Ho').
  split; auto. exists K', (sabs d'). split; auto. split; [eapply off_shows; eauto|].
  intros Hnil. eapply good_shows. split; [exact Hf'|]. apply off_none. eapply off_mono; [|exact Ho'].
  intros t Ht. destruct (Hnil t Ht).
Qed.

Lemma torn_heals (ls : list life) :
  codec_ok cn -> codec_ok ce -> NoDup (life_keys ls) ->
  exists K g, incl K (extended_edges (flat_map lf_ops ls)) /\ shows_but SE cn ce K (lives ls db_new) g /\
  forall (h : handle k) (l : list op) faults, NoDup (life_keys ls ++ history_keys h l) ->
  Forall no_remove_node l ->
  (forall t, In t K -> exists o o', In o l /\ In o' (elements o) /\ settles o' t) ->
  let '(rs, _, d', _) := exec (hist l h) faults (lives ls db_new) in
  (forall r, In r rs -> ~ failed r) ->
  rs = map expected l /\ sled_shows SE cn ce d' (spec_history mn me l g).
Proof.
  intros Hn He Hd. destruct (torn_done ls Hn He Hd) as (K & g & H1 & H2 & H3).
  exists K, g. split; auto. split; auto. intros h l faults Hk Hl Hs. specialize (H3 h l faults Hk).
  destruct (exec (hist l h) faults (lives ls db_new)) as [[[rs h'] d'] rest].
  intros Hno. destruct (H3 Hno) as (Hr & K' & g' & Hdn & _ & Hsh). split; auto.
  eapply sled_shows_equiv; [eapply done_spec; eauto|]. apply Hsh. intros t Ht.
  destruct (done_torn _ _ _ _ _ _ _ Hdn t Ht) as [Hin Hns]. destruct (Hs t Hin) as (o & o' & A & B & C). eapply Hns; eauto.
Qed.

Lemma torn_retry (ls tries : list life) (s : source k NP EP E) (h : handle k) faults :
  codec_ok cn -> codec_ok ce -> NoDup (life_keys (ls ++ tries) ++ history_keys h [OExtend s]) ->
  extends_done cn ce mn me ls db_new ->
  Forall (fun f => Forall (eq (OExtend s)) (lf_ops f)) tries ->
  let d := lives ls db_new in
  let '(rs, _, d', _) := exec (hist [OExtend s] h) faults (lives tries d) in
  (forall r, In r rs -> ~ failed r) ->
  exists g, moments (SE := SE) (BE := BE) mn me (map lf_ops ls) g_empty g /\ sled_shows SE cn ce d g /\
    sled_shows SE cn ce d' (spec_apply mn me (OExtend s) g).
Proof.
  intros Hn He Hd Hx Ht d. subst d. apply NoDup_app_iff in Hd. destruct Hd as (N1 & N2 & N3).
  unfold life_keys in N1, N3. rewrite flat_map_app in N1, N3. fold (life_keys ls) in N1, N3. fold (life_keys tries) in N1, N3.
  apply NoDup_app_iff in N1. destruct N1 as (N4 & N5 & N6).
  destruct (good_new (k := k) cn ce nothing) as [G0 A0].
  pose proof (fair_lives cn ce Hn He mn me ls nothing db_new N4 (fun _ _ H => H) G0) as Hf.
  destruct (moments_lives cn ce Hn He mn me ls nothing db_new N4 (fun _ _ H => H) G0 A0 Hx) as [A M].
  destruct (lives_show cn ce mn me ls Hn He N4 Hx) as (gm & Hm & Hs).
  set (d := lives ls db_new) in *.
  assert (g_equiv (sabs d) gm) as Hgm by (eapply (sled_shows_fun (SE := SE) cn ce); [eapply good_shows; split; [exact Hf|exact A]|exact Hs]).
  destruct (lives_last cn ce Hn He mn me tries (plus_keys nothing (life_keys ls)) [] d N5) as (Hf1 & K & n & Hg & Ho); auto.
  { intros x H1 [[]|H2]. now apply (N6 x). }
  { now apply off_agree. }
  assert (forall x, In x (history_keys h [OExtend s]) -> ~ plus_keys (plus_keys nothing (life_keys ls)) (life_keys tries) x) as Hb.
  { intros x H1 [[[]|H2]|H2]; apply (N3 x); auto; apply in_app_iff; auto. }
  pose proof (handle_lasts cn ce Hn He mn me (fun _ : SE => True) _ h [OExtend s] K (lives tries d) N2 Hb Hf1 Ho) as W.
  pose proof (wp_exec _ _ _ _ faults (lives tries d) (allowed_all _) W) as X. unfold ret_of, db_of in X.
  destruct (exec (hist [OExtend s] h) faults (lives tries d)) as [[[rs h'] d'] rest]. simpl in X.
  destruct X as ((Hf' & _) & Hfin & _). intros Hno. destruct (Hfin Hno) as (Hr & K' & Hdn & Ho').
  exists gm. split; auto. split; auto.
  inversion Hdn as [|o l K0 g0 K1 g1 K2 g2 Hw Hd2]; subst. inversion Hd2 as [K0 g0 K2 g2 Hi Hq|]; subst.
  assert (Forall (Forall (eq (OExtend s))) (map lf_ops tries)) as Ht'.
  { apply Forall_forall. intros x Hin. apply in_map_iff in Hin. destruct Hin as (f & <- & Hin). rewrite Forall_forall in Ht. now apply Ht. }
  destruct (extend_again mn me s _ _ _ _ _ _ _ Ht' Hg Hw) as [HK HG].
  eapply sled_shows_equiv; [|eapply good_shows; split; [exact Hf'|]].
  - eapply g_equiv_trans; [exact Hq|]. eapply g_equiv_trans; [exact HG|].
    apply (spec_history_equiv mn me [OExtend s]). exact Hgm.
  - apply off_none. eapply off_mono; [|exact Ho']. intros t Hin. destruct (HK t). now apply Hi.
Qed.

(** C54 *)
Lemma torn_remove (ls : list life) :
  codec_ok cn -> codec_ok ce -> NoDup (life_keys ls) ->
  exists K g, incl K (extended_edges (flat_map lf_ops ls)) /\ shows_but SE cn ce K (lives ls db_new) g /\
  forall (h : handle k) (v : Id k) faults, NoDup (life_keys ls ++ history_keys h [ORemoveNode (NP := NP) (EP := EP) (E := E) v]) ->
  let '(rs, _, d', _) := exec (hist [ORemoveNode (E := E) v] h) faults (lives ls db_new) in
  (forall r, In r rs -> ~ failed r) ->
  exists K' g', incl K' K /\ (forall t, In t K' -> sub t <> v) /\ shows_but SE cn ce K' d' g' /\
    g_node g' v = None /\
    forall t, g_edge g' t <> None ->
      g_edge g' t = g_edge g t /\ sub t <> v /\ (obj t = v -> In t K).
Proof.
  intros Hn He Hd. destruct (torn_done ls Hn He Hd) as (K & g & H1 & H2 & H3).
  exists K, g. split; auto. split; auto. intros h v faults Hk. specialize (H3 h [ORemoveNode v] faults Hk).
  destruct (exec (hist [ORemoveNode v] h) faults (lives ls db_new)) as [[[rs h'] d'] rest].
  intros Hno. destruct (H3 Hno) as (Hr & K' & g' & Hdn & Hsh & _). exists K', g'.
  inversion Hdn as [|o l K0 g0 K1 g1 K2 g2 Hw Hd2]; subst. inversion Hd2 as [K0 g0 K2 g2 Hi Hq|]; subst.
  simpl in Hw. inversion Hw as [|o l K0 g0 K2 g2 K3 g3 Ha Hw']; subst. inversion Hw' as [K0 g0 K3 g3 Hi' Hq'|]; subst.
  destruct Ha as (A1 & A2 & A3).
  assert (g_equiv g' g2) as [Q1 Q2] by (eapply g_equiv_trans; eauto).
  split; [intros t Ht; apply A1, Hi', Hi, Ht|]. split; [intros t Ht; apply (proj2 (A1 t (Hi' _ (Hi _ Ht))))|].
  split; auto. split.
  - rewrite Q1, A2. simpl. destruct (id_eq_dec v v); congruence.
  - intros t. rewrite Q2. destruct (A3 t) as [H|((m & Em & Eo & Es) & Hin & H)].
    + rewrite H. simpl. destruct (id_eq_dec (sub t) v), (id_eq_dec (obj t) v); simpl; try congruence; tauto.
    + injection Em as <-. rewrite H. auto.
Qed.

End Top.
