(** An RdfTripleStore over every name index and every graph: C71. *)
From Coq Require Import Arith NArith List Bool Sorted Lia.
From Verif Require Import Bytes OMap Core IdType Store Mem MemIndex Spec History MemFacts MemSim MemTop GenSpec Prog ProgFacts Sled SledHistory SledDb SledRead
  SledTop SledMain SledIndex SledIndexFacts Rdf RdfSpec RdfTop RdfSled RdfSledSpec RdfSledSafe RdfSledTop RdfSledConc RdfAny RdfAnySpec RdfAnyFacts RdfAnyTop
  RdfAnyLaws.
Import ListNotations.

Section Any.
Context {S NP EP X Y F IE GE E : Type} (seqb : S -> S -> bool) (seqb_eq : forall a b, seqb a b = true <-> a = b).
Context (ix : any_index S X F IE) (gr : any_graph NP EP Y F GE) (mn : NP -> NP -> NP) (me : EP -> EP -> EP).
Context (calm : F -> Prop) (goodx : X -> Prop) (l2r : X -> S -> option (Id KUlid)) (r2l : X -> Id KUlid -> option S).
Context (goody : nat -> Y -> Prop) (abs : Y -> graph KUlid NP EP).

Lemma any_history : names_ok ix calm goodx l2r r2l -> graph_ok E gr mn me calm goody abs ->
  forall (l : list (rop S NP EP E)) K (w : any_rdf X Y F),
  goodx (a_names w) -> goody (sum (map r_draws l)) (a_graph w) ->
  NoDup (next_ids (a_ulids w) (length (flat_map given l))) ->
  (forall i, In i (next_ids (a_ulids w) (length (flat_map given l))) -> r2l (a_names w) i = None) ->
  (forall s, l2r (a_names w) s <> None <-> In s K) ->
  let rs := fst (a_history ix gr l w) in
  let w' := snd (a_history ix gr l w) in
  goodx (a_names w') /\ goody 0 (a_graph w') /\ one_to_one (l2r (a_names w')) (r2l (a_names w')) /\
  (forall s i, l2r (a_names w) s = Some i -> l2r (a_names w') s = Some i) /\
  exists K' eg eg', (forall s, l2r (a_names w') s <> None <-> In s K') /\
    seen (r2l (a_names w')) (abs (a_graph w)) eg /\
    n_tracks seqb mn me (by_name (r2l (a_names w'))) l rs K eg K' eg' /\
    seen (r2l (a_names w')) (abs (a_graph w')) eg' /\
    a_shows ix gr calm r2l w' eg'.
Proof.
  intros HI HG l K w Gx Gy Hd Hn Hk rs w'. subst rs w'. destruct (a_history ix gr l w) as [rs w'] eqn:Q. cbn [fst snd].
  apply (history_ok seqb seqb_eq ix gr mn me calm goodx l2r r2l goody abs HI HG l 0 0 K) in Q; auto.
  - destruct Q as (((Gx' & B & _) & Gy' & _) & K' & Hk' & T). pose proof (no_one _ _ _ _ _ HI _ Gx') as O.
    split; auto. split; auto. split; auto. split; [exact B|].
    destruct (T _ _ (RdfTop.lift (l2r (a_names w')) (r2l (a_names w')) (abs (a_graph w))) O (below_refl _) (view_lift _ _ O _)) as (eg' & V & Ht).
    exists K', (RdfTop.lift (l2r (a_names w')) (r2l (a_names w')) (abs (a_graph w))), eg'. split; auto. split; [exact (view_lift _ _ O _)|]. split; auto.
    split; [exact V|]. eapply shows_ok; eauto.
  - now rewrite Nat.add_0_r.
  - rewrite Nat.add_0_r. split; auto.
Qed.
End Any.

(** ** The laws, without the invariants behind them *)
Section Laws.
Context {S NP EP SE BE E : Type} (seqb : S -> S -> bool) (seqb_eq : forall a b, seqb a b = true <-> a = b).
Context (mn : NP -> NP -> NP) (me : EP -> EP -> EP).

Lemma mem_graph_law F (calm : F -> Prop) : exists (good : nat -> mem KUlid NP EP -> Prop) abs,
  graph_ok E (mem_graph F mn me) mn me calm good abs /\
  (forall n m, reachable E mn me m -> drawn_distinct (Gen (g_seq (id_generator m)) (g_pos (id_generator m) + n)) -> good n m) /\
  forall n m, good n m -> shows m (abs m).
Proof.
  exists (mem_graph_good E mn me), abs. split; [apply mem_graph_ok|]. split; [intros n m H1 H2; split; auto|]. apply good_shown.
Qed.

Lemma sled_graph_law (cn : codec BE NP) (ce : codec BE EP) : codec_ok cn -> codec_ok ce ->
  exists (good : nat -> db * handle KUlid -> Prop) abs,
  graph_ok E (sled_graph SE cn ce mn me) mn me works good abs /\
  (forall n (ls : list (life (k := KUlid) (NP := NP) (EP := EP) (SE := SE) (E := E))) h,
    NoDup (life_keys ls ++ map to_be_bytes (next_ids (h_gen h) n)) -> extends_done cn ce mn me ls db_new ->
    good n (lives cn ce mn me ls db_new, h) /\
    moments (SE := SE) (BE := BE) mn me (map lf_ops ls) g_empty (abs (lives cn ce mn me ls db_new, h))) /\
  forall n y, good n y -> sled_shows SE cn ce (fst y) (abs y).
Proof.
  intros Hn He. exists (sled_graph_good (NP := NP) (EP := EP) cn ce), (fun y => SledDb.sabs cn ce (fst y)).
  split; [now apply sled_graph_ok|]. split.
  - intros n ls h Hd Hx. apply NoDup_app_iff in Hd. destruct Hd as (D1 & D2 & D3).
    destruct (good_new (k := KUlid) cn ce nothing) as [G0 A0].
    pose proof (fair_lives cn ce Hn He mn me ls nothing db_new D1 (fun _ _ H => H) G0) as Hf.
    destruct (moments_lives cn ce Hn He mn me ls nothing db_new D1 (fun _ _ H => H) G0 A0 Hx) as [A M].
    split.
    + exists (plus_keys nothing (life_keys ls)). split; auto. split; auto. split; auto. intros b Hb [[]|Hi]. eapply D3; eauto.
    + cbn [fst]. destruct ls as [|f ls]; simpl in M |- *.
      * eapply g_equiv_trans; [exact M|apply SledDb.abs_new].
      * destruct M as (g1 & H1 & H2). exists g1. split; auto.
  - intros n y (U & H1 & H2 & _). eapply good_shows. split; eauto.
Qed.

Lemma sled_names_law (cs : codec BE S) (cu : codec BE (Id KUlid)) : codec_ok cs -> codec_ok cu -> codec_total cu ->
  exists good, names_ok (sled_names SE cs cu) works good (sled_l2r SE cs cu) (sled_r2l SE cs cu) /\
  forall es, good (si_epochs (SE := SE) cs cu es idb_new).
Proof.
  intros H1 H2 H3. exists (index_ok cs cu). split; [now apply sled_names_ok|]. apply ok_epochs.
Qed.
End Laws.

(** ** The two mixtures *)
Section Mixed.
Context {S NP EP SE BE E : Type} (seqb : S -> S -> bool) (seqb_eq : forall a b, seqb a b = true <-> a = b).
Context (mn : NP -> NP -> NP) (me : EP -> EP -> EP).
Notation R X Y := (any_rdf X Y (list (option SE))).
Notation rop := (rop S NP EP E).

(** Names in memory, the graph in a database that processes have used before. *)
Lemma mem_sled (cn : codec BE NP) (ce : codec BE EP) (ls : list (life (k := KUlid) (NP := NP) (EP := EP) (SE := SE) (E := E))) h u fs
    (l : list rop) :
  codec_ok cn -> codec_ok ce ->
  NoDup (life_keys ls ++ map to_be_bytes (next_ids (h_gen h) (sum (map r_draws l)))) -> extends_done cn ce mn me ls db_new ->
  NoDup (next_ids u (length (flat_map given l))) ->
  let ix := mem_names (list (option SE)) seqb in
  let gr := sled_graph SE cn ce mn me in
  let d := lives cn ce mn me ls db_new in
  let x := a_history ix gr l (AnyRdf index_new (d, h) u fs) in
  let r2l := right_to_left id_eqb (a_names (snd x)) in
  one_to_one (left_to_right seqb (a_names (snd x))) r2l /\
  exists g K' eg eg',
    moments (SE := SE) (BE := BE) mn me (map lf_ops ls) g_empty g /\ sled_shows SE cn ce d g /\ seen r2l g eg /\
    (forall s, left_to_right seqb (a_names (snd x)) s <> None <-> In s K') /\
    n_tracks seqb mn me (by_name r2l) l (fst x) [] eg K' eg' /\
    a_shows ix gr works (right_to_left id_eqb) (snd x) eg'.
Proof.
  intros Hn He Hd Hx Hu ix gr d x r2l.
  destruct (sled_graph_law (SE := SE) (E := E) mn me cn ce Hn He) as (good & abs & HG & H1 & H2).
  destruct (H1 _ ls h Hd Hx) as [G0 M0].
  destruct (any_history seqb seqb_eq ix gr mn me works _ _ _ good abs (mem_names_ok seqb works seqb_eq) HG l [] (AnyRdf index_new (d, h) u fs))
    as (_ & _ & O & _ & K' & eg & eg' & A1 & A2 & A3 & _ & A5); auto.
  - split; discriminate.
  - intros s. split; [|intros []]. intros H. now apply H.
  - split; auto. exists (abs (d, h)), K', eg, eg'. split; auto. split; [apply (H2 _ _ G0)|]. split; auto.
Qed.

(** Names in a database that processes have used before, the graph in memory. *)
Lemma sled_mem (cs : codec BE S) (cu : codec BE (Id KUlid)) es (m : mem KUlid NP EP) u fs (l : list rop) K :
  codec_ok cs -> codec_ok cu -> codec_total cu ->
  reachable E mn me m -> drawn_distinct (Gen (g_seq (id_generator m)) (g_pos (id_generator m) + sum (map r_draws l))) ->
  NoDup (next_ids u (length (flat_map given l))) ->
  let d := si_epochs (SE := SE) cs cu es idb_new in
  (forall i, In i (next_ids u (length (flat_map given l))) -> sled_r2l SE cs cu d i = None) ->
  (forall s, sled_l2r SE cs cu d s <> None <-> In s K) ->
  let ix := sled_names SE cs cu in
  let gr := mem_graph (list (option SE)) mn me in
  let x := a_history ix gr l (AnyRdf d m u fs) in
  let r2l := sled_r2l SE cs cu (a_names (snd x)) in
  one_to_one (sled_l2r SE cs cu (a_names (snd x))) r2l /\
  (forall s i, sled_l2r SE cs cu d s = Some i -> sled_l2r SE cs cu (a_names (snd x)) s = Some i) /\
  exists g K' eg eg', shows m g /\ seen r2l g eg /\
    (forall s, sled_l2r SE cs cu (a_names (snd x)) s <> None <-> In s K') /\
    n_tracks seqb mn me (by_name r2l) l (fst x) K eg K' eg' /\
    a_shows ix gr works (sled_r2l SE cs cu) (snd x) eg'.
Proof.
  intros Hs Hu Ht Hr Hd Hn d Hf Hk ix gr x r2l.
  destruct (mem_graph_law (E := E) mn me (list (option SE)) works) as (good & abs & HG & H1 & H2).
  destruct (sled_names_law (SE := SE) cs cu Hs Hu Ht) as (goodx & HI & H3).
  pose proof (H1 _ _ Hr Hd) as G0.
  destruct (any_history seqb seqb_eq ix gr mn me works goodx _ _ good abs HI HG l K (AnyRdf d m u fs))
    as (_ & _ & O & B & K' & eg & eg' & A1 & A2 & A3 & _ & A5); auto.
  - apply H3.
  - split; auto. split; auto. exists (abs m), K', eg, eg'. split; [apply (H2 _ _ G0)|]. split; auto.
Qed.
End Mixed.
