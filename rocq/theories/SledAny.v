(** Queries on a database of any contents. *)
From Coq Require Import Arith NArith List Bool Sorted Lia.
From Verif Require Import Bytes BytesFacts OMap OMapFacts Core IdType IdTypeFacts Store Mem Spec
  CodecFacts ListFacts MemFacts MemSim History MemTop Prog ProgFacts Sled SledHistory SledDb
  SledOps SledBulk SledRead SledTables.
Import ListNotations.

(** The smallest and the largest edge of every item of an edge query. *)
Definition spans {k} (q : query (Id k)) : list (triple (Id k) * triple (Id k)) :=
  match q with
  | QNodeProps _ => []
  | QSPO l => map (fun '(s, p, o) => (Triple s p o, Triple s p o)) l
  | QS l => map (fun s => (Triple s id_min id_min, Triple s id_max id_max)) l
  | QP l => map (fun p => (Triple id_min p id_min, Triple id_max p id_max)) l
  | QO l => map (fun o => (Triple id_min id_min o, Triple id_max id_max o)) l
  | QSP l => map (fun '(s, p) => (Triple s p id_min, Triple s p id_max)) l
  | QPO l => map (fun '(p, o) => (Triple id_min p o, Triple id_max p o)) l
  | QSO l => map (fun '(s, o) => (Triple s id_min o, Triple s id_max o)) l
  end.

(** The order a query reads. *)
Definition order_of {I} (q : query I) : edge_order :=
  match q with
  | QP _ | QPO _ => POS
  | QO _ | QSO _ => OSP
  | _ => SPO
  end.

Section Any.
Context {k : idkind} {NP EP SE BE : Type} (cn : codec BE NP) (ce : codec BE EP).
Notation I := (Id k).
Notation T := (triple (Id k)).
Notation G := (graph k NP EP).
Notation err := (sled_error SE BE).
Notation P A := (prog db SE A).
Let BC := bytes_cmp_ok.

(** An entry of the order that lies in the range of one of the items. *)
Definition visits (q : query I) (d : db) (kv : bytes * bytes) : Prop :=
  In kv (order_table (order_of q) d) /\
  exists a b, In (a, b) (spans q) /\ bytes_cmp (encode (order_of q) a) (fst kv) <> Gt /\
    bytes_cmp (fst kv) (encode (order_of q) b) <> Gt.

(** A visited entry, or a node asked for, that cannot be read. *)
Definition unreadable (q : query I) (d : db) (e : err) : Prop :=
  (exists kv b, visits q d kv /\ bget (snd kv) (t_edge d) = Some b /\
     match e with
     | KeySizeError => length (fst kv) <> 3 * width k
     | SerializationError x => length (fst kv) = 3 * width k /\ de ce b = Err x
     | _ => False
     end) \/
  (exists i x, selects_node q i /\ corrupt cn (to_be_bytes i) (t_node d) x /\ e = SerializationError x).

(** The readable part of the tables, seen through one order. *)
Definition readable (o : edge_order) (d : db) (g : G) : Prop :=
  (forall i p, g_node g i = Some p <-> stored cn (to_be_bytes i) (t_node d) (Some p)) /\
  (forall t e, g_edge g t = Some e <->
     exists r, bget (encode o t) (order_table o d) = Some r /\ stored ce r (t_edge d) (Some e)).

Definition sorted_tables (d : db) : Prop :=
  om_sorted bytes_cmp (t_node d) /\ forall o, om_sorted bytes_cmp (order_table o d).

Lemma order_q (q : query I) : q_order q = order_of q.
Proof. destruct q; reflexivity. Qed.

Lemma view_readable o d : readable o d (g_view cn ce o d).
Proof.
  split.
  - intros i p. simpl. unfold SledDb.nod. destruct (bget (to_be_bytes i) (t_node d)) as [b|] eqn:H.
    + destruct (de cn b) eqn:D; simpl; split.
      * intros [= ->]. eauto.
      * intros (b' & Hb & Hp). congruence.
      * discriminate.
      * intros (b' & Hb & Hp). congruence.
    + split; [discriminate|]. intros (b' & Hb & _). simpl in *. congruence.
  - intros t e. simpl. unfold SledDb.view. rewrite order_idx, encode_enc. unfold rid.
    destruct (bget (enc o t) (idx o d)) as [r|]; [|split; [discriminate|]; intros (r & [=] & _)].
    unfold record. split.
    + intros H. exists r. split; auto. destruct (bget r (t_edge d)) as [b|] eqn:Hr; [|discriminate].
      exists b. split; auto. destruct (de ce b); simpl in *; congruence.
    + intros (r' & [= <-] & b & -> & Hb). now rewrite Hb.
Qed.

Lemma opt_ext {A} (x y : option A) : (forall v, x = Some v <-> y = Some v) -> x = y.
Proof. intros H. destruct x as [a|]; [symmetry; now apply H|]. destruct y as [b|]; auto. now apply H. Qed.

Lemma readable_fun o d g g' : readable o d g -> readable o d g' -> g_equiv g g'.
Proof.
  intros [H1 H2] [H3 H4]. split; intros x; apply opt_ext; intros v.
  - now rewrite H1, H3.
  - now rewrite H2, H4.
Qed.

Lemma bounds1_enc (a : I) :
  key_bounds_1 a = (enc SPO (Triple a id_min id_min), enc SPO (Triple a id_max id_max)) /\
  key_bounds_1 a = (enc POS (Triple id_min a id_min), enc POS (Triple id_max a id_max)) /\
  key_bounds_1 a = (enc OSP (Triple id_min id_min a), enc OSP (Triple id_max id_max a)).
Proof. destruct k; repeat split; reflexivity. Qed.

Lemma bounds2_enc (a b : I) :
  key_bounds_2 a b = (enc SPO (Triple a b id_min), enc SPO (Triple a b id_max)) /\
  key_bounds_2 a b = (enc POS (Triple id_min a b), enc POS (Triple id_max a b)) /\
  key_bounds_2 a b = (enc OSP (Triple b id_min a), enc OSP (Triple b id_max a)).
Proof. destruct k; repeat split; reflexivity. Qed.

Lemma in_range_map {A} (items : list A) (bd : A -> bytes * bytes) (sp : A -> T * T) d o (x : result err (T * EP)) :
  (forall a, bd a = (enc o (fst (sp a)), enc o (snd (sp a)))) ->
  (In x (flat_map (fun a => filter_map (entry_hit (k := k) (SE := SE) ce d o) (brange (bd a) (idx o d))) items) <->
   exists kv, (In kv (order_table o d) /\ exists a b, In (a, b) (map sp items) /\
     bytes_cmp (encode o a) (fst kv) <> Gt /\ bytes_cmp (fst kv) (encode o b) <> Gt) /\
     entry_hit (k := k) ce d o kv = Some x).
Proof.
  intros Hb. rewrite in_flat_map, order_idx. split.
  - intros (a & Ha & H). apply filter_map_in in H. destruct H as (kv & Hin & Hx).
    unfold om_range in Hin. apply filter_In in Hin. destruct Hin as [Hin Hr].
    apply in_range_spec in Hr. rewrite Hb in Hr. cbn [fst snd] in Hr. exists kv. split; auto. split; auto.
    exists (fst (sp a)), (snd (sp a)). rewrite !encode_enc. split; auto. rewrite <- surjective_pairing. now apply in_map.
  - intros (kv & (Hin & a & b & Hab & H1 & H2) & Hx). apply in_map_iff in Hab. destruct Hab as (y & Hy & Hin').
    exists y. split; auto. apply filter_map_in. exists kv. split; auto. unfold om_range. apply filter_In. split; auto.
    apply in_range_spec. rewrite Hb, Hy. cbn [fst snd]. now rewrite <- !encode_enc.
Qed.

Lemma hits_visits d q (x : result err (T * EP)) : sorted_tables d ->
  (In x (s_hits (k := k) (SE := SE) ce d q) <-> exists kv, visits q d kv /\ entry_hit ce d (order_of q) kv = Some x).
Proof.
  intros [_ S]. unfold visits. destruct q as [l|l|l|l|l|l|l|l]; cbn [s_hits order_of spans].
  - split; [intros [] | intros (kv & (_ & a & b & [] & _) & _)].
  - rewrite filter_map_in. split.
    + intros ([[s p] o] & Hin & Hx). unfold spo_hit in Hx.
      destruct (rid SPO d (Triple s p o)) as [r|] eqn:Hr; [|discriminate].
      exists (enc SPO (Triple s p o), r). split; [split|].
      * rewrite order_idx. now apply (get_in BC).
      * exists (Triple s p o), (Triple s p o). split; [apply in_map_iff; exists (s, p, o); auto|].
        rewrite encode_enc. cbn [fst]. rewrite (cmp_refl BC). split; discriminate.
      * unfold entry_hit. cbn [fst snd]. destruct (bget r (t_edge d)) as [b|]; [|discriminate].
        destruct (decode_key_spec (k := k) (SE := SE) (BE := BE) (dec SPO) (enc SPO (Triple s p o))) as [[_ ->]|[Hl _]];
          [|now rewrite enc_length in Hl]. rewrite dec_enc. exact Hx.
    + intros ([key r] & (Hin & a & b & Hab & H1 & H2) & Hx). apply in_map_iff in Hab.
      destruct Hab as ([[s p] o] & [= <- <-] & Hl). exists (s, p, o). split; auto. cbn [fst] in *.
      rewrite encode_enc in *. rewrite order_idx in Hin.
      assert (key = enc SPO (Triple s p o)) as ->.
      { destruct (bytes_cmp key (enc SPO (Triple s p o))) eqn:Hc; [now apply (cmp_eq _ BC)| |congruence].
        rewrite (cmp_opp _ BC key) in H1. rewrite Hc in H1. simpl in H1. congruence. }
      specialize (S SPO). rewrite order_idx in S.
      apply (get_iff_in BC _ _ _ S) in Hin. unfold spo_hit. change (rid SPO d (Triple s p o) = Some r) in Hin.
      rewrite Hin. unfold entry_hit in Hx. cbn [fst snd] in Hx. destruct (bget r (t_edge d)) as [b|]; [|discriminate].
      destruct (decode_key_spec (k := k) (SE := SE) (BE := BE) (dec SPO) (enc SPO (Triple s p o))) as [[_ E]|[E _]];
        [|now rewrite enc_length in E]. rewrite E, dec_enc in Hx. exact Hx.
  - apply in_range_map. intros; apply bounds1_enc.
  - apply in_range_map. intros; apply bounds1_enc.
  - apply in_range_map. intros; apply bounds1_enc.
  - apply in_range_map. intros [a b]; apply bounds2_enc.
  - apply in_range_map. intros [a b]; apply bounds2_enc.
  - apply in_range_map. intros [a b]; apply bounds2_enc.
Qed.

Lemma first_error_in {X A} (l : list (result X A)) e : first_error l = Some e -> In (Err e) l.
Proof. induction l as [|[a|x] l IH]; simpl; [discriminate| |]; intros H; [auto|injection H as ->; auto]. Qed.
Lemma no_first_error {X A} (l : list (result X A)) e : first_error l = None -> ~ In (Err e) l.
Proof.
  induction l as [|[a|x] l IH]; simpl; intros H; [tauto| |discriminate].
  intros [H'|H']; [discriminate|now apply IH].
Qed.

Lemma hit_err d o kv e : entry_hit (k := k) ce d o kv = Some (Err e : result err (T * EP)) <->
  exists b, bget (snd kv) (t_edge d) = Some b /\
     match e with
     | KeySizeError => length (fst kv) <> 3 * width k
     | SerializationError x => length (fst kv) = 3 * width k /\ de ce b = Err x
     | _ => False
     end.
Proof.
  unfold entry_hit. destruct (bget (snd kv) (t_edge d)) as [b|]; [|split; [discriminate|intros (b & [=] & _)]].
  destruct (decode_key_spec (k := k) (SE := SE) (BE := BE) (dec o) (fst kv)) as [[Hl ->]|[Hl ->]]; simpl.
  - destruct (de ce b) as [p|x] eqn:D; simpl; split.
    + discriminate.
    + intros (b' & [= <-] & H). destruct e; try contradiction. destruct H; congruence.
    + intros [= <-]. eauto.
    + intros (b' & [= <-] & H). destruct e; try contradiction. destruct H; congruence.
  - split.
    + intros [= <-]. eauto.
    + intros (b' & [= <-] & H). destruct e; try contradiction; auto. destruct H; contradiction.
Qed.

Lemma hit_ok d o kv t e : entry_hit (k := k) ce d o kv = Some (Ok (t, e) : result err (T * EP)) <->
  fst kv = encode o t /\ stored ce (snd kv) (t_edge d) (Some e).
Proof.
  unfold entry_hit, stored. destruct (bget (snd kv) (t_edge d)) as [b|]; [|split; [discriminate|intros (_ & b & [=] & _)]].
  destruct (decode_key_spec (k := k) (SE := SE) (BE := BE) (dec o) (fst kv)) as [[Hl ->]|[Hl ->]]; simpl.
  - destruct (de ce b) as [p|x] eqn:D; simpl; split.
    + intros [= <- <-]. rewrite encode_enc, enc_dec by auto. eauto.
    + intros (-> & b' & [= <-] & H). rewrite encode_enc, dec_enc. congruence.
    + discriminate.
    + intros (_ & b' & [= <-] & H). congruence.
  - split; [discriminate|]. intros (E & _). rewrite E, encode_enc, enc_length in Hl. contradiction.
Qed.

(** The well-formed edges visited are the selected ones. *)
Lemma visits_selects q d t r : sorted_tables d -> 
  (visits q d (encode (order_of q) t, r) <-> selects q t /\ bget (encode (order_of q) t) (order_table (order_of q) d) = Some r).
Proof.
  intros [_ S]. unfold visits. cbn [fst]. rewrite <- (get_iff_in BC _ _ _ (S (order_of q))).
  enough ((exists a b, In (a, b) (spans q) /\ bytes_cmp (encode (order_of q) a) (encode (order_of q) t) <> Gt /\
    bytes_cmp (encode (order_of q) t) (encode (order_of q) b) <> Gt) <-> selects q t) as -> by tauto.
  assert (forall o (a b : T), (bytes_cmp (encode o a) (encode o t) <> Gt /\ bytes_cmp (encode o t) (encode o b) <> Gt) <->
    in_range bytes_cmp (enc o a) (enc o b) (enc o t) = true) as R.
  { intros o a b. rewrite !encode_enc, in_range_spec. reflexivity. }
  setoid_rewrite R. clear R.
  assert (forall a : I, let '(lo, hi) := key_bounds_1 a in
    forall o, in_range bytes_cmp lo hi (enc o t) = true <-> fst (fst (comps o t)) = a) as B1.
  { intros a. pose proof (bounds_1 k a t) as B. destruct (key_bounds_1 a) as [lo hi]. intros []; apply B. }
  assert (forall a b : I, let '(lo, hi) := key_bounds_2 a b in
    forall o, in_range bytes_cmp lo hi (enc o t) = true <-> fst (comps o t) = (a, b)) as B2.
  { intros a b. pose proof (bounds_2 k a b t) as B. destruct (key_bounds_2 a b) as [lo hi].
    destruct B as (B & B' & B''). intros []; simpl; [rewrite B | rewrite B' | rewrite B''];
      (split; [intros [-> ->]; auto | intros [= -> ->]; auto]). }
  destruct q as [l|l|l|l|l|l|l|l]; cbn [spans order_of selects].
  - split; [intros (a & b & [] & _) | intros []].
  - split.
    + intros (a & b & H & Hr). apply in_map_iff in H. destruct H as ([[s p] o] & [= <- <-] & H).
      apply in_range_spec in Hr. destruct Hr as [H1 H2].
      assert (enc SPO t = enc SPO (Triple s p o)) as E.
      { destruct (bytes_cmp (enc SPO t) (enc SPO (Triple s p o))) eqn:Hc; [now apply (cmp_eq _ BC)| |congruence].
        rewrite (cmp_opp _ BC (enc SPO t)), Hc in H1. simpl in H1. congruence. }
      apply enc_inj in E. now subst t.
    + intros H. exists t, t. split; [apply in_map_iff; exists (sub t, pred t, obj t); destruct t; auto|].
      apply in_range_spec. rewrite (cmp_refl BC). split; discriminate.
  - split.
    + intros (a & b & H & Hr). apply in_map_iff in H. destruct H as (x & [= <- <-] & H).
      specialize (B1 x). rewrite (proj2 (proj2 (bounds1_enc x))) in B1. apply B1 in Hr. simpl in Hr. now subst.
    + intros H. do 2 eexists. split; [apply in_map_iff; exists (obj t); split; [reflexivity|exact H]|].
      specialize (B1 (obj t)). rewrite (proj2 (proj2 (bounds1_enc (obj t)))) in B1. now apply B1.
  - split.
    + intros (a & b & H & Hr). apply in_map_iff in H. destruct H as (x & [= <- <-] & H).
      specialize (B1 x). rewrite (proj1 (bounds1_enc x)) in B1. apply B1 in Hr. simpl in Hr. now subst.
    + intros H. do 2 eexists. split; [apply in_map_iff; exists (sub t); split; [reflexivity|exact H]|].
      specialize (B1 (sub t)). rewrite (proj1 (bounds1_enc (sub t))) in B1. now apply B1.
  - split.
    + intros (a & b & H & Hr). apply in_map_iff in H. destruct H as (x & [= <- <-] & H).
      specialize (B1 x). rewrite (proj1 (proj2 (bounds1_enc x))) in B1. apply B1 in Hr. simpl in Hr. now subst.
    + intros H. do 2 eexists. split; [apply in_map_iff; exists (pred t); split; [reflexivity|exact H]|].
      specialize (B1 (pred t)). rewrite (proj1 (proj2 (bounds1_enc (pred t)))) in B1. now apply B1.
  - split.
    + intros (a & b & H & Hr). apply in_map_iff in H. destruct H as ((x & y) & [= <- <-] & H).
      specialize (B2 x y). rewrite (proj1 (proj2 (bounds2_enc x y))) in B2. apply B2 in Hr. simpl in Hr. now injection Hr as -> ->.
    + intros H. do 2 eexists. split; [apply in_map_iff; exists (pred t, obj t); split; [reflexivity|exact H]|].
      specialize (B2 (pred t) (obj t)). rewrite (proj1 (proj2 (bounds2_enc (pred t) (obj t)))) in B2. now apply B2.
  - split.
    + intros (a & b & H & Hr). apply in_map_iff in H. destruct H as ((x & y) & [= <- <-] & H).
      specialize (B2 y x). rewrite (proj2 (proj2 (bounds2_enc y x))) in B2. apply B2 in Hr. simpl in Hr. now injection Hr as -> ->.
    + intros H. do 2 eexists. split; [apply in_map_iff; exists (sub t, obj t); split; [reflexivity|exact H]|].
      specialize (B2 (obj t) (sub t)). rewrite (proj2 (proj2 (bounds2_enc (obj t) (sub t)))) in B2. now apply B2.
  - split.
    + intros (a & b & H & Hr). apply in_map_iff in H. destruct H as ((x & y) & [= <- <-] & H).
      specialize (B2 x y). rewrite (proj1 (bounds2_enc x y)) in B2. apply B2 in Hr. simpl in Hr. now injection Hr as -> ->.
    + intros H. do 2 eexists. split; [apply in_map_iff; exists (sub t, pred t); split; [reflexivity|exact H]|].
      specialize (B2 (sub t) (pred t)). rewrite (proj1 (bounds2_enc (sub t) (pred t))) in B2. now apply B2.
Qed.

Lemma node_hit_in d q x :
  In x (s_node_hits (k := k) (SE := SE) cn d q) <->
  exists i, selects_node q i /\ node_hit cn d i = Some x.
Proof.
  destruct q as [l|l|l|l|l|l|l|l]; cbn [s_node_hits selects_node];
    try (split; [intros [] | intros (i & [] & _)]). apply filter_map_in.
Qed.

Lemma hits_unreadable d q e : sorted_tables d ->
  (In (Err e) (s_hits (k := k) (SE := SE) ce d q) \/ In (Err e) (s_node_hits (k := k) cn d q)) <-> unreadable q d e.
Proof.
  intros S. unfold unreadable. rewrite hits_visits, node_hit_in by auto. setoid_rewrite hit_err.
  enough (forall i : I, node_hit (SE := SE) cn d i = Some (Err e) <->
    exists x, corrupt cn (to_be_bytes i) (t_node d) x /\ e = SerializationError x) as N.
  { setoid_rewrite N. split.
    - intros [(kv & V & b & Hb & H)|(i & Hi & x & Hc & E)]; [left; exists kv, b | right; exists i, x]; auto.
    - intros [(kv & b & V & Hb & H)|(i & x & Hi & Hc & E)]; [left; exists kv; split; auto; exists b | right; exists i; split; auto; exists x]; auto. }
  intros i. unfold node_hit, corrupt. destruct (bget (to_be_bytes i) (t_node d)) as [b|].
  - destruct (de cn b) as [p|x] eqn:D; simpl; split.
    + discriminate.
    + intros (x & (b' & [= <-] & H) & _). congruence.
    + intros [= <-]. eauto.
    + intros (y & (b' & [= <-] & H) & ->). congruence.
  - split; [discriminate|]. intros (x & (b' & [=] & _) & _).
Qed.

Lemma run_any gn q (faults : list (option SE)) d : sorted_tables d ->
  db_of (s_run (BE := BE) cn ce gn q) faults d = d /\
  match ret_of (s_run cn ce gn q) faults d with
  | Ok m => (forall e, ~ unreadable q d e) /\
      exists g g', readable (order_of q) d g /\ answers q g g' /\
        (drawn_distinct (id_generator m) -> shows m g')
  | Err (SledError x) => In (Some x) faults
  | Err e => unreadable q d e
  end.
Proof.
  intros S.
  destruct (wp_exec _ _ _ (s_run cn ce gn q) faults d (fun x H => H)
    (rd_run (SE := SE) cn ce (fun x => In (Some x) faults) d gn q)) as (Hd & Hr & _).
  split; auto. destruct Hr as [->|(y & Hy & ->)]; auto.
  assert (s_answer cn ce gn q d = match q with
    | QNodeProps _ => into ins_n (s_node_hits (SE := SE) cn d q) (mem_new gn)
    | _ => into ins_e (s_hits (SE := SE) ce d q) (mem_new gn) end) as -> by (destruct q; reflexivity).
  assert ((first_error (s_hits (SE := SE) ce d q) = None /\ first_error (s_node_hits (SE := SE) cn d q) = None ->
    exists m, (match q with
    | QNodeProps _ => into ins_n (s_node_hits (SE := SE) cn d q) (mem_new gn)
    | _ => into ins_e (s_hits (SE := SE) ce d q) (mem_new gn) end) = Ok m /\
    (forall e, ~ unreadable q d e) /\
      exists g g', readable (order_of q) d g /\ answers q g g' /\
        (drawn_distinct (id_generator m) -> shows m g'))) as OKCASE.
  { intros [E1 E2]. assert (forall e, ~ unreadable q d e) as NU.
    { intros e He. apply hits_unreadable in He; auto. destruct He as [He|He].
      - now apply (no_first_error _ e E1).
      - now apply (no_first_error _ e E2). }
    pose proof (no_error_map _ E1) as M1. pose proof (no_error_map _ E2) as M2.
    set (hs := before_error (s_hits (SE := SE) ce d q)) in *. set (ns := before_error (s_node_hits (SE := SE) cn d q)) in *.
    assert (forall t e, In (t, e) hs <-> selects q t /\ g_edge (g_view cn ce (order_of q) d) t = Some e) as Hh.
    { intros t e. rewrite <- (in_map_ok (SE := SE) (BE := BE) hs (t, e)), <- M1, hits_visits by auto.
      setoid_rewrite hit_ok. rewrite (proj2 (view_readable (order_of q) d) t e). split.
      - intros ([key r] & V & Ek & St). cbn [fst snd] in *. subst key. apply visits_selects in V; auto.
        destruct V as [V1 V2]. eauto.
      - intros [V1 (r & V2 & St)]. exists (encode (order_of q) t, r). split; [now apply visits_selects|]. auto. }
    assert (forall i p, In (i, p) ns <-> selects_node q i /\ g_node (g_view cn ce (order_of q) d) i = Some p) as Hn.
    { intros i p. rewrite <- (in_map_ok (SE := SE) (BE := BE) ns (i, p)), <- M2, node_hit_in.
      simpl. unfold node_hit, SledDb.nod. split.
      - intros (j & Hj & H). destruct (bget (to_be_bytes j) (t_node d)) as [b|] eqn:Hb; [|discriminate].
        destruct (de cn b) eqn:D; simpl in H; [|discriminate]. injection H as -> ->. rewrite Hb, D. auto.
      - intros [Hj H]. exists i. split; auto. destruct (bget (to_be_bytes i) (t_node d)) as [b|]; [|discriminate].
        destruct (de cn b); simpl in *; congruence. }
    exists (ins_all hs (insn_all ns (mem_new gn))). split.
    - assert (into ins_e (s_hits (SE := SE) ce d q) (mem_new gn) = Ok (ins_all hs (mem_new (NP := NP) gn))) as I1 by (unfold into; rewrite E1; reflexivity).
      assert (into ins_n (s_node_hits (SE := SE) cn d q) (mem_new gn) = Ok (insn_all ns (mem_new (EP := EP) gn))) as I2 by (unfold into; rewrite E2; reflexivity).
      destruct q; [rewrite I2 | rewrite I1..]; reflexivity.
    - split; auto. exists (g_view cn ce (order_of q) d), (gput_all hs (gputn_all ns g_empty)).
      split; [apply view_readable|]. split.
      + split.
        * intros n p. rewrite gput_all_node, gputn_all_spec.
          -- rewrite Hn. simpl. intuition discriminate.
          -- intros t e e'. rewrite !Hn. intuition congruence.
        * intros t e. rewrite gput_all_spec.
          -- rewrite gputn_all_edge. rewrite Hh. simpl. intuition discriminate.
          -- intros t' e1 e2. rewrite !Hh. intuition congruence.
      + intros D. apply sim_shows; auto. apply sim_ins_all, sim_insn_all, sim_new. }
  assert (forall A ins (l : list (result err A)) e, into ins l (mem_new gn) = (Err e : result err (mem k NP EP)) -> In (Err e) l) as IE.
  { intros A ins l e H. unfold into in H. destruct (first_error l) as [x|] eqn:F; [|discriminate].
    injection H as ->. now apply first_error_in. }
  assert (forall (l : list (result err (T * EP))) , first_error l = None \/ exists e, first_error l = Some e) as FE by (intros l; destruct (first_error l); eauto).
  destruct (match q with
    | QNodeProps _ => into ins_n (s_node_hits (SE := SE) cn d q) (mem_new gn)
    | _ => into ins_e (s_hits (SE := SE) ce d q) (mem_new gn) end) as [m|e] eqn:R.
  - destruct OKCASE as (m' & E & H); [|congruence || (injection E as <-; exact H)].
    destruct q; cbn [s_hits s_node_hits] in *; unfold into in R;
      (split; auto; match goal with |- ?x = None => destruct x; auto; discriminate end).
  - assert (unreadable q d e) as U.
    { apply hits_unreadable; auto. destruct q; [right | left..]; eapply IE; exact R. }
    destruct e as [x| | |]; auto. exfalso. destruct U as [(kv & b & _ & _ & [])|(i & x' & _ & _ & [=])].
Qed.

End Any.
