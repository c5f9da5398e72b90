(** What the readers of a SledTripleStore make of its tables: orphaned edges, and arbitrary
    contents. *)
From Coq Require Import Arith NArith List Bool Sorted Lia.
From Verif Require Import Bytes BytesFacts OMap OMapFacts Core IdType IdTypeFacts Store Mem Spec
  CodecFacts ListFacts MemFacts MemSetFacts MemSim History MemTop EqFacts Prog ProgFacts Sled SledHistory SledDb
  SledOps SledBulk SledRun SledRead SledTop SledMain.
Import ListNotations.

Section Tables.
Context {k : idkind} {NP EP SE BE E : Type} (cn : codec BE NP) (ce : codec BE EP).
Context (mn : NP -> NP -> NP) (me : EP -> EP -> EP).
Notation I := (Id k).
Notation T := (triple (Id k)).
Notation G := (graph k NP EP).
Notation err := (sled_error SE BE).
Notation P A := (prog db SE A).
Notation op := (op k NP EP E).
Notation hist := (sled_history (SE := SE) cn ce mn me).
Let BC := bytes_cmp_ok.

(** ** C28 *)
Definition full_item (g : G) (te : T * EP) : result err (props_triple I NP EP) :=
  match g_node g (sub (fst te)), g_node g (obj (fst te)) with
  | Some s, Some b => Ok (PropsTriple (sub (fst te), s) (pred (fst te), snd te) (obj (fst te), b))
  | _, _ => Err MissingPropertyData
  end.

Lemma node_get_de d (i : I) : fairn (k := k) cn d ->
  get_de (SE := SE) cn (bget (to_be_bytes i) (t_node d)) = Ok (nod cn d i).
Proof.
  intros F. unfold SledDb.nod. destruct (bget (to_be_bytes i) (t_node d)) as [b|] eqn:H; auto.
  apply (get_in BC) in H. destruct (fn_items cn _ F _ _ H) as (j & p & _ & Hp). simpl. now rewrite Hp.
Qed.

Lemma stands_props d g o : stands_for (k := k) cn ce d g ->
  exists es, now SE (s_iter_edges ce o) d = map Ok es /\
    lists_edges (E := err) o (map Ok es) (g_edge g) /\
    now SE (s_iter_edges_with_props (k := k) cn ce o) d = map (full_item g) es.
Proof.
  intros St. pose proof (stands_shows (SE := SE) cn ce d g St) as [_ Sh]. specialize (Sh o).
  destruct St as (U & [[F1 F2] A] & [Hn He]).
  rewrite (rds_now _ _ _ (rds_iter_edges ce never d o)) in *.
  rewrite (rds_now _ _ _ (rds_iter_props cn ce never d o)).
  exists (filter_map (edge_it (k := k) ce d o) (idx o d)).
  assert (forall kv, In kv (idx o d) -> exists t e, edge_val (SE := SE) ce d o kv = Ok (t, e) /\ edge_it (k := k) ce d o kv = Some (t, e) /\
    props_val (SE := SE) cn ce d o kv = full_item g (t, e)) as H.
  { intros [key r] Hin. destruct (edge_entry (SE := SE) ce U d o key r F2 Hin) as (t & e & -> & Hr & Hrec & Hv).
    exists t, e. split; auto. split; [unfold edge_it; simpl; now rewrite Hrec, dec_enc|].
    unfold edge_val, props_val, full_item in *. cbn [fst snd] in *.
    destruct (decode_key (dec o) (enc o t)) as [t'|]; simpl in Hv; [|discriminate]. simpl.
    destruct (get_de ce (bget r (t_edge d))) as [[e'|]|]; simpl in Hv; try discriminate. injection Hv as -> ->.
    rewrite !node_get_de by auto. simpl.
    rewrite <- !Hn. simpl. destruct (SledDb.nod cn d (sub t)), (SledDb.nod cn d (obj t)); reflexivity. }
  assert (map (edge_val (SE := SE) ce d o) (idx o d) = map Ok (filter_map (edge_it (k := k) ce d o) (idx o d))) as E1.
  { apply map_ok_filter. intros kv Hin. destruct (H kv Hin) as (t & e & H1 & H2 & _). eauto. }
  split; auto. split; [now rewrite <- E1|].
  clear -H. induction (idx o d) as [|kv l IH]; simpl; auto.
  destruct (H kv) as (t & e & _ & H2 & H3); [simpl; auto|]. rewrite H2, H3. simpl. f_equal. apply IH.
  intros; apply H; simpl; auto.
Qed.

Lemma history_props (h : handle k) (l : list op) faults o :
  codec_ok cn -> codec_ok ce -> NoDup (history_keys h l) ->
  (forall r, In r (fst (ret_of (hist l h) faults db_new)) -> ~ failed r) ->
  exists es, now SE (s_iter_edges ce o) (db_of (hist l h) faults db_new) = map Ok es /\
    now SE (s_iter_edges_with_props (k := k) cn ce o) (db_of (hist l h) faults db_new) =
      map (full_item (spec_history mn me l g_empty)) es.
Proof.
  intros Hn He Hd Hno. destruct (good_history (SE := SE) cn ce mn me h l faults Hn He Hd Hno) as [_ St].
  destruct (stands_props _ _ o St) as (es & H1 & _ & H3). eauto.
Qed.

(** The items of a sequence that are not errors. *)
Definition ok_items {X A} (l : list (result X A)) : list A :=
  filter_map (fun r => match r with Ok a => Some a | Err _ => None end) l.

Lemma backends_props (gm : gen k) (h : handle k) (l : list op) faults o :
  codec_ok cn -> codec_ok ce -> NoDup (history_keys h l) ->
  (forall r, In r (fst (ret_of (hist l h) faults db_new)) -> ~ failed r) ->
  drawn_distinct (id_generator (mem_history mn me l (mem_new gm))) ->
  iter_edges_with_props o (mem_history mn me l (mem_new gm)) =
  map Ok (ok_items (now SE (s_iter_edges_with_props (k := k) cn ce o) (db_of (hist l h) faults db_new))) /\
  forall e, In (Err e) (now SE (s_iter_edges_with_props (k := k) cn ce o) (db_of (hist l h) faults db_new)) ->
    e = MissingPropertyData.
Proof.
  intros Hn He Hd Hno Dm. destruct (good_history (SE := SE) cn ce mn me h l faults Hn He Hd Hno) as [_ St].
  set (d := db_of (hist l h) faults db_new) in *. set (m := mem_history mn me l (mem_new gm)).
  pose proof (top_history mn me gm l Dm) as Sm. fold m in Sm. set (g := spec_history mn me l g_empty) in *.
  destruct (stands_props d g o St) as (es & E1 & Sh & E3). rewrite E3. split.
  - assert (R : reachable E mn me m) by apply reachable_history, R_new.
    pose proof (reachable_agree mn me _ R) as A.
    rewrite iter_with_props_eq. f_equal.
    assert (edge_items o m = es) as ->.
    { destruct (lists_both (edge_lt o) _ _ _ (edge_lt_irr o) (edge_lt_tr o) (proj2 Sm o) Sh) as (xs & H1 & H2).
      rewrite iter_edges_eq in H1. apply map_ok_inj in H1. apply map_ok_inj in H2. congruence. }
    pose proof (proj1 (shows_iff m g A) Sm) as Heq. unfold ok_items. rewrite filter_map_map.
    apply filter_map_ext_in. intros [t e] _. unfold with_props, full_item. cbn [fst snd].
    destruct Heq as [Hq _]. rewrite <- (Hq (sub t)), <- (Hq (obj t)). simpl. 
    destruct (nprop m (sub t)), (nprop m (obj t)); reflexivity.
  - intros e H. apply in_map_iff in H. destruct H as ([t x] & H & _). unfold full_item in H. cbn [fst snd] in H.
    destruct (g_node g (sub t)), (g_node g (obj t)); congruence.
Qed.

(** ** C34: any contents *)

(** What a reader may answer for one entry. *)
Definition vertex_reads (faults : list (option SE)) (kv : bytes * bytes) (r : result err (I * NP)) : Prop :=
  match r with
  | Ok (i, p) => fst kv = to_be_bytes i /\ de cn (snd kv) = Ok p
  | Err KeySizeError => length (fst kv) <> width k
  | Err (SerializationError b) => length (fst kv) = width k /\ de cn (snd kv) = Err b
  | Err (SledError x) => In (Some x) faults
  | Err MissingPropertyData => False
  end.

Definition encode (o : edge_order) (t : T) : bytes :=
  match o with SPO => encode_spo t | POS => encode_pos t | OSP => encode_osp t end.
Definition order_table (o : edge_order) (d : db) : tree :=
  match o with SPO => t_spo d | POS => t_pos d | OSP => t_osp d end.

Definition edge_reads (faults : list (option SE)) (d : db) (o : edge_order) (kv : bytes * bytes)
    (r : result err (T * EP)) : Prop :=
  match r with
  | Ok (t, e) => fst kv = encode o t /\ exists b, bget (snd kv) (t_edge d) = Some b /\ de ce b = Ok e
  | Err KeySizeError => length (fst kv) <> 3 * width k
  | Err (SerializationError x) =>
      length (fst kv) = 3 * width k /\ exists b, bget (snd kv) (t_edge d) = Some b /\ de ce b = Err x
  | Err MissingPropertyData => length (fst kv) = 3 * width k /\ bget (snd kv) (t_edge d) = None
  | Err (SledError x) => In (Some x) faults
  end.

(** A stored value that can be read, or is absent. *)
Definition stored {A} (c : codec BE A) (key : bytes) (t : tree) (v : option A) : Prop :=
  match v with
  | Some a => exists b, bget key t = Some b /\ de c b = Ok a
  | None => bget key t = None
  end.
Definition corrupt {A} (c : codec BE A) (key : bytes) (t : tree) (x : BE) : Prop :=
  exists b, bget key t = Some b /\ de c b = Err x.

Definition props_reads (faults : list (option SE)) (d : db) (o : edge_order) (kv : bytes * bytes)
    (r : result err (props_triple I NP EP)) : Prop :=
  match r with
  | Ok (PropsTriple (s, sp) (p, ep) (b, bp)) =>
      fst kv = encode o (Triple s p b) /\ stored cn (to_be_bytes s) (t_node d) (Some sp) /\
      stored ce (snd kv) (t_edge d) (Some ep) /\ stored cn (to_be_bytes b) (t_node d) (Some bp)
  | Err KeySizeError => length (fst kv) <> 3 * width k
  | Err (SerializationError x) => exists t, fst kv = encode o t /\
      (corrupt cn (to_be_bytes (sub t)) (t_node d) x \/ corrupt ce (snd kv) (t_edge d) x \/
       corrupt cn (to_be_bytes (obj t)) (t_node d) x)
  | Err MissingPropertyData => exists t, fst kv = encode o t /\
      exists s p b, stored cn (to_be_bytes (sub t)) (t_node d) s /\ stored ce (snd kv) (t_edge d) p /\
        stored cn (to_be_bytes (obj t)) (t_node d) b /\ (s = None \/ p = None \/ b = None)
  | Err (SledError x) => In (Some x) faults
  end.

Lemma encode_enc o t : encode o t = enc o t.
Proof. destruct o; reflexivity. Qed.
Lemma order_idx o d : order_table o d = idx o d.
Proof. destruct o; reflexivity. Qed.

Lemma rds_reads {A} (p : P (list (result err A))) (d : db) faults (es : list (bytes * bytes)) v
    (R : bytes * bytes -> result err A -> Prop) :
  rds (fun x => In (Some x) faults) d p (map v es) ->
  (forall kv, In kv es -> R kv (v kv)) -> (forall kv x, In (Some x) faults -> R kv (Err (SledError x))) ->
  db_of p faults d = d /\ Forall2 R es (ret_of p faults d).
Proof.
  intros H Hv Hf. destruct (wp_exec _ _ _ p faults d (fun x H => H) H) as (Hd & H' & _). split; auto.
  revert H'. generalize (ret_of p faults d). clear -Hv Hf.
  induction es as [|kv es IH]; intros rs H'; inversion H' as [|v' r' vs' rs' Hr Hrs]; subst; constructor.
  - destruct Hr as [->|(y & Hy & ->)]; auto. apply Hv. simpl. auto.
  - apply IH; auto. intros; apply Hv; simpl; auto.
Qed.

Lemma vertices_read faults d :
  db_of (s_iter_vertices (k := k) (BE := BE) cn) faults d = d /\
  Forall2 (vertex_reads faults) (t_node d) (ret_of (s_iter_vertices cn) faults d).
Proof.
  apply (rds_reads _ d faults (t_node d) (vertex_val cn)); [apply rds_iter_vertices| |auto].
  intros [key v] _. unfold vertex_val, vertex_reads, decode_id, ser_err. cbn [fst snd].
  rewrite try_from_be_bytes_spec. destruct (Nat.eqb_spec (length key) (width k)); simpl; auto.
  destruct (de cn v); simpl; auto. split; auto. symmetry. now apply to_from_be_bytes.
Qed.

Lemma edges_read faults d o :
  db_of (s_iter_edges (k := k) (BE := BE) ce o) faults d = d /\
  Forall2 (edge_reads faults d o) (order_table o d) (ret_of (s_iter_edges ce o) faults d).
Proof.
  rewrite order_idx.
  apply (rds_reads _ d faults (idx o d) (edge_val ce d o)); [apply rds_iter_edges| |auto].
  intros [key v] _. unfold edge_val, edge_reads. cbn [fst snd].
  destruct (decode_key_spec (k := k) (SE := SE) (BE := BE) (dec o) key) as [[Hl ->]|[Hl ->]]; simpl; auto.
  unfold get_de. destruct (bget v (t_edge d)) as [b|]; simpl; auto.
  destruct (de ce b) as [e|x] eqn:D; simpl; eauto.
  rewrite encode_enc, enc_dec by auto. eauto.
Qed.

Lemma get_de_cases {A} (c : codec BE A) key t :
  match get_de (SE := SE) c (bget key t) with
  | Ok v => stored c key t v
  | Err (SerializationError x) => corrupt c key t x
  | Err _ => False
  end.
Proof.
  unfold get_de, stored, corrupt. destruct (bget key t) as [b|]; auto. destruct (de c b) eqn:D; eauto.
Qed.

Lemma props_read faults d o :
  db_of (s_iter_edges_with_props (k := k) (BE := BE) cn ce o) faults d = d /\
  Forall2 (props_reads faults d o) (order_table o d) (ret_of (s_iter_edges_with_props cn ce o) faults d).
Proof.
  rewrite order_idx.
  apply (rds_reads _ d faults (idx o d) (props_val cn ce d o)); [apply rds_iter_props| |auto].
  intros [key v] _. unfold props_val. cbn [fst snd].
  destruct (decode_key_spec (k := k) (SE := SE) (BE := BE) (dec o) key) as [[Hl ->]|[Hl ->]]; simpl; auto.
  set (t := dec o key : T). assert (key = encode o t) as Hk by (rewrite encode_enc; unfold t; now rewrite enc_dec).
  pose proof (get_de_cases cn (to_be_bytes (sub t)) (t_node d)) as H1.
  pose proof (get_de_cases ce v (t_edge d)) as H2.
  pose proof (get_de_cases cn (to_be_bytes (obj t)) (t_node d)) as H3.
  destruct (get_de cn (bget (to_be_bytes (sub t)) (t_node d))) as [s|[]]; simpl; try contradiction; [|exists t; auto].
  destruct (get_de ce (bget v (t_edge d))) as [p|[]]; simpl; try contradiction; [|exists t; auto].
  destruct (get_de cn (bget (to_be_bytes (obj t)) (t_node d))) as [b|[]]; simpl; try contradiction; [|exists t; auto 6].
  destruct s as [s|]; [|simpl; exists t; split; auto; exists None, p, b; auto 6].
  destruct p as [p|]; [|simpl; exists t; split; auto; exists (Some s), None, b; auto 6].
  destruct b as [b|]; [|simpl; exists t; split; auto; exists (Some s), (Some p), None; auto 6].
  cbn [props_reads fst snd]. destruct t as [x y z]. auto.
Qed.

(** vertices() *)
Lemma vertices_answer d :
  match now SE (s_vertices (k := k) (BE := BE)) d with
  | Ok ids => map fst (t_node d) = map to_be_bytes ids
  | Err e => e = KeySizeError /\ exists kv, In kv (t_node d) /\ length (fst kv) <> width k
  end.
Proof.
  unfold now, s_vertices. rewrite ret_of_bind.
  assert (ret_of (scan t_node (fun kv => Ret (decode_id (fst kv))) : P (list (result err I))) [] d
    = map (fun kv => decode_id (fst kv)) (t_node d)) as ->.
  { apply (rds_now (SE := SE) (BE := BE)). apply rds_scan. intros kv. apply rd_ret. }
  unfold ret_of. simpl. induction (t_node d) as [|[key v] l IH]; simpl; auto.
  unfold decode_id at 1. rewrite try_from_be_bytes_spec. destruct (Nat.eqb_spec (length key) (width k)).
  - destruct (collect_result _ _) as [ids|x]; simpl.
    + rewrite IH. f_equal. symmetry. now apply to_from_be_bytes.
    + destruct IH as (-> & kv & H1 & H2). split; auto. eauto.
  - split; auto. exists (key, v). auto.
Qed.

End Tables.
