(** Reading a SledTripleStore: iterators and queries, on any database contents and with
    storage failures. *)
From Coq Require Import Arith NArith List Bool Sorted Lia.
From Verif Require Import Bytes BytesFacts OMap OMapFacts Core IdType IdTypeFacts Store Mem Spec
  CodecFacts ListFacts MemFacts MemSim History Prog ProgFacts Sled SledHistory SledDb SledOps SledBulk.
Import ListNotations.

Section Read.
Context {k : idkind} {NP EP SE BE : Type} (cn : codec BE NP) (ce : codec BE EP).
Notation I := (Id k).
Notation T := (triple (Id k)).
Notation G := (graph k NP EP).
Notation err := (sled_error SE BE).
Notation P A := (prog db SE A).
Notation PR A := (prog db SE (result err A)).
Implicit Types t u : T.
Implicit Types F : SE -> Prop.

(** The value, or a storage failure. *)
Definition or_fault {A} F (v r : result err A) : Prop := r = v \/ exists y, F y /\ r = Err (SledError y).

Definition rd {A} F (d : db) (p : PR A) (v : result err A) : Prop :=
  wp F (fun x => x = d) (fun r x => or_fault F v r) p d.
Definition rds {A} F (d : db) (p : P (list (result err A))) (vs : list (result err A)) : Prop :=
  wp F (fun x => x = d) (fun rs x => Forall2 (or_fault F) vs rs) p d.

Definition and_then {A B} (r : result err A) (f : A -> result err B) : result err B :=
  match r with Ok a => f a | Err e => Err e end.

Lemma rd_ret {A} F d (v : result err A) : rd F d (Ret v) v.
Proof. split; auto. left. reflexivity. Qed.

Lemma rd_bind {A B} F d (p : PR A) (f : A -> PR B) r v :
  rd F d p r -> (forall a, r = Ok a -> rd F d (f a) (v a)) -> rd F d (bind_ok p f) (and_then r v).
Proof.
  intros H Hf. unfold rd. apply wp_bind_ok. eapply wp_mono; [| |exact H]; auto.
  intros r' x -> [->|(y & Hy & ->)].
  - destruct r as [a|e]; simpl.
    + apply Hf. reflexivity.
    + split; auto. left. reflexivity.
  - split; auto. right. eauto.
Qed.

Lemma rd_eq {A} F d (p : PR A) v v' : rd F d p v -> v = v' -> rd F d p v'.
Proof. intros H <-. exact H. Qed.

Lemma rd_get F d x key : rd F d (tree_get x key) (Ok (bget key (tbl x d))).
Proof.
  split; auto. split.
  - simpl. split; auto. left. reflexivity.
  - intros e He. simpl. split; auto. right. eauto.
Qed.

Lemma rd_next {A} F d (p : PR A) v : rd F d p v -> rd F d (next p) v.
Proof.
  intros H. split; auto. split; auto. intros e He. simpl. split; auto. right. eauto.
Qed.

Definition ser_err {A} (r : result BE A) : result err A :=
  match r with Ok a => Ok a | Err e => Err (SerializationError e) end.

Lemma rd_bincode {A} F d (r : result BE A) : rd F d (bincode r) (ser_err r).
Proof. apply rd_ret. Qed.

Lemma rd_look {A} F d (f : db -> PR A) v : rd F d (f d) v -> rd F d (Look f) v.
Proof. auto. Qed.

(** [fold_ok f l s]: a loop that stops at the first error. *)
Fixpoint fold_ok {X S} (f : X -> S -> result err S) (l : list X) (s : S) : result err S :=
  match l with
  | [] => Ok s
  | x :: l' => and_then (f x s) (fun s' => fold_ok f l' s')
  end.

Lemma rd_for_ok {X S} F d (f : X -> S -> PR S) (v : X -> S -> result err S) l :
  (forall x s, rd F d (f x s) (v x s)) -> forall s, rd F d (for_ok f l s) (fold_ok v l s).
Proof.
  intros H. induction l as [|x l IH]; intros s; simpl.
  - apply rd_ret.
  - apply rd_bind; auto.
Qed.

Lemma rds_map {X A} F d (f : X -> PR A) v l :
  (forall x, rd F d (f x) (v x)) -> rds F d (map_prog f l) (map v l).
Proof.
  intros H. induction l as [|x l IH]; simpl.
  - split; auto.
  - apply wp_bind. eapply wp_mono; [| |apply H]; auto.
    intros r y -> Hr. apply wp_bind. eapply wp_mono; [| |exact IH]; auto.
    intros rs y -> Hrs. simpl. split; auto.
Qed.

Lemma rds_scan {A} F d entries (f : bytes * bytes -> PR A) v :
  (forall kv, rd F d (f kv) (v kv)) -> rds F d (scan entries f) (map v (entries d)).
Proof. intros H. unfold scan. apply rds_map. intros kv. now apply rd_next. Qed.

(** Without failures. *)
Definition never : SE -> Prop := fun _ => False.

Lemma rd_now {A} d (p : PR A) v : rd never d p v -> now SE p d = v.
Proof.
  intros H. destruct (wp_exec _ _ _ p [] d (allowed_nil _) H) as (_ & [H'|(y & [] & _)] & _). exact H'.
Qed.

Lemma rds_now {A} d (p : P (list (result err A))) vs : rds never d p vs -> now SE p d = vs.
Proof.
  intros H. destruct (wp_exec _ _ _ p [] d (allowed_nil _) H) as (_ & H' & _).
  change (ret_of p [] d) with (now SE p d) in H'. clear H. revert H'. generalize (now SE p d).
  induction vs as [|v vs IH]; intros rs H'; inversion H' as [|v' r' vs' rs' Hr Hrs]; subst; auto.
  f_equal; auto. destruct Hr as [Hr|(y0 & [] & _)]. exact Hr.
Qed.

(** ** What each entry gives *)
Definition get_de {A} (c : codec BE A) (o : option bytes) : result err (option A) :=
  match o with
  | None => Ok None
  | Some b => match de c b with Ok a => Ok (Some a) | Err e => Err (SerializationError e) end
  end.

Definition vertex_val (kv : bytes * bytes) : result err (I * NP) :=
  and_then (decode_id (fst kv)) (fun i => and_then (ser_err (de cn (snd kv))) (fun v => Ok (i, v))).

Definition edge_val (d : db) (o : edge_order) (kv : bytes * bytes) : result err (T * EP) :=
  and_then (decode_key (dec o) (fst kv)) (fun t =>
  and_then (get_de ce (bget (snd kv) (t_edge d))) (fun p =>
  match p with Some p => Ok (t, p) | None => Err MissingPropertyData end)).

Definition props_val (d : db) (o : edge_order) (kv : bytes * bytes) : result err (props_triple I NP EP) :=
  and_then (decode_key (dec o) (fst kv)) (fun t =>
  and_then (get_de cn (bget (to_be_bytes (sub t)) (t_node d))) (fun s =>
  and_then (get_de ce (bget (snd kv) (t_edge d))) (fun p =>
  and_then (get_de cn (bget (to_be_bytes (obj t)) (t_node d))) (fun ob =>
  match s, p, ob with
  | Some s, Some p, Some ob => Ok (PropsTriple (sub t, s) (pred t, p) (obj t, ob))
  | _, _, _ => Err MissingPropertyData
  end)))).

Lemma rd_opt_de {A} F d (c : codec BE A) o : rd F d (opt_de c o) (get_de c o).
Proof.
  destruct o as [b|]; simpl; [|apply rd_ret].
  eapply rd_eq; [apply rd_bind; [apply rd_bincode|intros; apply rd_ret]|]. destruct (de c b); reflexivity.
Qed.

Lemma rd_edge_data F d r : rd F d (get_edge_data_internal ce r) (get_de ce (bget r (t_edge d))).
Proof.
  unfold get_edge_data_internal. eapply rd_eq; [apply rd_bind; [apply rd_get|intros; apply rd_opt_de]|]. reflexivity.
Qed.
Lemma rd_node_data F d (i : I) : rd F d (get_node_data_by_id cn i) (get_de cn (bget (to_be_bytes i) (t_node d))).
Proof.
  unfold get_node_data_by_id. eapply rd_eq; [apply rd_bind; [apply rd_get|intros; apply rd_opt_de]|]. reflexivity.
Qed.

Lemma rd_edge_item F d t r :
  rd F d (edge_item ce t r)
    (and_then (get_de ce (bget r (t_edge d))) (fun p =>
     match p with Some p => Ok (t, p) | None => Err MissingPropertyData end)).
Proof.
  unfold edge_item. apply rd_bind; [apply rd_edge_data|]. intros [p|] _; apply rd_ret.
Qed.

Lemma rd_iter_impl F d t r :
  rd F d (s_iter_impl cn ce t r)
    (and_then (get_de cn (bget (to_be_bytes (sub t)) (t_node d))) (fun s =>
     and_then (get_de ce (bget r (t_edge d))) (fun p =>
     and_then (get_de cn (bget (to_be_bytes (obj t)) (t_node d))) (fun ob =>
     match s, p, ob with
     | Some s, Some p, Some ob => Ok (PropsTriple (sub t, s) (pred t, p) (obj t, ob))
     | _, _, _ => Err MissingPropertyData
     end)))).
Proof.
  unfold s_iter_impl. apply rd_bind; [apply rd_node_data|]. intros s _.
  apply rd_bind; [apply rd_edge_data|]. intros p _. apply rd_bind; [apply rd_node_data|]. intros ob _.
  destruct s, p, ob; apply rd_ret.
Qed.

Lemma rds_iter_vertices F d : rds F d (s_iter_vertices cn : P (list (result err (I * NP)))) (map vertex_val (t_node d)).
Proof.
  apply rds_scan. intros kv. apply rd_bind; [apply rd_ret|]. intros i _.
  apply rd_bind; [apply rd_bincode|]. intros v _. apply rd_ret.
Qed.

Lemma rds_iter_edges F d o : rds F d (s_iter_edges ce o) (map (edge_val d o) (idx o d)).
Proof.
  destruct o; apply rds_scan; intros kv; (apply rd_bind; [apply rd_ret|]); intros t _; apply rd_edge_item.
Qed.

Lemma rds_iter_props F d o : rds F d (s_iter_edges_with_props cn ce o) (map (props_val d o) (idx o d)).
Proof.
  destruct o; apply rds_scan; intros kv; (apply rd_bind; [apply rd_ret|]); intros t _; apply rd_iter_impl.
Qed.

(** ** On consistent databases *)
Notation fair := (fair (k := k) cn ce).
Notation view := (view (k := k) ce).
Notation nod := (nod (k := k) cn).
Notation agree := (indexes_agree (k := k)).
Notation sabs := (sabs (k := k) cn ce).
Let BC := bytes_cmp_ok.

Definition vert_item (kv : bytes * bytes) : option (I * NP) :=
  match try_from_be_bytes (fst kv), de cn (snd kv) with Some i, Ok p => Some (i, p) | _, _ => None end.

Lemma map_ok_filter {X A} (v : X -> result err A) (f : X -> option A) l :
  (forall x, In x l -> exists a, v x = Ok a /\ f x = Some a) -> map v l = map Ok (filter_map f l).
Proof.
  induction l as [|x l IH]; intros H; simpl; auto.
  destruct (H x) as (a & -> & ->); simpl; auto. f_equal. apply IH. intros; apply H; simpl; auto.
Qed.

Lemma fair_vertices (d : db) : fairn (k := k) cn d ->
  lists_nodes (E := err) (map vertex_val (t_node d)) (nod d).
Proof.
  intros F. exists (filter_map vert_item (t_node d)). split; [|split].
  - apply map_ok_filter. intros [key b] H. destruct (fn_items cn _ F _ _ H) as (i & p & -> & Hb).
    exists (i, p). unfold vertex_val, vert_item, decode_id, ser_err. simpl.
    rewrite try_from_to_be_bytes, Hb. auto.
  - eapply filter_map_sorted; [apply (fn_sorted cn _ F)|].
    intros [ka ba] [kb bb] x y Ha Hb Hlt Hx Hy.
    destruct (fn_items cn _ F _ _ Ha) as (i & p & -> & Hp). destruct (fn_items cn _ F _ _ Hb) as (j & q & -> & Hq).
    unfold vert_item in *. simpl in *. rewrite try_from_to_be_bytes in *. rewrite Hp in Hx. rewrite Hq in Hy.
    injection Hx as <-. injection Hy as <-. simpl. unfold key_lt in Hlt. cbn [fst] in Hlt.
    rewrite to_be_bytes_cmp in Hlt. now apply id_cmp_lt.
  - intros i p. rewrite filter_map_in. unfold SledDb.nod. split.
    + intros ([key b] & Hin & Hx). destruct (fn_items cn _ F _ _ Hin) as (j & q & -> & Hq).
      unfold vert_item in Hx. simpl in Hx. rewrite try_from_to_be_bytes, Hq in Hx. injection Hx as -> ->.
      rewrite (proj2 (get_iff_in BC _ _ _ (fn_sorted cn _ F)) Hin). now rewrite Hq.
    + intros H. destruct (bget (to_be_bytes i) (t_node d)) as [b|] eqn:Hg; [|discriminate].
      exists (to_be_bytes i, b). split; [now apply (get_in BC)|]. unfold vert_item. simpl.
      rewrite try_from_to_be_bytes. destruct (de cn b); simpl in H; congruence.
Qed.

Definition edge_it (d : db) (o : edge_order) (kv : bytes * bytes) : option (T * EP) :=
  match record ce d (snd kv) with Some e => Some (dec o (fst kv), e) | None => None end.

Lemma edge_entry U d o key r : faire (k := k) ce U d -> In (key, r) (idx o d) ->
  exists t e, key = enc o t /\ rid o d t = Some r /\ record ce d r = Some e /\
    edge_val d o (key, r) = Ok (t, e).
Proof.
  intros F H. destruct (fe_keys ce _ _ F _ _ _ H) as [t ->].
  assert (rid o d t = Some r) as Hr by now apply (get_iff_in BC _ _ _ (fe_isorted ce _ _ F o)).
  pose proof (fe_rec ce _ _ F _ _ _ Hr) as Hrec. exists t.
  destruct (record ce d r) as [e|] eqn:He; [|congruence]. exists e.
  split; auto. split; auto. split; auto. unfold edge_val. cbn [fst snd].
  destruct (decode_key_spec (k := k) (SE := SE) (BE := BE) (dec o) (enc o t)) as [[_ ->]|[Hl _]]; [|now rewrite enc_length in Hl].
  simpl. rewrite dec_enc. unfold record in He. destruct (bget r (t_edge d)) as [b|]; [|discriminate].
  simpl. destruct (de ce b); simpl in He; [|discriminate]. simpl. congruence.
Qed.

Lemma fair_edges U d o : faire (k := k) ce U d -> lists_edges (E := err) o (map (edge_val d o) (idx o d)) (view o d).
Proof.
  intros F. exists (filter_map (edge_it d o) (idx o d)). split; [|split].
  - apply map_ok_filter. intros [key r] H. destruct (edge_entry U d o key r F H) as (t & e & -> & Hr & He & Hv).
    exists (t, e). split; auto. unfold edge_it. simpl. now rewrite He, dec_enc.
  - eapply filter_map_sorted; [apply (fe_isorted ce _ _ F o)|].
    intros [ka ra] [kb rb] x y Ha Hb Hlt Hx Hy.
    destruct (edge_entry U d o _ _ F Ha) as (t & e & -> & Hr & He & Hv).
    destruct (edge_entry U d o _ _ F Hb) as (t' & e' & -> & Hr' & He' & Hv').
    unfold edge_it in *. simpl in *. rewrite He, dec_enc in Hx. rewrite He', dec_enc in Hy.
    injection Hx as <-. injection Hy as <-. simpl. now apply enc_lt.
  - intros t e. rewrite filter_map_in. unfold SledDb.view. split.
    + intros ([key r] & Hin & Hx). destruct (edge_entry U d o _ _ F Hin) as (t' & e' & -> & Hr & He & _).
      unfold edge_it in Hx. simpl in Hx. rewrite He, dec_enc in Hx. injection Hx as -> ->. now rewrite Hr.
    + intros H. destruct (rid o d t) as [r|] eqn:Hr; [|discriminate].
      exists (enc o t, r). split; [now apply (get_in BC)|]. unfold edge_it. simpl. now rewrite H, dec_enc.
Qed.

Lemma good_shows U d : sgood (k := k) cn ce U d -> sled_shows (k := k) SE cn ce d (sabs d).
Proof.
  intros [[F1 F2] A]. split.
  - rewrite (rds_now _ _ _ (rds_iter_vertices never d)). now apply fair_vertices.
  - intros o. rewrite (rds_now _ _ _ (rds_iter_edges never d o)).
    eapply lists_ext; [|eapply fair_edges; eauto]. intros t. simpl. unfold SledDb.view. now rewrite A.
Qed.

Lemma sled_shows_equiv d (g g' : G) : g_equiv g g' -> sled_shows SE cn ce d g -> sled_shows SE cn ce d g'.
Proof.
  intros [H1 H2] [S1 S2]. split; [|intros o]; eapply lists_ext; [exact H1 | exact S1 | exact H2 | exact (S2 o)].
Qed.

Lemma sled_shows_fun d (g g' : G) : sled_shows SE cn ce d g -> sled_shows SE cn ce d g' -> g_equiv g g'.
Proof. intros [H1 H2] [S1 S2]. split; [exact (lists_fun _ _ _ _ H1 S1)|]. exact (lists_fun _ _ _ _ (H2 SPO) (S2 SPO)). Qed.

(** ** Queries *)
Definition entry_hit (d : db) (o : edge_order) (kv : bytes * bytes) : option (result err (T * EP)) :=
  match bget (snd kv) (t_edge d) with
  | None => None
  | Some b =>
      Some (and_then (decode_key (dec o) (fst kv)) (fun t =>
            and_then (ser_err (de ce b)) (fun e => Ok (t, e))))
  end.

Definition node_hit (d : db) (n : I) : option (result err (I * NP)) :=
  match bget (to_be_bytes n) (t_node d) with
  | None => None
  | Some b => Some (and_then (ser_err (de cn b)) (fun p => Ok (n, p)))
  end.

Definition spo_hit (d : db) (x : I * I * I) : option (result err (T * EP)) :=
  let '(s, p, o) := x in
  let t := Triple s p o in
  match rid SPO d t with
  | None => None
  | Some r =>
      match bget r (t_edge d) with
      | None => None
      | Some b => Some (and_then (ser_err (de ce b)) (fun e => Ok (t, e)))
      end
  end.

Definition range1 d o x := filter_map (entry_hit d o) (brange (key_bounds_1 (k := k) x) (idx o d)).
Definition range2 d o x y := filter_map (entry_hit d o) (brange (key_bounds_2 (k := k) x y) (idx o d)).

(** What the entries visited by a query give, in the order visited. *)
Definition s_hits (d : db) (q : query I) : list (result err (T * EP)) :=
  match q with
  | QNodeProps _ => []
  | QSPO l => filter_map (spo_hit d) l
  | QS l => flat_map (range1 d SPO) l
  | QP l => flat_map (range1 d POS) l
  | QO l => flat_map (range1 d OSP) l
  | QSP l => flat_map (fun x => range2 d SPO (fst x) (snd x)) l
  | QPO l => flat_map (fun x => range2 d POS (fst x) (snd x)) l
  | QSO l => flat_map (fun x => range2 d OSP (snd x) (fst x)) l
  end.
Definition s_node_hits (d : db) (q : query I) : list (result err (I * NP)) :=
  match q with QNodeProps l => filter_map (node_hit d) l | _ => [] end.

(** Insert the items up to the first error. *)
Definition into {A} (ins : A -> mem k NP EP -> mem k NP EP) (l : list (result err A)) (r : mem k NP EP)
    : result err (mem k NP EP) :=
  match first_error l with
  | Some e => Err e
  | None => Ok (fold_left (fun r a => ins a r) (before_error l) r)
  end.

Lemma into_cons {A} ins (x : result err A) l r :
  into ins (x :: l) r = and_then x (fun a => into ins l (ins a r)).
Proof. destruct x; reflexivity. Qed.

Lemma into_app {A} ins (l l' : list (result err A)) : forall r,
  into ins (l ++ l') r = and_then (into ins l r) (fun r' => into ins l' r').
Proof.
  induction l as [|x l IH]; intros r; [reflexivity|].
  cbn [app]. rewrite !into_cons. destruct x as [a|e]; simpl; auto.
Qed.

Definition one {A} (o : option (result err A)) : list (result err A) :=
  match o with Some x => [x] | None => [] end.

Lemma fold_ok_filter {X A} ins (hit : X -> option (result err A)) (l : list X) : forall r,
  fold_ok (fun x r => into ins (one (hit x)) r) l r = into ins (filter_map hit l) r.
Proof.
  induction l as [|x l IH]; intros r; [reflexivity|].
  cbn [fold_ok filter_map]. destruct (hit x) as [y|]; simpl one.
  - rewrite !into_cons. destruct y; simpl; auto.
  - simpl. apply IH.
Qed.

Lemma fold_ok_flat {X A} ins (hits : X -> list (result err A)) (l : list X) : forall r,
  fold_ok (fun x r => into ins (hits x) r) l r = into ins (flat_map hits l) r.
Proof.
  induction l as [|x l IH]; intros r; [reflexivity|].
  cbn [fold_ok flat_map]. rewrite into_app. destruct (into ins (hits x) r); simpl; auto.
Qed.

Definition ins_e (te : T * EP) (r : mem k NP EP) : mem k NP EP := insert_edge (fst te) (snd te) r.
Definition ins_n (ip : I * NP) (r : mem k NP EP) : mem k NP EP := insert_node (fst ip) (snd ip) r.

Lemma rd_query_entry F d o kv r :
  rd F d (query_entry ce (dec o) kv r) (into ins_e (one (entry_hit d o kv)) r).
Proof.
  unfold query_entry. apply rd_next.
  eapply rd_eq; [eapply (rd_bind F d) with (v := (fun ob => match ob with
    | None => Ok r
    | Some b => and_then (decode_key (dec o) (fst kv)) (fun t => and_then (ser_err (de ce b)) (fun e =>
        Ok (insert_edge t e r)))
    end)); [apply rd_get|]|].
  - intros [b|] _; [|apply rd_ret].
    apply rd_bind; [apply rd_ret|]. intros t _. apply rd_bind; [apply rd_bincode|]. intros e _. apply rd_ret.
  - unfold entry_hit. simpl. destruct (bget (snd kv) (t_edge d)) as [b|]; [|reflexivity].
    simpl. destruct (decode_key (dec o) (fst kv)); simpl; auto. destruct (de ce b); reflexivity.
Qed.

Lemma rd_query_range F d o (tr : db -> tree) b r : tr d = idx o d ->
  rd F d (query_range ce (dec o) tr b r) (into ins_e (filter_map (entry_hit d o) (brange b (idx o d))) r).
Proof.
  intros E. apply rd_look. rewrite E. eapply rd_eq; [|apply fold_ok_filter].
  apply rd_for_ok. intros. apply rd_query_entry.
Qed.

Lemma rd_query_node F d n r : rd F d (query_node cn n r) (into ins_n (one (node_hit d n)) r).
Proof.
  unfold query_node. eapply rd_eq; [eapply (rd_bind F d) with (v := (fun ob => match ob with
    | None => Ok r
    | Some b => and_then (ser_err (de cn b)) (fun p => Ok (insert_node n p r))
    end)); [apply rd_get|]|].
  - intros [b|] _; [|apply rd_ret]. apply rd_bind; [apply rd_bincode|]. intros e _. apply rd_ret.
  - unfold node_hit. simpl. destruct (bget (to_be_bytes n) (t_node d)) as [b|]; [|reflexivity].
    simpl. destruct (de cn b); reflexivity.
Qed.

Lemma rd_query_spo F d x r : rd F d (query_spo ce x r) (into ins_e (one (spo_hit d x)) r).
Proof.
  destruct x as [[s p] o]. unfold query_spo.
  eapply rd_eq; [eapply (rd_bind F d) with (v := (fun oid => match oid with
    | None => Ok r
    | Some id => and_then (Ok (bget id (t_edge d))) (fun ob => match ob with
        | None => Ok r
        | Some b => and_then (ser_err (de ce b)) (fun e => Ok (insert_edge (Triple s p o) e r))
        end)
    end)); [apply rd_get|]|].
  - intros [id|] _; [|apply rd_ret]. apply rd_bind; [apply (rd_get F d TEdge)|].
    intros [b|] _; [|apply rd_ret]. apply rd_bind; [apply rd_bincode|]. intros e _. apply rd_ret.
  - unfold spo_hit. simpl. change (bget (encode_spo (Triple s p o)) (t_spo d)) with (rid SPO d (Triple s p o)).
    destruct (rid SPO d (Triple s p o)) as [id|]; [|reflexivity].
    simpl. destruct (bget id (t_edge d)) as [b|]; [|reflexivity].
    simpl. destruct (de ce b); reflexivity.
Qed.

Definition s_answer (g : gen k) (q : query I) (d : db) : result err (mem k NP EP) :=
  match q with
  | QNodeProps _ => into ins_n (s_node_hits d q) (mem_new g)
  | _ => into ins_e (s_hits d q) (mem_new g)
  end.

Lemma rd_run F d g q : rd F d (s_run cn ce g q) (s_answer g q d).
Proof.
  destruct q as [l|l|l|l|l|l|l|l]; cbn [s_run s_answer s_hits s_node_hits].
  - eapply rd_eq; [|apply fold_ok_filter]. apply rd_for_ok. intros. apply rd_query_node.
  - eapply rd_eq; [|apply fold_ok_filter]. apply rd_for_ok. intros. apply rd_query_spo.
  - eapply rd_eq; [|apply fold_ok_flat]. apply rd_for_ok. intros. now apply (rd_query_range F d OSP).
  - eapply rd_eq; [|apply fold_ok_flat]. apply rd_for_ok. intros. now apply (rd_query_range F d SPO).
  - eapply rd_eq; [|apply fold_ok_flat]. apply rd_for_ok. intros. now apply (rd_query_range F d POS).
  - eapply rd_eq; [|apply fold_ok_flat]. apply rd_for_ok. intros. now apply (rd_query_range F d POS).
  - eapply rd_eq; [|apply fold_ok_flat]. apply rd_for_ok. intros. now apply (rd_query_range F d OSP).
  - eapply rd_eq; [|apply fold_ok_flat]. apply rd_for_ok. intros. now apply (rd_query_range F d SPO).
Qed.

(** Queries on consistent databases: each reads its own order. *)
Definition q_order (q : query I) : edge_order :=
  match q with
  | QP _ | QPO _ => POS
  | QO _ | QSO _ => OSP
  | _ => SPO
  end.

Lemma in_range_entry_2 U d o a b key r : faire (k := k) ce U d ->
  In (key, r) (brange (key_bounds_2 a b) (idx o d)) <->
  exists t, key = enc o t /\ rid o d t = Some r /\ fst (comps o t) = (a, b).
Proof.
  intros F. unfold om_range. rewrite filter_In. simpl. split.
  - intros [H Hr]. destruct (fe_keys ce _ _ F _ _ _ H) as [t ->]. exists t. split; auto.
    split; [now apply (get_iff_in BC _ _ _ (fe_isorted ce _ _ F o))|].
    pose proof (bounds_2 k a b t) as B. destruct (key_bounds_2 a b) as [lo hi]. simpl in Hr.
    destruct B as (B1 & B2 & B3). destruct o; simpl in *; f_equal; tauto.
  - intros (t & -> & H & Hn). split; [now apply (get_in BC)|].
    pose proof (bounds_2 k a b t) as B. destruct (key_bounds_2 a b) as [lo hi]. simpl.
    destruct B as (B1 & B2 & B3). destruct o; simpl in *; injection Hn; intros; tauto.
Qed.

Lemma entry_hit_fair U d o t r : faire (k := k) ce U d -> rid o d t = Some r ->
  exists e, view o d t = Some e /\ entry_hit d o (enc o t, r) = Some (Ok (t, e)).
Proof.
  intros F Hr. destruct (edge_entry U d o (enc o t) r F) as (t' & e & Ht & _ & He & Hv).
  { now apply (get_in BC). }
  apply enc_inj in Ht. subst t'. exists e. split.
  { unfold SledDb.view. now rewrite Hr. }
  unfold edge_val, entry_hit in *. cbn [fst snd] in *.
  destruct (decode_key (dec o) (enc o t)) as [t0|]; simpl in Hv; [|discriminate].
  destruct (bget r (t_edge d)) as [b|]; simpl in Hv; [|discriminate].
  destruct (de ce b); simpl in Hv |- *; congruence.
Qed.

Lemma range_hit U d o l x (sel : T -> Prop) : faire (k := k) ce U d ->
  (forall key r, In (key, r) l <-> exists t, key = enc o t /\ rid o d t = Some r /\ sel t) ->
  (In x (filter_map (entry_hit d o) l) <-> exists t e, x = Ok (t, e) /\ sel t /\ view o d t = Some e).
Proof.
  intros F Hl. rewrite filter_map_in. split.
  - intros ([key r] & Hin & Hx). apply Hl in Hin. destruct Hin as (t & -> & Hr & Hs).
    destruct (entry_hit_fair U d o t r F Hr) as (e & Hv & Hh). rewrite Hh in Hx. injection Hx as <-. eauto 6.
  - intros (t & e & -> & Hs & Hv). pose proof Hv as Hv'. unfold SledDb.view in Hv'.
    destruct (rid o d t) as [r|] eqn:Hr; [|discriminate].
    exists (enc o t, r). split; [apply Hl; eauto|].
    destruct (entry_hit_fair U d o t r F Hr) as (e' & Hv2 & Hh). rewrite Hh. congruence.
Qed.

Lemma hits_fair U d q x : faire (k := k) ce U d ->
  (In x (s_hits d q) <-> exists t e, x = Ok (t, e) /\ selects q t /\ view (q_order q) d t = Some e).
Proof.
  intros F.
  assert (forall o a, In x (range1 d o a) <-> exists t e, x = Ok (t, e) /\ fst (fst (comps o t)) = a /\ view o d t = Some e) as R1.
  { intros o a. unfold range1. apply (range_hit U d o _ x (fun t => fst (fst (comps o t)) = a) F).
    intros key r. now apply (in_range_entry ce U). }
  assert (forall o a b, In x (range2 d o a b) <-> exists t e, x = Ok (t, e) /\ fst (comps o t) = (a, b) /\ view o d t = Some e) as R2.
  { intros o a b. unfold range2. apply (range_hit U d o _ x (fun t => fst (comps o t) = (a, b)) F).
    intros key r. now apply (in_range_entry_2 U). }
  destruct q as [l|l|l|l|l|l|l|l]; cbn [s_hits selects q_order].
  - split; [intros [] | intros (t & e & _ & [] & _)].
  - rewrite filter_map_in. split.
    + intros ([[s p] o] & Hin & Hx). unfold spo_hit in Hx.
      destruct (rid SPO d (Triple s p o)) as [r|] eqn:Hr; [|discriminate].
      destruct (entry_hit_fair U d SPO _ r F Hr) as (e & Hv & Hh). exists (Triple s p o), e.
      unfold entry_hit in Hh. cbn [fst snd] in Hh. destruct (bget r (t_edge d)) as [b|]; [|discriminate].
      destruct (decode_key (dec SPO) (enc SPO (Triple s p o))) as [t0|]; simpl in Hh; [|discriminate].
      destruct (de ce b); simpl in Hh, Hx; [|discriminate]. injection Hx as <-. injection Hh as -> ->. auto.
    + intros (t & e & -> & Hin & Hv). exists (sub t, pred t, obj t). split; auto. unfold spo_hit.
      destruct t as [s p o]. simpl. pose proof Hv as Hv'. unfold SledDb.view in Hv'.
      destruct (rid SPO d (Triple s p o)) as [r|] eqn:Hr; [|discriminate].
      unfold record in Hv'. destruct (bget r (t_edge d)) as [b|]; [|discriminate].
      destruct (de ce b); simpl in *; congruence.
  - rewrite in_flat_map. setoid_rewrite R1. simpl. split.
    + intros (a & Hin & t & e & -> & <- & Hv). eauto 6.
    + intros (t & e & -> & Hin & Hv). exists (obj t). eauto 8.
  - rewrite in_flat_map. setoid_rewrite R1. simpl. split.
    + intros (a & Hin & t & e & -> & <- & Hv). eauto 6.
    + intros (t & e & -> & Hin & Hv). exists (sub t). eauto 8.
  - rewrite in_flat_map. setoid_rewrite R1. simpl. split.
    + intros (a & Hin & t & e & -> & <- & Hv). eauto 6.
    + intros (t & e & -> & Hin & Hv). exists (pred t). eauto 8.
  - rewrite in_flat_map. setoid_rewrite R2. simpl. split.
    + intros ([a b] & Hin & t & e & -> & H & Hv). simpl in H. injection H as <- <-. eauto 6.
    + intros (t & e & -> & Hin & Hv). exists (pred t, obj t). eauto 8.
  - rewrite in_flat_map. setoid_rewrite R2. simpl. split.
    + intros ([a b] & Hin & t & e & -> & H & Hv). simpl in H. injection H as <- <-. eauto 6.
    + intros (t & e & -> & Hin & Hv). exists (sub t, obj t). eauto 8.
  - rewrite in_flat_map. setoid_rewrite R2. simpl. split.
    + intros ([a b] & Hin & t & e & -> & H & Hv). simpl in H. injection H as <- <-. eauto 6.
    + intros (t & e & -> & Hin & Hv). exists (sub t, pred t). eauto 8.
Qed.

Lemma node_hits_fair d q x : fairn (k := k) cn d ->
  (In x (s_node_hits d q) <-> exists i p, x = Ok (i, p) /\ selects_node q i /\ nod d i = Some p).
Proof.
  intros F. destruct q as [l|l|l|l|l|l|l|l]; cbn [s_node_hits selects_node];
    try (split; [intros [] | intros (i & p & _ & [] & _)]).
  rewrite filter_map_in. unfold node_hit, SledDb.nod. split.
  - intros (i & Hin & Hx). destruct (bget (to_be_bytes i) (t_node d)) as [b|] eqn:Hg; [|discriminate].
    destruct (fn_items cn _ F (to_be_bytes i) b) as (j & p & Hk & Hp); [now apply (get_in BC)|].
    rewrite Hp in Hx. injection Hx as <-. exists i, p. rewrite Hg, Hp. auto.
  - intros (i & p & -> & Hin & Hp). exists i. split; auto.
    destruct (bget (to_be_bytes i) (t_node d)) as [b|]; [|discriminate].
    destruct (de cn b); simpl in *; congruence.
Qed.

Lemma all_ok_map {A} (l : list (result err A)) :
  (forall x, In x l -> exists a, x = Ok a) -> l = map Ok (before_error l).
Proof.
  intros H. apply no_error_map. induction l as [|x l IH]; auto.
  destruct (H x) as [a ->]; simpl; auto. apply IH. intros; apply H; simpl; auto.
Qed.

Lemma in_map_ok {A} (l : list A) a : In (@Ok err A a) (map Ok l) <-> In a l.
Proof.
  rewrite in_map_iff. split; [intros (b & [= ->] & H); auto | eauto].
Qed.

(** The graph shown by one order. *)
Definition g_view (o : edge_order) (d : db) : G := Graph (nod d) (view o d).

Lemma answer_fair U d g q : fair U d ->
  exists r g', s_answer g q d = Ok r /\ sim r g' /\ answers q (g_view (q_order q) d) g'.
Proof.
  intros [F1 F2].
  pose proof (all_ok_map (s_hits d q)) as E1. pose proof (all_ok_map (s_node_hits d q)) as E2.
  specialize (E1 (fun x H => match proj1 (hits_fair U d q x F2) H with
                              ex_intro _ t (ex_intro _ e (conj Hx _)) => ex_intro _ (t, e) Hx end)).
  specialize (E2 (fun x H => match proj1 (node_hits_fair d q x F1) H with
                              ex_intro _ t (ex_intro _ e (conj Hx _)) => ex_intro _ (t, e) Hx end)).
  set (hs := before_error (s_hits d q)) in *. set (ns := before_error (s_node_hits d q)) in *.
  assert (forall t e, In (t, e) hs <-> selects q t /\ view (q_order q) d t = Some e) as Hh.
  { intros t e. rewrite <- (in_map_ok hs (t, e)), <- E1, hits_fair by eauto. split.
    - intros (t' & e' & [= <- <-] & H). exact H.
    - eauto. }
  assert (forall i p, In (i, p) ns <-> selects_node q i /\ nod d i = Some p) as Hn.
  { intros t e. rewrite <- (in_map_ok ns (t, e)), <- E2, node_hits_fair by eauto. split.
    - intros (t' & e' & [= <- <-] & H). exact H.
    - eauto. }
  exists (ins_all hs (insn_all ns (mem_new g))), (gput_all hs (gputn_all ns g_empty)).
  split; [|split].
  - assert (into ins_e (s_hits d q) (mem_new g) = Ok (ins_all hs (mem_new g))) as I1.
    { unfold into. rewrite E1, first_error_ok, before_error_ok. reflexivity. }
    assert (into ins_n (s_node_hits d q) (mem_new g) = Ok (insn_all ns (mem_new g))) as I2.
    { unfold into. rewrite E2, first_error_ok, before_error_ok. reflexivity. }
    destruct q; cbn [s_answer]; [rewrite I2 | rewrite I1..]; reflexivity.
  - apply sim_ins_all, sim_insn_all, sim_new.
  - split.
    + intros n p. rewrite gput_all_node, gputn_all_spec.
      * simpl. rewrite Hn. intuition discriminate.
      * intros t e e'. rewrite !Hn. intuition congruence.
    + intros t e. rewrite gput_all_spec.
      * rewrite gputn_all_edge. rewrite Hh. simpl. intuition discriminate.
      * intros t' e1 e2. rewrite !Hh. intuition congruence.
Qed.

End Read.
