(** How many property records the calls on a SledTripleStore leave behind. *)
From Coq Require Import Arith NArith List Bool Sorted Permutation Lia.
From Verif Require Import Bytes BytesFacts OMap OMapFacts Core IdType IdTypeFacts Store Mem Spec
  CodecFacts ListFacts MemSim History MemTop EqFacts Prog ProgFacts Sled SledHistory SledDb SledOps SledBulk
  SledRun SledRead SledTop SledMain.
Import ListNotations.

Lemma wp_both {D SE A} F (R R' : D -> Prop) (Q Q' : A -> D -> Prop) (p : prog D SE A) : forall d,
  wp F R Q p d -> wp F R' Q' p d -> wp F (fun x => R x /\ R' x) (fun a x => Q a x /\ Q' a x) p d.
Proof.
  induction p as [a|c IH|u c IHc e IHe]; intros d H H'; simpl in *.
  - tauto.
  - auto.
  - destruct H as (H0 & H1 & H2), H' as (H0' & H1' & H2'). split; auto.
Qed.

Section Leak.
Context {k : idkind} {NP EP SE BE E : Type} (cn : codec BE NP) (ce : codec BE EP).
Context (Hcn : codec_ok cn) (Hce : codec_ok ce).
Context (mn : NP -> NP -> NP) (me : EP -> EP -> EP).
Notation I := (Id k).
Notation T := (triple (Id k)).
Notation G := (graph k NP EP).
Notation err := (sled_error SE BE).
Notation P A := (prog db SE A).
Notation PR A := (prog db SE (result err A)).
Notation fair := (fair (k := k) cn ce).
Notation agree := (indexes_agree (k := k)).
Notation sabs := (sabs (k := k) cn ce).
Notation op := (op k NP EP E).
Notation bytes_dec := (list_eq_dec Byte.byte_eq_dec).
Let BC := bytes_cmp_ok.
Implicit Types t u : T.
Implicit Types n : I.
Implicit Types F : SE -> Prop.
Implicit Types U : bytes -> Prop.

(** The records of [L] are stored and belong to no edge; every other record does. *)
Record leaky (L : list bytes) (d : db) : Prop := {
  lk_nodup : NoDup L;
  lk_recs : forall r, bget r (t_edge d) <> None <-> In r L \/ exists t, rid SPO d t = Some r;
  lk_lost : forall r t, In r L -> rid SPO d t <> Some r
}.

Lemma leaky_new : leaky [] db_new.
Proof.
  split; [constructor| |intros r t []]. intros r. simpl. split; [congruence|].
  intros [[]|[t H]]. discriminate.
Qed.

Lemma leaky_node L d v : leaky L d -> leaky L (set_tbl TNode v d).
Proof. intros [H1 H2 H3]. split; auto. Qed.

Lemma leaky_drop old L d : leaky (old :: L) d -> leaky L (d_del_rec old d).
Proof.
  intros [H1 H2 H3]. inversion H1 as [|? ? N1 N2]; subst. split; auto.
  - intros r. unfold d_del_rec. simpl. destruct (bytes_dec r old) as [->|N].
    + rewrite get_remove_eq. split; [congruence|]. intros [H|[t H]]; [contradiction|].
      exfalso. apply (H3 old t); simpl; auto.
    + rewrite (get_remove_neq BC) by auto. rewrite H2. simpl. split.
      * intros [[H|H]|H]; auto. congruence.
      * intros [H|H]; auto.
  - intros r t H. unfold d_del_rec. rewrite rid_edge. apply H3. simpl. auto.
Qed.

Definition with_old (old : option bytes) (L : list bytes) : list bytes :=
  match old with Some r => r :: L | None => L end.

Lemma leaky_put_edge U L d t r b : faire (k := k) ce U d -> ~ U r -> leaky L d ->
  leaky (with_old (rid SPO d t) L) (d_put_edge t r b d).
Proof.
  intros F N [H1 H2 H3].
  assert (forall r', bget r' (t_edge (d_put_edge t r b d)) <> None <-> r' = r \/ bget r' (t_edge d) <> None) as Hk.
  { intros r'. change (t_edge (d_put_edge t r b d)) with (binsert r b (t_edge d)).
    destruct (bytes_dec r' r) as [->|Nr].
    - rewrite (get_insert_eq BC). split; [auto|congruence].
    - rewrite (get_insert_neq BC) by auto. tauto. }
  assert (forall r', In r' L -> r' <> r) as HL.
  { intros r' Hin ->. apply N. apply (fe_used ce _ _ F). apply H2. auto. }
  assert (forall u r', rid SPO (d_put_edge t r b d) u = Some r' <-> (u = t /\ r' = r) \/ (u <> t /\ rid SPO d u = Some r')) as Hr.
  { intros u r'. rewrite rid_put_edge. destruct (triple_eq_dec u t) as [->|Nu].
    - split; [intros [= <-]; auto|]. intros [[_ ->]|[[] _]]; auto.
    - split; auto. intros [[H _]|[_ H]]; [contradiction|auto]. }
  destruct (rid SPO d t) as [old|] eqn:Ho; simpl.
  - assert (~ In old L) as Hold by (intros H; now apply (H3 old t)).
    split.
    + constructor; auto.
    + intros r'. rewrite Hk, H2. split.
      * intros [->|[H|[u Hu]]]; [right; exists t; apply Hr; auto | simpl; auto |].
        destruct (triple_eq_dec u t) as [->|Nu]; [left; simpl; left; congruence|].
        right. exists u. apply Hr. auto.
      * simpl. intros [[<-|H]|[u Hu]]; eauto. apply Hr in Hu. destruct Hu as [[_ ->]|[_ Hu]]; eauto.
    + intros r' u [<-|H] Hu.
      * revert Hu. eapply put_edge_old; eauto.
      * apply Hr in Hu. destruct Hu as [[_ ->]|[_ Hu]]; [now apply (HL r) | now apply (H3 r' u)].
  - split; auto.
    + intros r'. rewrite Hk, H2. split.
      * intros [->|[H|[u Hu]]]; [right; exists t; apply Hr; auto | auto |].
        destruct (triple_eq_dec u t) as [->|Nu]; [congruence|].
        right. exists u. apply Hr. auto.
      * intros [H|[u Hu]]; eauto. apply Hr in Hu. destruct Hu as [[_ ->]|[_ Hu]]; eauto.
    + intros r' u H Hu. apply Hr in Hu. destruct Hu as [[_ ->]|[_ Hu]]; [now apply (HL r) | now apply (H3 r' u)].
Qed.

Lemma leaky_set_edge U L d t r b : faire (k := k) ce U d -> ~ U r -> leaky L d -> leaky L (d_set_edge t r b d).
Proof.
  intros F N H. pose proof (leaky_put_edge U L d t r b F N H) as H'.
  unfold d_set_edge. destruct (rid SPO d t) as [old|]; simpl in *; auto. now apply leaky_drop.
Qed.

Lemma leaky_rm_edge U L d t : faire (k := k) ce U d -> leaky L d -> leaky L (d_rm_edge t d).
Proof.
  intros F [H1 H2 H3]. unfold d_rm_edge. set (d' := d_del_idx OSP t (d_del_idx POS t (d_del_idx SPO t d))).
  assert (forall u, rid SPO d' u = if triple_eq_dec u t then None else rid SPO d u) as Hr.
  { intros u. unfold d'. rewrite !rid_del. destruct (triple_eq_dec u t); reflexivity. }
  assert (leaky (with_old (rid SPO d t) L) d') as H'.
  2: { destruct (rid SPO d t) as [old|]; simpl in *; auto. now apply leaky_drop. }
  assert (t_edge d' = t_edge d) as Ee by reflexivity.
  destruct (rid SPO d t) as [old|] eqn:Ho; simpl.
  - assert (~ In old L) as Hold by (intros H; now apply (H3 old t)).
    split.
    + constructor; auto.
    + intros r. rewrite Ee, H2. split.
      * intros [H|[u Hu]]; [simpl; auto|]. destruct (triple_eq_dec u t) as [->|Nu]; [left; simpl; left; congruence|].
        right. exists u. rewrite Hr. destruct (triple_eq_dec u t); congruence.
      * intros [[<-|H]|[u Hu]]; eauto. rewrite Hr in Hu. destruct (triple_eq_dec u t); [discriminate|eauto].
    + intros r u [<-|H].
      * eapply rm_edge_old; eauto.
      * rewrite Hr. destruct (triple_eq_dec u t); [discriminate|auto].
  - split; auto.
    + intros r. rewrite Ee, H2. split.
      * intros [H|[u Hu]]; [simpl; auto|]. destruct (triple_eq_dec u t) as [->|Nu]; [congruence|].
        right. exists u. rewrite Hr. destruct (triple_eq_dec u t); congruence.
      * intros [H|[u Hu]]; eauto. rewrite Hr in Hu. destruct (triple_eq_dec u t); [discriminate|eauto].
    + intros r u H. rewrite Hr. destruct (triple_eq_dec u t); [discriminate|auto].
Qed.

Lemma leaky_rm_node U L d n : faire (k := k) ce U d -> agree d -> leaky L d -> leaky L (d_rm_node n d).
Proof.
  intros F A [H1 H2 H3]. unfold d_rm_node, d_del_node. apply leaky_node.
  pose proof (rm_node_closed ce U d n F) as Hc. simpl in Hc.
  set (fs := brange (key_bounds_1 n) (t_spo d)) in *. set (bs := brange (key_bounds_1 n) (t_osp d)) in *.
  set (rs := map snd fs ++ map snd bs) in *. set (ts := map (ent SPO) fs ++ map (ent OSP) bs) in *.
  assert (forall t r, In t ts -> rid SPO d t = Some r -> In r rs) as Hts.
  { intros t r Hin Hr. unfold ts, rs in *. rewrite in_app_iff in *. destruct Hin as [Hin|Hin]; [left|right].
    - apply (in_ent ce U d SPO n) in Hin; auto. apply in_map_iff. exists (enc SPO t, r). split; auto.
      apply (in_range_entry ce U d SPO n); auto. exists t. tauto.
    - apply (in_ent ce U d OSP n) in Hin; auto. apply in_map_iff. exists (enc OSP t, r). split; auto.
      apply (in_range_entry ce U d OSP n); auto. exists t. rewrite A. tauto. }
  assert (forall r, In r rs -> exists t, rid SPO d t = Some r) as Hrs.
  { intros r Hin. unfold rs in Hin. rewrite in_app_iff, !in_map_iff in Hin.
    destruct Hin as [([key r'] & <- & H)|([key r'] & <- & H)].
    - apply (in_range_entry ce U d SPO n) in H; auto. destruct H as (u & _ & Hu & _). eauto.
    - apply (in_range_entry ce U d OSP n) in H; auto. destruct H as (u & _ & Hu & _). exists u. now rewrite <- (A OSP). }
  split; auto.
  - intros r. simpl. destruct (in_dec bytes_dec r rs) as [Hin|Hin].
    + rewrite removes_get_in by auto. split; [congruence|]. intros [H|[t Ht]].
      * destruct (Hrs r Hin) as [t Ht]. now apply H3 in Ht.
      * rewrite rid_rm_many in Ht. destruct (in_dec triple_eq_dec t ts) as [|Nt]; [discriminate|].
        exfalso. apply Nt. eapply (Hc SPO); eauto.
    + rewrite removes_get_notin by auto. rewrite H2. split; (intros [H|[t Ht]]; [auto|right; exists t]).
      * rewrite rid_rm_many. destruct (in_dec triple_eq_dec t ts) as [Nt|]; auto. exfalso. eauto.
      * rewrite rid_rm_many in Ht. destruct (in_dec triple_eq_dec t ts); congruence.
  - intros r t H. rewrite rid_rm_many. destruct (in_dec triple_eq_dec t ts); [discriminate|auto].
Qed.

(** ** What a successful call makes of the database *)
Notation any := (fun _ : db => True).
Definition on_ok {A} (Q : db -> Prop) (r : result err A) (x : db) : Prop :=
  match r with Ok _ => Q x | Err _ => True end.

Lemma x_insert_node F n p d : wp F any (on_ok (fun x => exists v, x = set_tbl TNode v d)) (s_insert_node cn n p : PR unit) d.
Proof.
  unfold s_insert_node. apply wp_bind_ok. apply wp_bincode; auto. destruct (ser cn p); simpl; eauto 8.
Qed.

Lemma x_insert_edge F t e h d :
  wp F any (fun rh => on_ok (fun x => exists b, de ce b = Ok e /\ x = d_put_edge t (next_key h) b d) (fst rh))
    (s_insert_edge ce t e h : P (result err unit * handle k)) d.
Proof.
  unfold s_insert_edge, draw, fresh, and_handle. apply wp_bind, wp_bind_ok, wp_bincode; auto.
  destruct (ser ce e) as [b|] eqn:Hs; [|simpl; auto]. apply wp_bind_ok, wp_transaction; simpl; auto.
  split; auto. split; auto. split; auto. exists b. split; [now apply Hce | reflexivity].
Qed.

Lemma x_remove_edge F t d : wp F any (on_ok (fun x => x = d_rm_edge t d)) (s_remove_edge t : PR unit) d.
Proof.
  pose proof (rm_edge_absent t d SPO) as E1. pose proof (rm_edge_absent t d POS) as E2.
  pose proof (rm_edge_absent t d OSP) as E3. simpl enc in *. simpl tab in *.
  unfold s_remove_edge. apply wp_bind_ok. apply wp_transaction; auto; [|simpl; auto].
  rewrite remove_edge_txn_eq. split; auto.
  apply wp_bind_ok. apply wp_tree_remove; auto; [|simpl; auto].
  rewrite rm_absent, E1 by auto. apply wp_bind_ok. apply wp_tree_remove; auto; [|simpl; auto].
  rewrite rm_absent by auto. apply wp_bind_ok. apply wp_tree_remove; auto; [|simpl; auto].
  rewrite rm_absent by auto. simpl. auto.
Qed.

Lemma x_merge_node F n p d : wp F any (on_ok (fun x => exists v, x = set_tbl TNode v d)) (s_merge_node cn mn n p : PR unit) d.
Proof.
  unfold s_merge_node. apply wp_bind_ok. apply wp_transaction; auto; [|simpl; auto].
  unfold merge_node_txn, t_bind, t_get, t_bincode, t_insert, t_ret, t_abort.
  destruct (bget (to_be_bytes n) (tbl TNode d)) as [old|].
  - destruct (de cn old) as [q|]; [|simpl; auto]. destruct (ser cn (mn q p)); simpl; eauto 6.
  - destruct (ser cn p); simpl; eauto 6.
Qed.

Lemma x_merge_edge F U t e h d : fair U d -> ~ U (next_key h) ->
  wp F any (fun rh => on_ok (fun x => exists b, x = d_set_edge t (next_key h) b d) (fst rh))
    (s_merge_edge ce me t e h : P (result err unit * handle k)) d.
Proof.
  intros H N. unfold s_merge_edge, draw, fresh, and_handle. apply wp_bind, wp_bind_ok, wp_transaction; auto; [|simpl; auto].
  fold (next_key h). pose proof (merge_edge_txn_ok (SE := SE) cn ce Hce me U d t (next_key h) e H N) as Ht.
  destruct (merge_edge_txn ce me t (next_key h) e d) as [[[] d']|x]; [|simpl; auto].
  destruct Ht as (b & e' & _ & _ & ->). simpl. eauto 6.
Qed.

Lemma x_extend_edge F t e h d :
  wp F any (fun rh => on_ok (fun x => exists b, x = d_set_edge t (next_ulid h) b d) (fst rh))
    (s_extend_edge ce t e h : P (result err unit * handle k)) d.
Proof.
  unfold s_extend_edge, draw_ulid, fresh, and_handle. apply wp_bind, wp_bind_ok, wp_bincode; auto.
  destruct (ser ce e) as [b|]; [|simpl; auto]. fold (next_ulid h). set (r := next_ulid h).
  assert (rid SPO (d_put_rec r b d) t = rid SPO d t) as Eold by (apply rid_edge).
  apply wp_bind_ok. apply wp_tree_insert; auto; [|simpl; auto].
  apply wp_bind_ok. apply wp_tree_insert; auto; [|simpl; auto].
  apply wp_bind_ok. apply wp_tree_insert; auto; [|simpl; auto].
  apply wp_bind_ok. apply wp_tree_insert; auto; [|simpl; auto].
  change (bget (encode_spo t) _) with (rid SPO (d_put_rec r b d) t). rewrite Eold.
  change (set_tbl TOsp _ _) with (d_put_edge t r b d).
  unfold d_set_edge. destruct (rid SPO d t) as [old|].
  - apply wp_bind_ok. apply wp_tree_remove; auto; [|simpl; auto].
    split; [exact Logic.I|]. split; [exact Logic.I|]. exists b. reflexivity.
  - split; [exact Logic.I|]. split; [exact Logic.I|]. exists b. reflexivity.
Qed.

Lemma x_remove_node F U n d : fair U d ->
  wp F any (on_ok (fun x => x = d_rm_node n d)) (s_remove_node n : PR unit) d.
Proof.
  intros H.
  pose proof (range_good_len ce U d SPO n (proj2 H)) as L1. pose proof (range_good_len ce U d OSP n (proj2 H)) as L2.
  change (idx SPO d) with (t_spo d) in L1. change (idx OSP d) with (t_osp d) in L2.
  unfold s_remove_node. apply wp_bind_ok. cbn [wp].
  eapply wp_mono; [| |apply (wp_forward F any d)]; auto.
  intros r x _ [-> Hr]. destruct r as [b|e]; [|simpl; auto].
  destruct Hr as [_ ->]. apply wp_bind_ok. cbn [wp].
  eapply wp_mono; [| |apply (wp_backward F any d)]; auto.
  intros r x _ [-> Hr]. destruct r as [b|e]; [|simpl; auto].
  destruct Hr as [_ ->]. apply wp_bind_ok. apply wp_transaction; auto; [|simpl; auto].
  fold no_batches. rewrite remove_node_txn_eq by auto. split; auto. simpl. auto.
Qed.

(** ** Loops and whole calls *)
Section Window.
Context (base : bytes -> Prop) (h0 : handle k) (n m : nat).
Notation used := (used base h0).
Notation at_ := (at_ h0).
Notation body_ok := (body_ok (SE := SE) cn ce base h0 n m).
Context (Hnd : NoDup (gkeys h0 n ++ ukeys h0 m)) (Hbase : forall x, In x (gkeys h0 n ++ ukeys h0 m) -> ~ base x).
Context (F : SE -> Prop).

Definition keeps {A} (body : A -> handle k -> P (result err unit * handle k)) (dg du : nat) : Prop :=
  forall a i j d L, i + dg <= n -> j + du <= m -> fair (used i j) d -> agree d -> leaky L d ->
  wp F any (fun rh => on_ok (leaky L) (fst rh)) (body a (at_ i j)) d.

(** A loop in which every turn keeps the lost records. *)
Lemma keeps_for_source {A Er} body (f : A -> G -> G) dg du (l : list (result Er A)) :
  body_ok F (partx cn ce) body f dg du -> keeps body dg du ->
  forall i j d L, i + length (before_error l) * dg <= n -> j + length (before_error l) * du <= m ->
  fair (used i j) d -> agree d -> leaky L d ->
  wp F any (fun rh x => match fst rh with Err (LeftE _) => True | _ =>
      agree x /\ leaky L x /\ exists i' j', snd rh = at_ i' j' /\ i' <= i + length (before_error l) * dg /\
        j' <= j + length (before_error l) * du /\ fair (used i' j') x end)
    (for_source body l (at_ i j)) d.
Proof.
  intros Hb Hk. induction l as [|[a|e] l IH]; intros i j d L Hi Hj H A0 HL.
  - simpl. split; auto. split; auto. split; auto. exists i, j. split; auto. split; [lia|]. split; [lia|auto].
  - cbn [before_error length for_source] in *. apply wp_bind.
    eapply wp_mono; [| |apply wp_both; [apply (Hb a i j d); [lia|lia|exact H] | apply (Hk a i j d L); [lia|lia|auto..]]]; auto.
    intros [r h] x _ [(Eh & Hf & Hr) Hx]. simpl in Eh, Hr, Hx |- *. subst h. destruct r as [[]|er]; simpl; auto.
    destruct (Hr A0) as [Ax _]. eapply wp_mono; [| |apply (IH (i + dg) (j + du) x L); auto; lia]; auto.
    intros [r h] y _ Hy. simpl in *. destruct r as [[]|[el|er]]; auto.
    + destruct Hy as (H1 & H2 & i' & j' & H3 & H4 & H5 & H6). split; auto. split; auto. exists i', j'.
      split; auto. split; [lia|]. split; [lia|auto].
    + destruct Hy as (H1 & H2 & i' & j' & H3 & H4 & H5 & H6). split; auto. split; auto. exists i', j'.
      split; auto. split; [lia|]. split; [lia|auto].
  - simpl. split; auto. split; auto. split; auto. exists i, j. split; auto. split; [lia|]. split; [lia|auto].
Qed.

Lemma keeps_nodes_edges {Er} fn fe f1 f2 dg du (s : source k NP EP Er) :
  body_ok F (partx cn ce) fn f1 0 0 -> keeps fn 0 0 ->
  body_ok F (partx cn ce) fe f2 dg du -> keeps fe dg du ->
  forall i j d L, i + length (before_error (src_edges s)) * dg <= n ->
  j + length (before_error (src_edges s)) * du <= m ->
  fair (used i j) d -> agree d -> leaky L d ->
  wp F any (fun rh x => match fst rh with Err (LeftE _) => True | _ => leaky L x end)
    (for_nodes_edges fn fe s (at_ i j)) d.
Proof.
  intros B1 K1 B2 K2 i j d L Hi Hj H A0 HL. unfold for_nodes_edges. apply wp_bind.
  eapply wp_mono; [| |apply (keeps_for_source fn f1 0 0 (src_nodes s) B1 K1 i j d L); auto; lia]; auto.
  intros [r h] x _ Hx. cbn [fst snd] in *. destruct r as [[]|[el|er]]; simpl; auto.
  - destruct Hx as (Ax & Lx & i' & j' & -> & H1 & H2 & Hf).
    eapply wp_mono; [| |apply (keeps_for_source fe f2 dg du (src_edges s) B2 K2 i' j' x L); auto; lia]; auto.
    intros [r h] y _ Hy. cbn [fst snd] in *. destruct r as [[]|[el|er]]; auto; apply Hy.
  - split; auto. apply Hx.
Qed.

Definition replaces (o : op) (g : G) : nat :=
  match o with
  | OInsertEdge t _ => match g_edge g t with Some _ => 1 | None => 0 end
  | _ => 0
  end.

Lemma lift_leaky (Q : db -> Prop) (p : P (result err unit * handle k)) d :
  wp F any (fun rh => on_ok Q (fst rh)) p d ->
  wp F any (fun rh x => ~ failed (E := E) (fst rh) -> Q x) (lift p) d.
Proof.
  intros H. unfold lift. apply wp_bind. eapply wp_mono; [| |exact H]; auto.
  intros [r h] x _ Hr. simpl in *. split; auto. intros Hn. destruct r as [[]|e]; simpl in *; auto. contradiction.
Qed.

Lemma handle_ok (Q : db -> Prop) (h : handle k) (p : PR unit) d :
  wp F any (on_ok Q) p d -> wp F any (fun rh => on_ok Q (fst rh)) (and_handle h p) d.
Proof.
  intros H. unfold and_handle. apply wp_bind. eapply wp_mono; [| |exact H]; auto.
  intros r x _ Hr. simpl. auto.
Qed.

Lemma wp_replaces (o : op) i j d L : i + draws o <= n -> j + draws_ulid o <= m ->
  fair (used i j) d -> agree d -> leaky L d ->
  wp F any (fun rh x => ~ failed (fst rh) -> exists L', leaky L' x /\ length L' = length L + replaces o (sabs d))
    (sled_apply cn ce mn me o (at_ i j)) d.
Proof.
  intros Hi Hj H A0 HL.
  assert (forall x, leaky L x -> exists L', leaky L' x /\ length L' = length L + 0) as Hsame.
  { intros x Hx. exists L. split; auto. }
  pose proof (between_partx (k := k) (NP := NP) (EP := EP) (BE := BE) cn ce) as HR0.
  pose proof (part_partx (k := k) (NP := NP) (EP := EP) (BE := BE) cn ce) as Hpart.
  assert (forall i j, at_ (i + 0) (j + 0) = at_ i j) as A00 by (intros; now rewrite !Nat.add_0_r).
  destruct o as [v p|t e|v|t|v p|t e|s|s]; cbn [draws draws_ulid sled_apply replaces] in *.
  - apply lift_leaky, handle_ok. eapply wp_mono; [| |apply x_insert_node]; auto.
    intros [[]|e] x _; simpl; auto. intros [b ->]. apply Hsame. now apply leaky_node.
  - apply lift_leaky. eapply wp_mono; [| |apply x_insert_edge]; auto.
    intros [[[]|er] h] x _; simpl; auto. intros (b & _ & ->). exists (with_old (rid SPO d t) L). split.
    + eapply leaky_put_edge; [apply H| |exact HL]. apply (fresh_gen base h0 n m Hnd Hbase); lia.
    + unfold SledDb.view. destruct (rid SPO d t) as [r|] eqn:Hr; simpl; [|lia].
      pose proof (fe_rec ce _ _ (proj2 H) _ _ _ Hr) as Hrec. destruct (SledDb.record ce d r); [lia|congruence].
  - apply lift_leaky, handle_ok. eapply wp_mono; [| |apply (x_remove_node F _ v d H)]; auto.
    intros [[]|e] x _; simpl; auto. intros ->. apply Hsame. eapply leaky_rm_node; eauto. apply H.
  - apply lift_leaky, handle_ok. eapply wp_mono; [| |apply x_remove_edge]; auto.
    intros [[]|e] x _; simpl; auto. intros ->. apply Hsame. eapply leaky_rm_edge; eauto. apply H.
  - apply lift_leaky, handle_ok. eapply wp_mono; [| |apply x_merge_node]; auto.
    intros [[]|e] x _; simpl; auto. intros [b ->]. apply Hsame. now apply leaky_node.
  - apply lift_leaky. eapply wp_mono; [| |apply (x_merge_edge F (used i j) t e (at_ i j) d H)]; auto.
    + intros [[[]|er] h] x _; simpl; auto. intros (b & ->). apply Hsame.
      eapply leaky_set_edge; [apply H| |exact HL]. apply (fresh_gen base h0 n m Hnd Hbase); lia.
    + apply (fresh_gen base h0 n m Hnd Hbase); lia.
  - unfold s_extend. eapply wp_mono; [| |apply (keeps_nodes_edges
      (fun ip h => and_handle h (s_extend_node cn (fst ip) (snd ip)))
      (fun te h => s_extend_edge ce (fst te) (snd te) h)
      (fun ip => g_put_node (fst ip) (snd ip)) (fun te => g_put_edge (fst te) (snd te)) 0 1 s); eauto; try lia]; auto.
    + intros [r h] x _ Hx Hn. simpl in *. apply Hsame. destruct r as [[]|[]]; auto. simpl in Hn. contradiction.
    + apply wp_body; auto. intros [v p] i0 j0 d0 Hi0 Hj0 H0. rewrite A00, !Nat.add_0_r.
      apply wp_and_handle. simpl fst. simpl snd. apply wp_insert_node; auto.
    + intros [v p] i0 j0 d0 L0 _ _ _ _ H0. apply handle_ok. eapply wp_mono; [| |apply x_insert_node]; auto.
      intros [[]|e] x _; simpl; auto. intros [b ->]. now apply leaky_node.
    + intros [t e] i0 j0 d0 Hi0 Hj0 H0. cbn [fst snd].
      replace (i0 + 0) with i0 by lia. replace (j0 + 1) with (S j0) by lia.
      eapply wp_mono; [| |apply (wp_extend_edge cn ce Hce F (used i0 j0)); [exact H0 | apply (fresh_ulid base h0 n m Hnd Hbase); lia]].
      * intros x Hn. apply nearx_partx in Hn. destruct Hn as [H1 H2]. split; auto.
        eapply fair_mono; [|exact H1]. intros r Hr. apply used_ulid in Hr. apply (used_mono base h0 n m Hbase i0 (S j0)); auto; lia.
      * intros [r h] x [Hn1 Hn2] [Eh [Ha Hr]]. simpl in Eh, Ha, Hr |- *. subst h. split; [apply at_ulid|].
        split; [eapply fair_mono; [|exact Hn1]; intros r' Hr'; now apply used_ulid|].
        destruct r as [[]|er]; auto.
    + intros [t e] i0 j0 d0 L0 Hi0 Hj0 F0 _ H0. eapply wp_mono; [| |apply x_extend_edge]; auto.
      intros [[[]|er] h] x _; simpl; auto. intros (b & ->).
      eapply leaky_set_edge; [apply F0| |exact H0]. apply (fresh_ulid base h0 n m Hnd Hbase); lia.
  - unfold s_merge. eapply wp_mono; [| |apply (keeps_nodes_edges
      (fun ip h => and_handle h (s_merge_node cn mn (fst ip) (snd ip)))
      (fun te h => s_merge_edge ce me (fst te) (snd te) h)
      (fun ip => g_merge_node mn (fst ip) (snd ip)) (fun te => g_merge_edge me (fst te) (snd te)) 1 0 s); eauto; try lia]; auto.
    + intros [r h] x _ Hx Hn. simpl in *. apply Hsame. destruct r as [[]|[]]; auto. simpl in Hn. contradiction.
    + apply wp_body; auto. intros [v p] i0 j0 d0 Hi0 Hj0 H0. rewrite A00, !Nat.add_0_r.
      apply wp_and_handle. simpl fst. simpl snd. apply wp_merge_node; auto.
    + intros [v p] i0 j0 d0 L0 _ _ _ _ H0. apply handle_ok. eapply wp_mono; [| |apply x_merge_node]; auto.
      intros [[]|e] x _; simpl; auto. intros [b ->]. now apply leaky_node.
    + apply wp_body; auto. intros [t e] i0 j0 d0 Hi0 Hj0 H0. cbn [fst snd].
      replace (j0 + 0) with j0 by lia. replace (i0 + 1) with (S i0) by lia.
      rewrite <- at_gen. apply used_gen_wp. apply wp_merge_edge; auto. apply (fresh_gen base h0 n m Hnd Hbase); lia.
    + intros [t e] i0 j0 d0 L0 Hi0 Hj0 F0 _ H0.
      assert (~ used i0 j0 (next_key (at_ i0 j0))) as N by (apply (fresh_gen base h0 n m Hnd Hbase); lia).
      eapply wp_mono; [| |apply (x_merge_edge F (used i0 j0) t e (at_ i0 j0) d0 F0 N)]; auto.
      intros [[[]|er] h] x _; simpl; auto. intros (b & ->). eapply leaky_set_edge; [apply F0|exact N|exact H0].
Qed.

Lemma replacements_equiv (l : list op) : forall g g', g_equiv g g' -> replacements mn me l g = replacements mn me l g'.
Proof.
  induction l as [|o l IH]; intros g g' H; cbn [replacements]; auto. f_equal.
  - destruct o; auto. destruct H as [_ H]. now rewrite H.
  - apply IH. rewrite <- !op_steps_spec. apply run_steps_equiv; auto. apply op_steps_proper.
Qed.

Lemma wp_leaks (l : list op) : forall i j d L,
  i + sum (map draws l) <= n -> j + sum (map draws_ulid l) <= m -> fair (used i j) d -> agree d -> leaky L d ->
  wp F any
    (fun rsh x => (forall r, In r (fst rsh) -> ~ failed r) ->
       exists L', leaky L' x /\ length L' = length L + replacements mn me l (sabs d))
    (sled_history cn ce mn me l (at_ i j)) d.
Proof.
  induction l as [|o l IH]; intros i j d L Hi Hj H A0 HL; simpl in Hi, Hj |- *.
  - split; auto. intros _. exists L. split; auto.
  - apply wp_bind.
    pose proof (wp_op cn ce Hcn Hce mn me base h0 n m Hnd Hbase F (partx cn ce) (between_partx cn ce)
      (part_partx cn ce) o (or_intror (fun _ _ _ Hp => Hp)) i j d) as W.
    eapply wp_mono; [| |apply wp_both; [apply W; auto; lia | apply (wp_replaces o i j d L); auto; lia]]; auto.
    intros [r h] x _ [(i' & j' & Hi' & Hj' & Eh & Hf & Hr) Hx]. simpl in Eh, Hr, Hx. subst h. cbn [fst snd].
    assert (failed r \/ ~ failed r) as [Hfl|Hfl] by (destruct r as [[]|[]]; simpl; auto).
    + apply wp_bind. eapply wp_mono; [| |apply wp_faults with (F := F), (wp_history cn ce Hcn Hce mn me base h0 n m Hnd Hbase F l i' j' x); auto; lia]; auto.
      intros [rs h] y _ _. simpl. split; auto. intros Hno. exfalso. apply (Hno r); auto.
    + destruct (Hx Hfl) as (L1 & HL1 & Hlen).
      assert (agree x /\ g_equiv (sabs x) (run_steps (op_steps mn me o) (sabs d))) as [Ax Gx].
      { destruct r as [[]|[e|e]]; try (now apply Hr). exfalso. apply Hfl. exact Logic.I. }
      apply wp_bind. eapply wp_mono; [| |apply (IH i' j' x L1); auto; lia]; auto.
      intros [rs h] y _ Hy. cbn [fst snd In wp] in *. split; auto. intros Hno. destruct Hy as (L2 & HL2 & Hlen2); [intros; apply Hno; auto|].
      exists L2. split; auto. rewrite op_steps_spec in Gx. rewrite Hlen2, Hlen, (replacements_equiv l _ _ Gx).
      symmetry. apply Nat.add_assoc.
Qed.

End Window.

(** ** Counting *)
Lemma map_NoDup {A B} (f : A -> B) (l : list A) :
  (forall x y, In x l -> In y l -> f x = f y -> x = y) -> NoDup l -> NoDup (map f l).
Proof.
  intros Hf. induction 1 as [|x l Hx ND IH]; simpl; constructor.
  - intros H. apply in_map_iff in H. destruct H as (y & Hy & Hin). apply Hx.
    assert (y = x) as <-; auto. apply Hf; simpl; auto.
  - apply IH. intros; apply Hf; simpl; auto.
Qed.

Lemma listed_count U d L o : SledDb.fair (k := k) cn ce U d -> leaky L d ->
  lists_edges o (now SE (s_iter_edges (k := k) (BE := BE) ce o) d) (g_edge (SledDb.sabs (k := k) cn ce d)) ->
  length (t_edge d) = length (now SE (s_iter_edges (k := k) (BE := BE) ce o) d) + length L.
Proof.
  intros [_ Fe] [H1 H2 H3] (es & -> & Ses & Hes). rewrite map_length.
  set (f := fun te : T * EP => match rid SPO d (fst te) with Some i => i | None => [] end).
  assert (forall t e, In (t, e) es -> exists r, rid SPO d t = Some r /\ f (t, e) = r) as Hf.
  { intros t e Hin. apply Hes in Hin. simpl in Hin. unfold SledDb.view in Hin. unfold f. simpl.
    destruct (rid SPO d t) as [r|]; [eauto|discriminate]. }
  assert (forall r, In r (map fst (t_edge d)) <-> bget r (t_edge d) <> None) as Hk.
  { intros r. rewrite in_map_iff. split.
    - intros ([r' v] & <- & Hin). apply (get_iff_in BC _ _ _ (fe_sorted ce _ _ Fe)) in Hin. simpl. congruence.
    - intros H. destruct (bget r (t_edge d)) as [v|] eqn:Hv; [|congruence]. exists (r, v). split; auto.
      now apply (get_in BC). }
  assert (Permutation (map fst (t_edge d)) (map f es ++ L)) as Pm.
  { apply NoDup_Permutation.
    - apply map_NoDup.
      + intros [a v] [b w] Ha Hb E0. simpl in E0. subst b. f_equal.
        apply (get_iff_in BC _ _ _ (fe_sorted ce _ _ Fe)) in Ha, Hb. congruence.
      + eapply sorted_NoDup; [|exact (fe_sorted ce _ _ Fe)]. intros x Hx. unfold key_lt in Hx.
        rewrite (cmp_refl BC) in Hx. discriminate.
    - apply NoDup_app_iff. split; [|split; [exact H1|]].
      + apply map_NoDup.
        * intros [t e] [u e'] Ht Hu E0. destruct (Hf _ _ Ht) as (r & Hr & Er). destruct (Hf _ _ Hu) as (r' & Hr' & Er').
          assert (t = u) as -> by (apply (fe_inj ce _ _ Fe SPO SPO t u r); congruence).
          f_equal. apply Hes in Ht, Hu. congruence.
        * eapply sorted_NoDup; [|exact Ses]. intros x. apply edge_lt_irr.
      + intros r Hin HL. apply in_map_iff in Hin. destruct Hin as ([t e] & Er & Hin).
        destruct (Hf _ _ Hin) as (r' & Hr & Er'). apply (H3 r t HL). congruence.
    - intros r. rewrite Hk, H2, in_app_iff. split.
      + intros [H|[t Ht]]; auto. left. pose proof (fe_rec ce _ _ Fe _ _ _ Ht) as Hrec.
        destruct (SledDb.record ce d r) as [e|] eqn:He; [|congruence].
        assert (In (t, e) es) as Hin by (apply Hes; simpl; unfold SledDb.view; now rewrite Ht).
        apply in_map_iff. exists (t, e). split; auto. unfold f. simpl. now rewrite Ht.
      + intros [H|H]; auto. right. apply in_map_iff in H. destruct H as ([t e] & <- & Hin).
        destruct (Hf _ _ Hin) as (r & Hr & Er). exists t. congruence. }
  apply Permutation_length in Pm. rewrite app_length, !map_length in Pm. exact Pm.
Qed.

Lemma leaky_count U d L o : sgood (k := k) cn ce U d -> leaky L d ->
  length (t_edge d) = length (now SE (s_iter_edges (k := k) (BE := BE) ce o) d) + length L.
Proof.
  intros Hg HL. pose proof (good_shows (SE := SE) cn ce U d Hg) as [_ S]. destruct Hg as [Hf A].
  exact (listed_count U d L o Hf HL (S o)).
Qed.

End Leak.

Section Top.
Context {k : idkind} {NP EP SE BE E : Type} (cn : codec BE NP) (ce : codec BE EP).
Context (mn : NP -> NP -> NP) (me : EP -> EP -> EP).
Notation op := (op k NP EP E).
Notation hist := (sled_history (SE := SE) cn ce mn me).

Lemma history_leak (h : handle k) (l : list op) faults o :
  codec_ok cn -> codec_ok ce -> NoDup (history_keys h l) ->
  (forall r, In r (fst (ret_of (hist l h) faults db_new)) -> ~ failed r) ->
  let d := db_of (hist l h) faults db_new in
  length (t_edge d) = length (now SE (s_iter_edges (k := k) (BE := BE) ce o) d) + replacements mn me l g_empty.
Proof.
  intros Hn He Hd Hno. destruct (good_new (k := k) cn ce nothing) as [G0 A0].
  destruct (good_history cn ce mn me h l faults Hn He Hd Hno) as (_ & U & Hg & _).
  pose proof (wp_leaks cn ce Hn He mn me nothing h (sum (map draws l)) (sum (map draws_ulid l)) Hd (fun _ _ H => H)
    (fun _ : SE => True) l 0 0 db_new []) as W.
  assert (at_ h 0 0 = h) as E0 by (destruct h as [[] []]; unfold at_; simpl; now rewrite !Nat.add_0_r).
  rewrite E0 in W.
  assert (forall r, used nothing h 0 0 r <-> nothing r) as Hu.
  { intros r. unfold used, gkeys, ukeys, next_ids. simpl. tauto. }
  assert (fair (k := k) cn ce (used nothing h 0 0) db_new) as F0.
  { eapply fair_mono; [|exact G0]. intros r. apply Hu. }
  specialize (W (le_n _) (le_n _) F0 A0 leaky_new).
  destruct (wp_exec _ _ _ _ faults db_new (allowed_all _) W) as (_ & H & _).
  destruct (H Hno) as (L & HL & Hlen). intros d. unfold d. rewrite (leaky_count (SE := SE) cn ce U _ L o Hg HL), Hlen. simpl.
  now rewrite (replacements_equiv mn me l _ _ (abs_new cn ce)).
Qed.

End Top.
