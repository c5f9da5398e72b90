(** How many property records are left behind at most, whatever fails and whenever the process dies. *)
From Coq Require Import Arith NArith List Bool Sorted Permutation Lia.
From Verif Require Import Bytes BytesFacts OMap OMapFacts Core IdType IdTypeFacts Store Mem Spec
  CodecFacts ListFacts MemSim History MemTop EqFacts Prog ProgFacts Sled SledHistory SledDb SledOps SledBulk
  SledRun SledRead SledTop SledMain SledLeak.
Import ListNotations.

Section Any.
Context {k : idkind} {NP EP SE BE E : Type} (cn : codec BE NP) (ce : codec BE EP).
Context (Hcn : codec_ok cn) (Hce : codec_ok ce).
Context (mn : NP -> NP -> NP) (me : EP -> EP -> EP).
Notation I := (Id k).
Notation T := (triple (Id k)).
Notation G := (graph k NP EP).
Notation err := (sled_error SE BE).
Notation P A := (prog db SE A).
Notation PR A := (prog db SE (result err A)).
Notation fair := (fair (k := k) cn ce).
Notation op := (op k NP EP E).
Notation outcome := (outcome (SE := SE) (BE := BE) (E := E)).
Notation bytes_dec := (list_eq_dec Byte.byte_eq_dec).
Let BC := bytes_cmp_ok.
Implicit Types t u : T.
Implicit Types n : I.
Implicit Types F : SE -> Prop.
Implicit Types U : bytes -> Prop.

(** Every stored record is one of [L] or belongs to an edge of the SPO order. *)
Definition cov (L : list bytes) (d : db) : Prop :=
  forall r, bget r (t_edge d) <> None -> In r L \/ exists t, rid SPO d t = Some r.
Definition spare (c : nat) (d : db) : Prop := exists L, length L <= c /\ cov L d.

Lemma spare_mono c c' d : c <= c' -> spare c d -> spare c' d.
Proof. intros H (L & H1 & H2). exists L. split; auto. lia. Qed.
Lemma cov_spare L d : cov L d -> spare (length L) d.
Proof. intros H. exists L. auto. Qed.

Lemma cov_new : cov [] db_new.
Proof. intros r. simpl. congruence. Qed.
Lemma cov_node L d v : cov L d -> cov L (set_tbl TNode v d).
Proof. exact (fun H => H). Qed.
Lemma cov_rec L d r b : cov L d -> cov (r :: L) (d_put_rec r b d).
Proof.
  intros H r'. change (t_edge (d_put_rec r b d)) with (binsert r b (t_edge d)).
  destruct (bytes_dec r' r) as [->|N]; [simpl; auto|].
  rewrite (get_insert_neq BC) by auto. intros Hr. destruct (H r' Hr) as [?|[t Ht]]; simpl; auto. right. exists t. exact Ht.
Qed.
Lemma cov_spo L d t r : cov (r :: L) d -> cov (with_old (rid SPO d t) L) (d_put_idx SPO t r d).
Proof.
  intros H r' Hr. change (t_edge (d_put_idx SPO t r d)) with (t_edge d) in Hr.
  destruct (H r' Hr) as [[<-|Hin]|[u Hu]].
  - right. exists t. rewrite rid_put. destruct (order_dec SPO SPO), (triple_eq_dec t t); congruence.
  - left. destruct (rid SPO d t); simpl; auto.
  - destruct (triple_eq_dec u t) as [->|N].
    + left. rewrite Hu. simpl. auto.
    + right. exists u. rewrite rid_put. destruct (order_dec SPO SPO); [|congruence]. destruct (triple_eq_dec u t); congruence.
Qed.
Lemma cov_pos L d t r : cov L d -> cov L (d_put_idx POS t r d).
Proof. exact (fun H => H). Qed.
Lemma cov_osp L d t r : cov L d -> cov L (d_put_idx OSP t r d).
Proof. exact (fun H => H). Qed.
Lemma cov_drop L d r : cov (r :: L) d -> cov L (d_del_rec r d).
Proof.
  intros H r'. change (t_edge (d_del_rec r d)) with (bremove r (t_edge d)). destruct (bytes_dec r' r) as [->|N].
  - rewrite get_remove_eq. congruence.
  - rewrite (get_remove_neq BC) by auto. intros Hr. destruct (H r' Hr) as [[->|?]|[t Ht]]; auto; [congruence|].
    right. exists t. exact Ht.
Qed.
Lemma cov_del L d t : cov L d -> cov (with_old (rid SPO d t) L) (d_del_idx OSP t (d_del_idx POS t (d_del_idx SPO t d))).
Proof.
  intros H r' Hr. change (bget r' (t_edge d) <> None) in Hr.
  destruct (H r' Hr) as [Hin|[u Hu]].
  - left. destruct (rid SPO d t); simpl; auto.
  - destruct (triple_eq_dec u t) as [->|N].
    + left. rewrite Hu. simpl. auto.
    + right. exists u. rewrite !rid_del. destruct (triple_eq_dec u t); [congruence|]. exact Hu.
Qed.

Lemma cov_put_edge L d t r b : cov L d -> cov (with_old (rid SPO d t) L) (d_put_edge t r b d).
Proof.
  intros H. unfold d_put_edge. apply cov_osp, cov_pos. rewrite <- (rid_edge SPO d (binsert r b (t_edge d)) t).
  apply cov_spo. now apply cov_rec.
Qed.
Lemma cov_set_edge L d t r b : cov L d -> cov L (d_set_edge t r b d).
Proof.
  intros H. pose proof (cov_put_edge L d t r b H) as H1. unfold d_set_edge.
  destruct (rid SPO d t); simpl in *; auto. now apply cov_drop.
Qed.
Lemma cov_rm_edge L d t : cov L d -> cov L (d_rm_edge t d).
Proof.
  intros H. pose proof (cov_del L d t H) as H1. unfold d_rm_edge.
  destruct (rid SPO d t); simpl in *; auto. now apply cov_drop.
Qed.

(** remove_node drops the record of the OSP order of an edge that it finds there. *)
Definition same_rec (r : bytes) (kv : bytes * bytes) : bool := if bytes_dec (snd kv) r then true else false.
Definition instead (d : db) (bs : list (bytes * bytes)) (r : bytes) : bytes :=
  match find (same_rec r) bs with
  | Some kv => match rid (k := k) SPO d (ent OSP kv) with Some r' => r' | None => r end
  | None => r
  end.

Lemma spare_rm_node U c d n : faire (k := k) ce U d -> spare c d -> spare c (d_rm_node n d).
Proof.
  intros F (L & Hc & H). unfold d_rm_node, d_del_node.
  set (fs := brange (key_bounds_1 n) (t_spo d)) in *. set (bs := brange (key_bounds_1 n) (t_osp d)) in *.
  set (rs := map snd fs ++ map snd bs) in *. set (ts := map (ent SPO) fs ++ map (ent OSP) bs) in *.
  assert (forall r, bget r (t_edge d) <> None -> ~ In r rs -> In r L -> In r (map (instead d bs) L)) as Hsame.
  { intros r _ N Hin. apply in_map_iff. exists r. split; auto. unfold instead.
    destruct (find (same_rec r) bs) as [kv|] eqn:Hf; auto. apply find_some in Hf. destruct Hf as [Hf1 Hf2]. unfold same_rec in Hf2.
    destruct (bytes_dec (snd kv) r) as [E0|]; [|discriminate]. exfalso. apply N. unfold rs. apply in_app_iff. right.
    apply in_map_iff. eauto. }
  exists (map (instead d bs) L). split; [now rewrite map_length|]. apply cov_node. intros r Hr. simpl in Hr.
  destruct (in_dec bytes_dec r rs) as [Hin|Hin]; [rewrite removes_get_in in Hr by auto; congruence|].
  rewrite removes_get_notin in Hr by auto.
  destruct (H r Hr) as [HL|[t Ht]]; [left; now apply Hsame|].
  destruct (in_dec triple_eq_dec t ts) as [Nt|Nt].
  2: { right. exists t. rewrite rid_rm_many. destruct (in_dec triple_eq_dec t ts); congruence. }
  left. unfold ts in Nt. apply in_app_iff in Nt. destruct Nt as [Nt|Nt].
  - exfalso. apply Hin. unfold rs. apply in_app_iff. left. apply in_map_iff. exists (enc SPO t, r). split; auto.
    apply (in_ent ce U d SPO n) in Nt; auto. apply (in_range_entry ce U d SPO n); auto. exists t. tauto.
  - apply in_map_iff in Nt. destruct Nt as ([key r2] & Et & Hb).
    assert (In r2 rs) as Hr2 by (unfold rs; apply in_app_iff; right; apply in_map_iff; exists (key, r2); auto).
    pose proof Hb as Hb'. apply (in_range_entry ce U d OSP n) in Hb; auto. destruct Hb as (u & -> & Hu & _).
    assert (u = t) as -> by (rewrite <- Et; symmetry; apply (dec_enc OSP u)).
    assert (bget r2 (t_edge d) <> None) as Hs.
    { pose proof (fe_rec ce _ _ F _ _ _ Hu) as Hrec. unfold SledDb.record in Hrec. destruct (bget r2 (t_edge d)); congruence. }
    destruct (H r2 Hs) as [HL|[v Hv]].
    2: { assert (v = t) as -> by (eapply (fe_inj ce _ _ F); eauto). assert (r2 = r) as -> by congruence. contradiction. }
    apply in_map_iff. exists r2. split; auto. unfold instead.
    destruct (find (same_rec r2) bs) as [[key' r3]|] eqn:Hf.
    + apply find_some in Hf. destruct Hf as [Hf1 Hf2]. unfold same_rec in Hf2. simpl in Hf2. destruct (bytes_dec r3 r2) as [->|]; [|discriminate].
      apply (in_range_entry ce U d OSP n) in Hf1; auto. destruct Hf1 as (v & -> & Hv & _).
      assert (v = t) as -> by (eapply (fe_inj ce _ _ F); eauto).
      rewrite Et. now rewrite Ht.
    + exfalso. pose proof (find_none _ _ Hf _ Hb') as Hn. unfold same_rec in Hn. simpl in Hn. destruct (bytes_dec r2 r2); congruence.
Qed.

(** ** Calls *)
Definition ok_then {A} (Q : db -> Prop) (r : result err A) (x : db) : Prop :=
  match r with Ok _ => Q x | Err _ => True end.

Lemma a_insert_node F c n p d : spare c d -> wp F (spare c) (ok_then (spare c)) (s_insert_node cn n p : PR unit) d.
Proof.
  intros H. unfold s_insert_node. apply wp_bind_ok. apply wp_bincode; auto. destruct (ser cn p); simpl; auto.
Qed.

Lemma a_merge_node F c n p d : spare c d -> wp F (spare c) (ok_then (spare c)) (s_merge_node cn mn n p : PR unit) d.
Proof.
  intros H. unfold s_merge_node. apply wp_bind_ok. apply wp_transaction; auto; [|simpl; auto].
  unfold merge_node_txn, t_bind, t_get, t_bincode, t_insert, t_ret, t_abort.
  destruct (bget (to_be_bytes n) (tbl TNode d)) as [old|].
  - destruct (de cn old) as [q|]; [|simpl; auto]. destruct (ser cn (mn q p)); simpl; auto.
  - destruct (ser cn p); simpl; auto.
Qed.

Lemma a_insert_edge F c t e h d : spare c d ->
  wp F (spare (S c)) (fun rh => ok_then (spare (S c)) (fst rh)) (s_insert_edge ce t e h : P (result err unit * handle k)) d.
Proof.
  intros H. assert (spare (S c) d) as H1 by (eapply spare_mono; [|exact H]; lia).
  unfold s_insert_edge, draw, fresh, and_handle. apply wp_bind, wp_bind_ok, wp_bincode; auto.
  destruct (ser ce e) as [b|] eqn:Hs; [|simpl; auto]. apply wp_bind_ok, wp_transaction; simpl; auto.
  assert (forall r, spare (S c) (d_put_edge t r b d)) as Hp.
  { intros r. destruct H as (L & HL & Hc). exists (with_old (rid SPO d t) L).
    split; [destruct (rid SPO d t); simpl; lia|]. now apply cov_put_edge. }
  split; [apply Hp|]. split; [apply Hp|]. split; apply Hp.
Qed.

Lemma a_merge_edge F U c t e h d : fair U d -> ~ U (next_key h) -> spare c d ->
  wp F (spare c) (fun rh => ok_then (spare c) (fst rh)) (s_merge_edge ce me t e h : P (result err unit * handle k)) d.
Proof.
  intros H N Hs. unfold s_merge_edge, draw, fresh, and_handle. apply wp_bind, wp_bind_ok, wp_transaction; auto; [|simpl; auto].
  fold (next_key h). pose proof (merge_edge_txn_ok (SE := SE) cn ce Hce me U d t (next_key h) e H N) as Ht.
  destruct (merge_edge_txn ce me t (next_key h) e d) as [[[] d']|x]; [|simpl; auto].
  destruct Ht as (b & e' & _ & _ & ->). assert (spare c (d_set_edge t (next_key h) b d)).
  { destruct Hs as (L & HL & Hc). exists L. split; auto. now apply cov_set_edge. }
  simpl. auto.
Qed.

Lemma a_remove_edge F c t d : spare c d -> wp F (spare c) (ok_then (spare c)) (s_remove_edge t : PR unit) d.
Proof.
  intros Hs.
  assert (spare c (d_rm_edge t d)) as H.
  { destruct Hs as (L & HL & Hc). exists L. split; auto. now apply cov_rm_edge. }
  pose proof (rm_edge_absent t d SPO) as E1. pose proof (rm_edge_absent t d POS) as E2.
  pose proof (rm_edge_absent t d OSP) as E3. simpl enc in *. simpl tab in *.
  unfold s_remove_edge. apply wp_bind_ok. apply wp_transaction; auto; [|simpl; auto].
  rewrite remove_edge_txn_eq. split; auto.
  apply wp_bind_ok. apply wp_tree_remove; [auto|now rewrite rm_absent| |simpl; auto].
  rewrite rm_absent, E1 by auto. apply wp_bind_ok. apply wp_tree_remove; [auto|now rewrite rm_absent| |simpl; auto].
  rewrite rm_absent by auto. apply wp_bind_ok. apply wp_tree_remove; [auto|now rewrite rm_absent| |simpl; auto].
  rewrite rm_absent by auto. simpl. auto.
Qed.

Lemma a_remove_node F U c n d : fair U d -> spare c d ->
  wp F (spare c) (ok_then (spare c)) (s_remove_node n : PR unit) d.
Proof.
  intros H Hs. assert (spare c (d_rm_node n d)) as H' by (eapply spare_rm_node; eauto; apply H).
  pose proof (range_good_len ce U d SPO n (proj2 H)) as L1. pose proof (range_good_len ce U d OSP n (proj2 H)) as L2.
  change (idx SPO d) with (t_spo d) in L1. change (idx OSP d) with (t_osp d) in L2.
  unfold s_remove_node. apply wp_bind_ok. cbn [wp].
  eapply wp_mono; [| |apply (wp_forward F (spare c) d)]; auto.
  intros r x _ [-> Hr]. destruct r as [b|e]; [|simpl; auto].
  destruct Hr as [_ ->]. apply wp_bind_ok. cbn [wp].
  eapply wp_mono; [| |apply (wp_backward F (spare c) d)]; auto.
  intros r x _ [-> Hr]. destruct r as [b|e]; [|simpl; auto].
  destruct Hr as [_ ->]. apply wp_bind_ok. apply wp_transaction; auto; [|simpl; auto].
  fold no_batches. rewrite remove_node_txn_eq by auto. split; auto. simpl. auto.
Qed.

(** While extend writes an edge there is one record more. *)
Lemma a_extend_edge F c t e h d : spare c d ->
  wp F (spare (S c)) (fun rh => ok_then (spare c) (fst rh)) (s_extend_edge ce t e h : P (result err unit * handle k)) d.
Proof.
  intros (L & HL & Hc). assert (forall L' x, length L' <= S (length L) -> cov L' x -> spare (S c) x) as Hs.
  { intros L' x Hl Hx. exists L'. split; auto. lia. }
  assert (spare (S c) d) as S0 by (apply (Hs L); auto).
  unfold s_extend_edge, draw_ulid, fresh, and_handle. apply wp_bind, wp_bind_ok, wp_bincode; [exact S0|].
  destruct (ser ce e) as [b|]; [|simpl; auto]. fold (next_ulid h). set (r := next_ulid h).
  assert (rid SPO (d_put_rec r b d) t = rid SPO d t) as Eold by (apply rid_edge).
  pose proof (cov_rec L d r b Hc) as C1.
  pose proof (cov_spo L _ t r C1) as C2. rewrite Eold in C2.
  assert (length (with_old (rid SPO d t) L) <= S (length L)) as Hw by (destruct (rid SPO d t); simpl; lia).
  assert (spare (S c) (d_put_rec r b d)) as S1 by (eapply Hs; [|exact C1]; simpl; lia).
  assert (spare (S c) (d_put_idx SPO t r (d_put_rec r b d))) as S2 by (eapply Hs; [|exact C2]; lia).
  assert (spare (S c) (d_put_idx POS t r (d_put_idx SPO t r (d_put_rec r b d)))) as S3
    by (eapply Hs; [|apply cov_pos; exact C2]; lia).
  assert (spare (S c) (d_put_edge t r b d)) as S4 by (eapply Hs; [|apply cov_osp, cov_pos; exact C2]; lia).
  apply wp_bind_ok. apply wp_tree_insert; auto; [|simpl; auto].
  apply wp_bind_ok. apply wp_tree_insert; auto; [|simpl; auto].
  apply wp_bind_ok. apply wp_tree_insert; auto; [|simpl; auto].
  apply wp_bind_ok. apply wp_tree_insert; auto; [|simpl; auto].
  change (bget (encode_spo t) _) with (rid SPO (d_put_rec r b d) t). rewrite Eold.
  change (set_tbl TOsp _ _) with (d_put_edge t r b d).
  pose proof (cov_set_edge L d t r b Hc) as C3. unfold d_set_edge in C3.
  destruct (rid SPO d t) as [old|].
  - assert (spare c (d_del_rec old (d_put_edge t r b d))) as S5 by (exists L; auto).
    assert (spare (S c) (d_del_rec old (d_put_edge t r b d))) as S6 by (eapply spare_mono; [|exact S5]; lia).
    apply wp_bind_ok. apply wp_tree_remove; auto; [|simpl; auto].
    split; [exact S6|]. split; [exact S6|exact S5].
  - assert (spare c (d_put_edge t r b d)) as S5 by (exists L; auto). split; [exact S4|]. split; [exact S4|exact S5].
Qed.

(** ** Loops and whole calls *)
Section Window.
Context (base : bytes -> Prop) (h0 : handle k) (n m : nat).
Notation used := (used base h0).
Notation at_ := (at_ h0).
Notation body_ok := (body_ok (SE := SE) cn ce base h0 n m).
Context (Hnd : NoDup (gkeys h0 n ++ ukeys h0 m)) (Hbase : forall x, In x (gkeys h0 n ++ ukeys h0 m) -> ~ base x).
Context (F : SE -> Prop).

(** The body leaves nothing behind when it succeeds, and at most [w] records otherwise. *)
Definition tidy {A} (body : A -> handle k -> P (result err unit * handle k)) (w dg du : nat) : Prop :=
  forall a i j d c, i + dg <= n -> j + du <= m -> fair (used i j) d -> spare c d ->
  wp F (spare (w + c)) (fun rh => ok_then (spare c) (fst rh)) (body a (at_ i j)) d.

Lemma tidy_for_source {A Er} body (f : A -> G -> G) w dg du (l : list (result Er A)) :
  body_ok F (partx cn ce) body f dg du -> tidy body w dg du ->
  forall i j d c, i + length (before_error l) * dg <= n -> j + length (before_error l) * du <= m ->
  fair (used i j) d -> spare c d ->
  wp F (spare (w + c)) (fun rh x => match fst rh with Err (LeftE _) => True | _ =>
      spare c x /\ exists i' j', snd rh = at_ i' j' /\ i' <= i + length (before_error l) * dg /\
        j' <= j + length (before_error l) * du /\ fair (used i' j') x end)
    (for_source body l (at_ i j)) d.
Proof.
  intros Hb Hk. induction l as [|[a|e] l IH]; intros i j d c Hi Hj H HL.
  - simpl. split; [eapply spare_mono; [|exact HL]; lia|]. split; auto. exists i, j. split; auto. split; [lia|]. split; [lia|auto].
  - cbn [before_error length for_source] in *. apply wp_bind.
    eapply wp_mono; [| |apply wp_both; [apply (Hb a i j d); [lia|lia|exact H] | apply (Hk a i j d c); [lia|lia|auto..]]].
    { intros x [_ Hx]. exact Hx. }
    intros [r h] x [_ Rx] [(Eh & Hf & _) Hx]. simpl in Eh, Hx |- *. subst h. destruct r as [[]|er]; simpl; auto.
    eapply wp_mono; [| |apply (IH (i + dg) (j + du) x c); auto; lia]; auto.
    intros [r h] y _ Hy. simpl in *. destruct r as [[]|[el|er]]; auto.
    + destruct Hy as (H2 & i' & j' & H3 & H4 & H5 & H6). split; auto. exists i', j'.
      split; auto. split; [lia|]. split; [lia|auto].
    + destruct Hy as (H2 & i' & j' & H3 & H4 & H5 & H6). split; auto. exists i', j'.
      split; auto. split; [lia|]. split; [lia|auto].
  - simpl. split; [eapply spare_mono; [|exact HL]; lia|]. split; auto. exists i, j. split; auto. split; [lia|]. split; [lia|auto].
Qed.

Lemma tidy_nodes_edges {Er} fn fe f1 f2 w dg du (s : source k NP EP Er) :
  body_ok F (partx cn ce) fn f1 0 0 -> tidy fn w 0 0 ->
  body_ok F (partx cn ce) fe f2 dg du -> tidy fe w dg du ->
  forall i j d c, i + length (before_error (src_edges s)) * dg <= n ->
  j + length (before_error (src_edges s)) * du <= m ->
  fair (used i j) d -> spare c d ->
  wp F (spare (w + c)) (fun rh x => match fst rh with Err (LeftE _) => True | _ => spare c x end)
    (for_nodes_edges fn fe s (at_ i j)) d.
Proof.
  intros B1 K1 B2 K2 i j d c Hi Hj H HL. unfold for_nodes_edges. apply wp_bind.
  eapply wp_mono; [| |apply (tidy_for_source fn f1 w 0 0 (src_nodes s) B1 K1 i j d c); auto; lia]; auto.
  intros [r h] x Rx Hx. cbn [fst snd] in *. destruct r as [[]|[el|er]]; simpl; auto.
  - destruct Hx as (Lx & i' & j' & -> & H1 & H2 & Hf).
    eapply wp_mono; [| |apply (tidy_for_source fe f2 w dg du (src_edges s) B2 K2 i' j' x c); auto; lia]; auto.
    intros [r h] y _ Hy. cbn [fst snd] in *. destruct r as [[]|[el|er]]; auto; apply Hy.
  - split; auto. apply Hx.
Qed.
End Window.

(** What a call may leave: at any moment, and at its end. *)
Definition leaves (o : op) : nat := match o with OInsertEdge _ _ | OExtend _ => 1 | _ => 0 end.
Definition leaves_after (o : op) (r : outcome) : nat :=
  match o with
  | OInsertEdge _ _ => 1
  | OExtend _ => match r with Err (LeftE _) => 1 | _ => 0 end
  | _ => 0
  end.

Lemma a_lift F c w (p : P (result err unit * handle k)) d :
  wp F (spare w) (fun rh => ok_then (spare c) (fst rh)) p d ->
  wp F (spare w) (fun rh x => match fst rh with Err (LeftE _) => True | _ => spare c x end) (lift (E := E) p) d.
Proof.
  intros H. unfold lift. apply wp_bind. eapply wp_mono; [| |exact H]; auto.
  intros [r h] x Rx Hr. simpl in *. split; auto. destruct r as [[]|e]; simpl in *; auto.
Qed.

Lemma a_handle F c w (h : handle k) (p : PR unit) d :
  wp F (spare w) (ok_then (spare c)) p d -> wp F (spare w) (fun rh => ok_then (spare c) (fst rh)) (and_handle h p) d.
Proof.
  intros H. unfold and_handle. apply wp_bind. eapply wp_mono; [| |exact H]; auto.
  intros r x Rx Hr. simpl. auto.
Qed.

Section Window2.
Context (base : bytes -> Prop) (h0 : handle k) (n m : nat).
Notation used := (used base h0).
Notation at_ := (at_ h0).
Context (Hnd : NoDup (gkeys h0 n ++ ukeys h0 m)) (Hbase : forall x, In x (gkeys h0 n ++ ukeys h0 m) -> ~ base x).
Context (F : SE -> Prop).

Lemma wp_leaves (o : op) i j d c : i + draws o <= n -> j + draws_ulid o <= m -> fair (used i j) d -> spare c d ->
  wp F (spare (leaves o + c)) (fun rh => spare (leaves_after o (fst rh) + c)) (sled_apply cn ce mn me o (at_ i j)) d.
Proof.
  intros Hi Hj H HL.
  pose proof (between_partx (k := k) (NP := NP) (EP := EP) (BE := BE) cn ce) as HR0.
  pose proof (part_partx (k := k) (NP := NP) (EP := EP) (BE := BE) cn ce) as Hpart.
  assert (forall i j, at_ (i + 0) (j + 0) = at_ i j) as A00 by (intros; now rewrite !Nat.add_0_r).
  assert (forall (o' : op) c' (p : P (outcome * handle k)),
    leaves o' + c = c' -> (forall r, leaves_after o' r + c = c') ->
    wp F (spare c') (fun rh x => match fst rh with Err (LeftE _) => True | _ => spare c' x end) p d ->
    wp F (spare (leaves o' + c)) (fun rh => spare (leaves_after o' (fst rh) + c)) p d) as W.
  { intros o' c' p E1 E2 Hp. rewrite E1. eapply wp_mono; [| |exact Hp]; auto.
    intros rh x Rx _. now rewrite E2. }
  destruct o as [v p|t e|v|t|v p|t e|s|s]; cbn [draws draws_ulid sled_apply] in *.
  - apply (W _ c); auto. apply a_lift, a_handle, a_insert_node; auto.
  - apply (W _ (S c)); auto. apply a_lift, a_insert_edge; auto.
  - apply (W _ c); auto. apply a_lift, a_handle. eapply a_remove_node; eauto.
  - apply (W _ c); auto. apply a_lift, a_handle, a_remove_edge; auto.
  - apply (W _ c); auto. apply a_lift, a_handle, a_merge_node; auto.
  - apply (W _ c); auto. apply a_lift. eapply a_merge_edge; eauto. apply (fresh_gen base h0 n m Hnd Hbase); lia.
  - cbn [leaves leaves_after]. unfold s_extend. eapply wp_mono; [| |apply (tidy_nodes_edges base h0 n m F
      (fun ip h => and_handle h (s_extend_node cn (fst ip) (snd ip)))
      (fun te h => s_extend_edge ce (fst te) (snd te) h)
      (fun ip => g_put_node (fst ip) (snd ip)) (fun te => g_put_edge (fst te) (snd te)) 1 0 1 s); eauto; try lia]; auto.
    + intros [r h] x Rx Hx. cbn [fst] in *. destruct r as [[]|[]]; auto.
    + apply wp_body; auto. intros [v p] i0 j0 d0 Hi0 Hj0 H0. rewrite A00, !Nat.add_0_r.
      apply wp_and_handle. simpl fst. simpl snd. apply wp_insert_node; auto.
    + intros [v p] i0 j0 d0 c0 _ _ _ H0. apply a_handle. eapply wp_mono; [| |apply a_insert_node; exact H0]; auto.
      intros x. apply spare_mono. lia.
    + intros [t e] i0 j0 d0 Hi0 Hj0 H0. cbn [fst snd].
      replace (i0 + 0) with i0 by lia. replace (j0 + 1) with (S j0) by lia.
      eapply wp_mono; [| |apply (wp_extend_edge cn ce Hce F (used i0 j0)); [exact H0 | apply (fresh_ulid base h0 n m Hnd Hbase); lia]].
      * intros x Hn. apply nearx_partx in Hn. destruct Hn as [H1 H2]. split; auto.
        eapply fair_mono; [|exact H1]. intros r Hr. apply used_ulid in Hr. apply (used_mono base h0 n m Hbase i0 (S j0)); auto; lia.
      * intros [r h] x [Hn1 Hn2] [Eh [Ha Hr]]. simpl in Eh, Ha, Hr |- *. subst h. split; [apply at_ulid|].
        split; [eapply fair_mono; [|exact Hn1]; intros r' Hr'; now apply used_ulid|].
        destruct r as [[]|er]; auto.
    + intros [t e] i0 j0 d0 c0 Hi0 Hj0 F0 H0. cbn [fst snd]. change (1 + c0) with (S c0). now apply a_extend_edge.
  - cbn [leaves leaves_after]. unfold s_merge. eapply wp_mono; [| |apply (tidy_nodes_edges base h0 n m F
      (fun ip h => and_handle h (s_merge_node cn mn (fst ip) (snd ip)))
      (fun te h => s_merge_edge ce me (fst te) (snd te) h)
      (fun ip => g_merge_node mn (fst ip) (snd ip)) (fun te => g_merge_edge me (fst te) (snd te)) 0 1 0 s); eauto; try lia]; auto.
    + apply wp_body; auto. intros [v p] i0 j0 d0 Hi0 Hj0 H0. rewrite A00, !Nat.add_0_r.
      apply wp_and_handle. simpl fst. simpl snd. apply wp_merge_node; auto.
    + intros [v p] i0 j0 d0 c0 _ _ _ H0. apply a_handle. simpl. now apply a_merge_node.
    + apply wp_body; auto. intros [t e] i0 j0 d0 Hi0 Hj0 H0. cbn [fst snd].
      replace (j0 + 0) with j0 by lia. replace (i0 + 1) with (S i0) by lia.
      rewrite <- at_gen. apply used_gen_wp. apply wp_merge_edge; auto. apply (fresh_gen base h0 n m Hnd Hbase); lia.
    + intros [t e] i0 j0 d0 c0 Hi0 Hj0 F0 H0. cbn [fst snd]. simpl Nat.add.
      eapply a_merge_edge; eauto. apply (fresh_gen base h0 n m Hnd Hbase); lia.
Qed.

Fixpoint all_after (l : list op) (rs : list outcome) : nat :=
  match l, rs with o :: l', r :: rs' => leaves_after o r + all_after l' rs' | _, _ => 0 end.

Lemma wp_all_leaves (l : list op) : forall i j d c,
  i + sum (map draws l) <= n -> j + sum (map draws_ulid l) <= m -> fair (used i j) d -> spare c d ->
  wp F (spare (sum (map leaves l) + c)) (fun rsh => spare (all_after l (fst rsh) + c)) (sled_history cn ce mn me l (at_ i j)) d.
Proof.
  induction l as [|o l IH]; intros i j d c Hi Hj H HL; simpl in Hi, Hj |- *.
  - auto.
  - apply wp_bind.
    pose proof (wp_op cn ce Hcn Hce mn me base h0 n m Hnd Hbase F (partx cn ce) (between_partx cn ce)
      (part_partx cn ce) o (or_intror (fun _ _ _ Hp => Hp)) i j d) as W.
    eapply wp_mono; [| |apply wp_both; [apply W; auto; lia | apply (wp_leaves o i j d c); auto; lia]].
    { intros x [_ Hx]. eapply spare_mono; [|exact Hx]. lia. }
    intros [r h] x [_ Rx] [(i' & j' & Hi' & Hj' & Eh & Hf & Hr) Hx]. simpl in Eh, Hx. subst h. cbn [fst snd].
    assert (leaves_after o r <= leaves o) as Hle.
    { destruct o; simpl; auto. destruct r as [|[]]; auto. }
    apply wp_bind. eapply wp_mono; [| |apply (IH i' j' x (leaves_after o r + c)); [lia|lia|exact Hf|exact Hx]].
    + intros y. apply spare_mono. lia.
    + intros [rs h] y Ry Hy. cbn [wp fst] in *. split.
      * eapply spare_mono; [|exact Ry]. lia.
      * eapply spare_mono; [|exact Hy]. simpl. lia.
Qed.
End Window2.

(** ** Counting *)
Lemma spare_count U d c : fair U d -> spare c d ->
  length (t_spo d) <= length (t_edge d) <= length (t_spo d) + c.
Proof.
  intros [_ Fe] (L & HL & Hc).
  assert (forall x : bytes * bytes, ~ key_lt bytes_cmp x x) as Irr.
  { intros x Hx. unfold key_lt in Hx. rewrite (cmp_refl BC) in Hx. discriminate. }
  assert (NoDup (map fst (t_edge d))) as N1.
  { apply map_NoDup; [|eapply sorted_NoDup; [exact Irr|exact (fe_sorted ce _ _ Fe)]].
    intros [a v] [b w] Ha Hb E0. simpl in E0. subst b. f_equal.
    apply (get_iff_in BC _ _ _ (fe_sorted ce _ _ Fe)) in Ha, Hb. congruence. }
  assert (forall key r, In (key, r) (t_spo d) <-> exists t, key = enc SPO t /\ rid SPO d t = Some r) as Hs.
  { intros key r. pose proof (fe_isorted ce _ _ Fe SPO) as S0. split.
    - intros Hin. destruct (fe_keys ce _ _ Fe SPO _ _ Hin) as [t ->]. exists t. split; auto.
      now apply (get_iff_in BC _ _ _ S0) in Hin.
    - intros (t & -> & Hr). now apply (get_iff_in BC _ _ _ S0). }
  assert (NoDup (map snd (t_spo d))) as N2.
  { apply map_NoDup; [|eapply sorted_NoDup; [exact Irr|exact (fe_isorted ce _ _ Fe SPO)]].
    intros [a v] [b w] Ha Hb E0. simpl in E0. subst w. apply Hs in Ha, Hb.
    destruct Ha as (t & -> & Ht), Hb as (u & -> & Hu).
    assert (t = u) as -> by (eapply (fe_inj ce _ _ Fe); eauto). reflexivity. }
  assert (forall r, In r (map fst (t_edge d)) <-> bget r (t_edge d) <> None) as Hk.
  { intros r. rewrite in_map_iff. split.
    - intros ([r' v] & <- & Hin). apply (get_iff_in BC _ _ _ (fe_sorted ce _ _ Fe)) in Hin. simpl. congruence.
    - intros H. destruct (bget r (t_edge d)) as [v|] eqn:Hv; [|congruence]. exists (r, v). split; auto.
      now apply (get_in BC). }
  split.
  - rewrite <- (map_length snd (t_spo d)), <- (map_length fst (t_edge d)). apply NoDup_incl_length; auto.
    intros r Hr. apply Hk. apply in_map_iff in Hr. destruct Hr as ([key r'] & <- & Hin). apply Hs in Hin.
    destruct Hin as (t & _ & Ht). pose proof (fe_rec ce _ _ Fe _ _ _ Ht) as Hrec. unfold SledDb.record in Hrec.
    simpl. destruct (bget r' (t_edge d)); congruence.
  - rewrite <- (map_length fst (t_edge d)). assert (length (map fst (t_edge d)) <= length (map snd (t_spo d) ++ L)) as H.
    { apply NoDup_incl_length; auto. intros r Hr. apply Hk in Hr. apply in_app_iff. destruct (Hc r Hr) as [H|[t Ht]]; auto.
      left. apply in_map_iff. exists (enc SPO t, r). split; auto. apply Hs. eauto. }
    rewrite app_length, !map_length in H. rewrite map_length. lia.
Qed.

Lemma handle_leaves F base (h : handle k) (l : list op) c d :
  NoDup (history_keys h l) -> (forall x, In x (history_keys h l) -> ~ base x) -> fair base d -> spare c d ->
  wp F (spare (sum (map leaves l) + c)) (fun rsh => spare (all_after l (fst rsh) + c)) (sled_history cn ce mn me l h) d.
Proof.
  intros Hnd Hbase Hd Ho.
  replace (sled_history cn ce mn me l h) with (sled_history (SE := SE) cn ce mn me l (at_ h 0 0)) by now rewrite at_00.
  apply (wp_all_leaves base h _ _ Hnd Hbase F l 0 0); auto. apply start_fair; auto.
Qed.

Lemma lives_leave (ls : list (life (k := k) (NP := NP) (EP := EP) (SE := SE) (E := E))) : forall base c d,
  NoDup (life_keys ls) -> (forall x, In x (life_keys ls) -> ~ base x) -> fair base d -> spare c d ->
  spare (sum (map leaves (flat_map lf_ops ls)) + c) (lives cn ce mn me ls d).
Proof.
  induction ls as [|[h l faults s] ls IH]; intros base c d Hnd Hb Hd Ho; simpl in Hnd, Hb |- *.
  - auto.
  - apply NoDup_app_iff in Hnd. destruct Hnd as (N1 & N2 & N3).
    pose proof (fun r Hr => Hb r (proj2 (in_app_iff _ _ _) (or_introl Hr))) as Hb1.
    pose proof (wp_crash _ _ _ _ s faults d (allowed_all _) (handle_leaves (fun _ => True) base h l c d N1 Hb1 Hd Ho)) as H1.
    change (lives cn ce mn me ({| lf_handle := h; lf_ops := l; lf_faults := faults; lf_steps := s |} :: ls) d)
      with (lives cn ce mn me ls (crash s (sled_history cn ce mn me l h) faults d)).
    rewrite map_app.
    assert (forall a b, sum (a ++ b) = sum b + sum a) as Hsum.
    { intros a b. induction a as [|x a IHa]; simpl; [lia|]. unfold sum in *. lia. }
    rewrite Hsum, <- Nat.add_assoc. apply (IH (plus_keys base (history_keys h l))); auto.
    + intros r Hr' [H|H]; [apply (Hb r); auto; apply in_app_iff; auto | apply (N3 r); auto].
    + pose proof (fair_lives cn ce Hcn Hce mn me [{| lf_handle := h; lf_ops := l; lf_faults := faults; lf_steps := s |}] base d) as Hl.
      simpl in Hl. rewrite app_nil_r in Hl. apply Hl; auto.
Qed.

End Any.

Section Top.
Context {k : idkind} {NP EP SE BE E : Type} (cn : codec BE NP) (ce : codec BE EP).
Context (mn : NP -> NP -> NP) (me : EP -> EP -> EP).
Notation op := (op k NP EP E).
Notation hist := (sled_history (SE := SE) cn ce mn me).

Lemma listed_spo (d : db) : length (now SE (s_iter_edges (k := k) (BE := BE) ce SPO) d) = length (t_spo d).
Proof. rewrite (rds_now _ _ _ (rds_iter_edges ce never d SPO)). apply map_length. Qed.

Lemma lives_leak (ls : list (life (k := k) (NP := NP) (EP := EP) (SE := SE) (E := E))) :
  codec_ok cn -> codec_ok ce -> NoDup (life_keys ls) ->
  let d := lives cn ce mn me ls db_new in
  let n := length (now SE (s_iter_edges (k := k) (BE := BE) ce SPO) d) in
  n <= length (t_edge d) <= n + sum (map (fun o => match o with OInsertEdge _ _ | OExtend _ => 1 | _ => 0 end)
                                       (flat_map lf_ops ls)).
Proof.
  intros Hn He Hd d n. unfold n. rewrite listed_spo. destruct (good_new (k := k) cn ce nothing) as [G0 _].
  assert (forall x, In x (life_keys ls) -> ~ nothing x) as Hb by (intros x _ []).
  pose proof (lives_leave cn ce Hn He mn me ls nothing 0 db_new Hd Hb G0 (cov_spare (k := k) [] db_new cov_new)) as H.
  rewrite Nat.add_0_r in H.
  eapply spare_count; [|exact H]. apply (fair_lives cn ce Hn He mn me ls nothing db_new Hd Hb G0).
Qed.

Lemma history_leak_any (h : handle k) (l : list op) faults :
  codec_ok cn -> codec_ok ce -> NoDup (history_keys h l) ->
  let rs := fst (ret_of (hist l h) faults db_new) in
  let d := db_of (hist l h) faults db_new in
  let n := length (now SE (s_iter_edges (k := k) (BE := BE) ce SPO) d) in
  n <= length (t_edge d) <= n + sum (map (fun c => match c with
                                                   | (OInsertEdge _ _, _) | (OExtend _, Err (LeftE _)) => 1
                                                   | _ => 0 end) (combine l rs)).
Proof.
  intros Hn He Hd rs d n. unfold n. rewrite listed_spo. destruct (good_new (k := k) cn ce nothing) as [G0 _].
  assert (forall x, In x (history_keys h l) -> ~ nothing x) as Hb by (intros x _ []).
  pose proof (handle_leaves cn ce Hn He mn me (fun _ : SE => True) nothing h l 0 db_new Hd Hb G0
    (cov_spare (k := k) [] db_new cov_new)) as W.
  destruct (wp_exec _ _ _ _ faults db_new (allowed_all _) W) as (_ & H & _). cbv beta in H. rewrite Nat.add_0_r in H.
  assert (forall (l : list op) (rs : list (outcome (SE := SE) (BE := BE) (E := E))), all_after l rs =
    sum (map (fun c => match c with (OInsertEdge _ _, _) | (OExtend _, Err (LeftE _)) => 1 | _ => 0 end) (combine l rs))) as Ea.
  { induction l0 as [|o l0 IH]; intros [|r rs0]; simpl; auto. }
  rewrite <- Ea. eapply spare_count; [|exact H].
  pose proof (wp_history cn ce Hn He mn me nothing h (sum (map draws l)) (sum (map draws_ulid l)) Hd Hb (fun _ : SE => True) l 0 0 db_new) as W2.
  rewrite at_00 in W2. destruct (wp_exec _ _ _ _ faults db_new (allowed_all _) (W2 (le_n _) (le_n _) (start_fair _ _ _ _ _ G0))) as (Hf & _).
  exact Hf.
Qed.

End Top.
