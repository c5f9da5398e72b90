(** Removals while other handles are at work. *)
From Coq Require Import Arith NArith List Bool Sorted Lia.
From Verif Require Import Bytes BytesFacts OMap OMapFacts Core IdType IdTypeFacts Store Mem Spec
  CodecFacts ListFacts MemSim History Prog ProgFacts Sled SledHistory SledSched SledDb SledOps SledBulk
  SledRun SledRead SledTop SledMain SledCrash SledLeak SledConc SledLeaf.
Import ListNotations.

Section Calm.
Context {k : idkind} {NP EP SE BE E : Type} (cn : codec BE NP) (ce : codec BE EP).
Context (Hcn : codec_ok cn) (Hce : codec_ok ce).
Context (mn : NP -> NP -> NP) (me : EP -> EP -> EP).
Notation I := (Id k).
Notation T := (triple (Id k)).
Notation err := (sled_error SE BE).
Notation P A := (prog db SE A).
Notation PR A := (prog db SE (result err A)).
Notation op := (op k NP EP E).
Notation outcome := (outcome (SE := SE) (BE := BE) (E := E)).
Notation apply := (sled_apply (SE := SE) cn ce mn me).
Notation fair := (fair (k := k) cn ce).
Notation agree := (indexes_agree (k := k)).
Notation bytes_dec := (list_eq_dec Byte.byte_eq_dec).
Let BC := bytes_cmp_ok.
Implicit Types d x : db.
Implicit Types h : handle k.
Implicit Types t : T.
Implicit Types n : I.
Implicit Types U : bytes -> Prop.
Implicit Types Q : T -> Prop.
Implicit Types o : edge_order.

Definition absent t d : Prop := forall o, rid o d t = None.

(** The edges in [Q] stay as they are or disappear together with their records; records in
    use or abandoned do not appear again. *)
Definition calm Q U d x : Prop :=
  (forall t, Q t -> (forall o, rid o x t = rid o d t) \/
     (absent t x /\ forall o r, rid o d t = Some r -> bget r (t_edge x) = None)) /\
  (forall r, U r -> bget r (t_edge d) = None -> bget r (t_edge x) = None).

Lemma calm_refl Q U d : calm Q U d d.
Proof. split; auto. Qed.

Lemma calm_trans Q U U' d x y : fair U d -> (forall r, U r -> U' r) ->
  calm Q U d x -> calm Q U' x y -> calm Q U d y.
Proof.
  intros Hf HU [A1 A2] [B1 B2]. split.
  - intros t Ht. destruct (A1 t Ht) as [H1|[H1 H1']]; destruct (B1 t Ht) as [H2|[H2 H2']].
    + left. intros o. now rewrite H2.
    + right. split; auto. intros o r Hr. apply (H2' o). now rewrite H1.
    + right. split; [intros o; rewrite H2; apply H1|]. intros o r Hr. apply B2; [|eauto].
      apply HU. eapply rid_used; [apply Hf|exact Hr].
    + right. split; auto. intros o r Hr. apply B2; [|eauto].
      apply HU. eapply rid_used; [apply Hf|exact Hr].
  - intros r Hr Hd. apply B2; auto.
Qed.

Lemma calm_weak Q Q' U d x : (forall t, Q' t -> Q t) -> calm Q U d x -> calm Q' U d x.
Proof. intros H [A B]. split; auto. Qed.

Lemma absent_calm Q U d x t : Q t -> calm Q U d x -> absent t d -> absent t x.
Proof.
  intros Ht [H _] A. destruct (H t Ht) as [Hs|[Hs _]]; auto. intros o. rewrite Hs. apply A.
Qed.

Lemma calm_node Q U d v : calm Q U d (set_tbl TNode v d).
Proof. split; auto. intros t _. left. intros o. destruct o; reflexivity. Qed.

Lemma calm_put_edge U d t r b : ~ U r -> calm (fun u => u <> t) U d (d_put_edge t r b d).
Proof.
  intros Hr. split.
  - intros u Hu. left. intros o. rewrite rid_put_edge. now destruct (triple_eq_dec u t).
  - intros r' Hr' Hd. change (t_edge (d_put_edge t r b d)) with (binsert r b (t_edge d)).
    rewrite (get_insert_neq BC); auto. congruence.
Qed.

Lemma get_drop old d r : bget r (t_edge d) = None -> bget r (t_edge (d_drop old d)) = None.
Proof.
  intros H. destruct old as [r'|]; simpl; auto. destruct (bytes_dec r r') as [->|N].
  - apply get_remove_eq.
  - now rewrite (get_remove_neq BC).
Qed.

Lemma calm_set_edge U d t r b : ~ U r -> calm (fun u => u <> t) U d (d_set_edge t r b d).
Proof.
  intros Hr. destruct (calm_put_edge U d t r b Hr) as [_ H2]. split.
  - intros u Hu. left. intros o. rewrite rid_set_edge. now destruct (triple_eq_dec u t).
  - intros r' Hr' Hd. unfold d_set_edge. apply get_drop. auto.
Qed.

Lemma calm_rm_edge Q U d t : (forall o, rid o d t = rid SPO d t) -> calm Q U d (d_rm_edge t d).
Proof.
  intros A. split.
  - intros u _. destruct (triple_eq_dec u t) as [->|N].
    + right. split.
      * intros o. rewrite rid_rm_edge. now destruct (triple_eq_dec t t).
      * intros o r Hr. rewrite A in Hr. unfold d_rm_edge. rewrite Hr. simpl. apply get_remove_eq.
    + left. intros o. rewrite rid_rm_edge. now destruct (triple_eq_dec u t).
  - intros r _ Hd. unfold d_rm_edge. apply get_drop. exact Hd.
Qed.

Lemma get_removes keys : forall (m : tree) r, bget r m = None -> bget r (removes keys m) = None.
Proof.
  intros m r H. destruct (in_dec bytes_dec r keys).
  - now apply removes_get_in.
  - now rewrite removes_get_notin.
Qed.

(** The indexes agree on the edges of a node. *)
Definition agree_at n d : Prop := forall o t, sub t = n \/ obj t = n -> rid o d t = rid SPO d t.

Lemma calm_rm_node Q U d n : fair U d -> agree_at n d -> calm Q U d (d_rm_node n d).
Proof.
  intros [_ F] A. split.
  - intros u _. unfold d_rm_node, d_del_node.
    set (fs := brange (key_bounds_1 n) (t_spo d)). set (bs := brange (key_bounds_1 n) (t_osp d)).
    assert (forall (ts : list T) rs v o, rid o (set_tbl TNode v (d_rm_many ts rs d)) u = rid o (d_rm_many ts rs d) u) as En
      by (intros ? ? ? []; reflexivity).
    destruct (in_dec triple_eq_dec u (map (ent SPO) fs ++ map (ent OSP) bs)) as [H|H].
    + right. split.
      * intros o. rewrite En, rid_rm_many. destruct (in_dec triple_eq_dec u _); tauto.
      * intros o r Hr. simpl. apply removes_get_in. rewrite in_app_iff in *.
        destruct H as [H|H]; [left|right].
        -- apply (in_ent ce U d SPO n) in H; auto. rewrite A in Hr by (left; apply H).
           apply in_map_iff. exists (enc SPO u, r). split; auto.
           apply (in_range_entry ce U d SPO); auto. exists u. tauto.
        -- apply (in_ent ce U d OSP n) in H; auto. rewrite A in Hr by (right; apply H).
           apply in_map_iff. exists (enc OSP u, r). split; auto.
           apply (in_range_entry ce U d OSP); auto. exists u. rewrite A by (right; apply H). tauto.
    + left. intros o. rewrite En, rid_rm_many. destruct (in_dec triple_eq_dec u _); tauto.
  - intros r _ Hd. simpl. now apply get_removes.
Qed.

Lemma y_remove_node U n d : fair U d ->
  wp (fun _ : SE => False) (fun _ => True) (fun r x => r = Ok tt /\ x = d_rm_node n d) (s_remove_node n : PR unit) d.
Proof.
  intros H.
  pose proof (range_good_len ce U d SPO n (proj2 H)) as L1. pose proof (range_good_len ce U d OSP n (proj2 H)) as L2.
  change (idx SPO d) with (t_spo d) in L1. change (idx OSP d) with (t_osp d) in L2.
  assert (forall es, Forall (good_len (k := k)) es -> ~ Exists (fun kv => ~ good_len (k := k) kv) es) as Hno.
  { intros es He Hx. rewrite Forall_forall in He. apply Exists_exists in Hx. destruct Hx as (x & Hx & Nx). auto. }
  unfold s_remove_node. apply wp_bind_ok. cbn [wp].
  eapply wp_mono; [| |apply (wp_forward (fun _ : SE => False) (fun _ => True) d)]; auto.
  intros r x _ [-> Hr]. destruct r as [b|e]; [|exfalso; destruct Hr as [(y & [] & _)|[_ Hx]]; revert Hx; now apply Hno].
  destruct Hr as [_ ->]. apply wp_bind_ok. cbn [wp].
  eapply wp_mono; [| |apply (wp_backward (fun _ : SE => False) (fun _ => True) d)]; auto.
  intros r x _ [-> Hr]. destruct r as [b|e]; [|exfalso; destruct Hr as [(y & [] & _)|[_ Hx]]; revert Hx; now apply Hno].
  destruct Hr as [_ ->]. apply wp_bind_ok. apply wp_transaction; auto; [|intros ? []].
  fold no_batches. rewrite remove_node_txn_eq by auto. split; auto. simpl. auto.
Qed.

(** A call of another handle. *)
Lemma call_calm U (o : op) h fs d : one_call o -> fair U d -> agree d ->
  (forall r, In r (history_keys h [o]) -> ~ U r) ->
  calm (fun t => ~ writes o t) U d (db_of (apply o h) fs d).
Proof.
  intros Ho Hf A HU.
  assert (SledCrash.single o -> failed (fst (ret_of (apply o h) fs d)) -> db_of (apply o h) fs d = d) as Hun.
  { intros Hs Hr. eapply careful_unchanged; [now apply careful_single|exact Hr]. }
  assert (forall (p : PR unit) (X : db -> Prop), wp (fun _ : SE => True) (fun _ => True) (on_ok X) p d ->
    failed (fst (ret_of (lift (and_handle h p) : P (outcome * handle k)) fs d)) \/
    X (db_of (lift (and_handle h p) : P (outcome * handle k)) fs d)) as L1.
  { intros p X W. destruct (wp_exec _ _ _ _ fs d (allowed_all _) W) as (_ & Hx & _).
    unfold lift, and_handle. rewrite !ret_of_bind, !db_of_bind. cbn. unfold ret_of, db_of in *.
    destruct (fst (fst (exec p fs d))) as [[]|e]; simpl in *; auto. }
  assert (forall (p : P (result err unit * handle k)) (X : db -> Prop), wp (fun _ : SE => True) (fun _ => True) (fun rh => on_ok X (fst rh)) p d ->
    failed (fst (ret_of (lift p : P (outcome * handle k)) fs d)) \/
    X (db_of (lift p : P (outcome * handle k)) fs d)) as L2.
  { intros p X W. destruct (wp_exec _ _ _ _ fs d (allowed_all _) W) as (_ & Hx & _).
    unfold lift. rewrite !ret_of_bind, !db_of_bind. cbn. unfold ret_of, db_of in *.
    destruct (fst (fst (exec p fs d))) as [[[]|e] h']; simpl in *; auto. }
  destruct o as [v p|t e|v|t|v p|t e|s|s]; try contradiction; cbn [sled_apply] in *.
  - destruct (L1 _ _ (x_insert_node cn _ v p d)) as [Hx|[b ->]]; [rewrite Hun by (auto; exact Logic.I); apply calm_refl | apply calm_node].
  - destruct (L2 _ _ (x_insert_edge ce Hce _ t e h d)) as [Hx|(b & _ & ->)]; [rewrite Hun by (auto; exact Logic.I); apply calm_refl |].
    eapply calm_weak; [|apply calm_put_edge; apply HU; simpl; auto]. simpl. congruence.
  - destruct (L1 _ _ (x_remove_node cn ce _ U v d Hf)) as [Hx|Hx]; [rewrite Hun by (auto; exact Logic.I); apply calm_refl |].
    rewrite Hx. apply calm_rm_node; auto. intros oo u _. apply A.
  - assert (db_of (lift (and_handle h (s_remove_edge t)) : P (outcome * handle k)) fs d = d \/
      db_of (lift (and_handle h (s_remove_edge t)) : P (outcome * handle k)) fs d = d_rm_edge t d) as [->| ->].
    { destruct (remove_edge_shape (SE := SE) (BE := BE) (E := E) t h) as (u & c & e & -> & Hu & Hc & He). unfold db_of. simpl.
      destruct fs as [|[x|] fs].
      - right. rewrite Hu. destruct (steady_spec _ _ _ _ (Hc d) []) as (_ & H2 & _). exact H2.
      - destruct (He x) as (a & -> & _). auto.
      - right. rewrite Hu. destruct (steady_spec _ _ _ _ (Hc d) fs) as (_ & H2 & _). exact H2. }
    + apply calm_refl.
    + apply calm_rm_edge. intros oo. apply A.
  - destruct (L1 _ _ (x_merge_node cn mn _ v p d)) as [Hx|[b ->]]; [rewrite Hun by (auto; exact Logic.I); apply calm_refl | apply calm_node].
  - assert (~ U (next_key h)) as Nk by (apply HU; simpl; auto).
    destruct (L2 _ _ (x_merge_edge cn ce Hce me _ U t e h d Hf Nk)) as [Hx|(b & ->)]; [rewrite Hun by (auto; exact Logic.I); apply calm_refl |].
    eapply calm_weak; [|apply calm_set_edge; exact Nk]. simpl. congruence.
Qed.

(** ** What remove_node has collected, up to a key *)
Definition covers U (o : edge_order) n (lim : option bytes) (L : list (bytes * bytes)) d : Prop :=
  (forall t r, fst (fst (comps o t)) = n -> before lim (enc o t) = true -> rid o d t = Some r -> In (enc o t, r) L) /\
  (forall kv, In kv L -> exists t r, kv = (enc o t, r) /\ fst (fst (comps o t)) = n /\ U r /\
     (rid o d t = Some r \/ (absent t d /\ bget r (t_edge d) = None))).

Lemma covers_piece U o n lo hi lim L d : fair U d ->
  (forall t, before lim (enc o t) = true -> fst (fst (comps o t)) = n ->
     (forall r, rid o d t = Some r -> In (enc o t, r) L) \/ (not_before lo (enc o t) = true /\ before hi (enc o t) = true)) ->
  (forall kv, In kv L -> exists t r, kv = (enc o t, r) /\ fst (fst (comps o t)) = n /\ U r /\
     (rid o d t = Some r \/ (absent t d /\ bget r (t_edge d) = None))) ->
  covers U o n lim (L ++ piece lo hi (brange (key_bounds_1 n) (idx o d))) d.
Proof.
  intros [_ F] H1 H2. split.
  - intros t r Hn Hb Hr. apply in_app_iff. destruct (H1 t Hb Hn) as [H|[Ha Hb']]; [left; auto|right].
    unfold piece. apply filter_In. split; [|simpl; now rewrite Ha, Hb'].
    apply (in_range_entry ce U); auto. eauto.
  - intros kv Hin. apply in_app_iff in Hin. destruct Hin as [Hin|Hin]; auto. unfold piece in Hin. apply filter_In in Hin.
    destruct Hin as [Hin _]. destruct kv as [key r]. apply (in_range_entry ce U) in Hin; auto. destruct Hin as (t & -> & Hr & Hn).
    exists t, r. split; auto. split; auto. split; auto. eapply rid_used; eauto.
Qed.

Lemma covers_first U o n hi d : fair U d -> covers U o n hi (piece None hi (brange (key_bounds_1 n) (idx o d))) d.
Proof. intros F. apply (covers_piece U o n None hi hi [] d F); [auto|]. intros kv []. Qed.

Lemma before_later lo c key : before (Some (later (Some lo) c)) key = true ->
  before (Some lo) key = true \/ (not_before (Some lo) key = true /\ before (Some c) key = true).
Proof.
  unfold before, later, not_before. intros H. rewrite (cmp_opp _ BC key lo). destruct (bytes_cmp key lo) eqn:E1; simpl; auto.
  - right. split; auto. destruct (bytes_cmp lo c) eqn:E2; auto. rewrite E1 in H. discriminate.
  - right. split; auto. destruct (bytes_cmp lo c) eqn:E2; auto. rewrite E1 in H. discriminate.
Qed.

Lemma covers_last U o n lo L d : fair U d -> covers U o n (Some lo) L d ->
  covers U o n None (L ++ piece (Some lo) None (brange (key_bounds_1 n) (idx o d))) d.
Proof.
  intros F [H1 H2]. apply covers_piece; auto. intros t _ Hn. destruct (before (Some lo) (enc o t)) eqn:Eb; [left; auto|right].
  split; auto. unfold before, not_before in *. rewrite (cmp_opp _ BC (enc o t) lo). now destruct (bytes_cmp (enc o t) lo).
Qed.

Lemma covers_next U o n lo c L d : fair U d -> covers U o n (Some lo) L d ->
  covers U o n (Some (later (Some lo) c)) (L ++ piece (Some lo) (Some c) (brange (key_bounds_1 n) (idx o d))) d.
Proof.
  intros F [H1 H2]. apply covers_piece; auto. intros t Hb Hn. destruct (before_later _ _ _ Hb) as [H|H]; auto.
Qed.

Lemma covers_calm Q U U' o n lim L d x : (forall t, fst (fst (comps o t)) = n -> Q t) -> (forall r, U r -> U' r) ->
  calm Q U d x -> covers U o n lim L d -> covers U' o n lim L x.
Proof.
  intros HQ HU [C1 C2] [H1 H2]. split.
  - intros t r Hn Hb Hr. destruct (C1 t (HQ t Hn)) as [Hs|[Hs _]].
    + apply H1; auto. now rewrite <- Hs.
    + rewrite Hs in Hr. discriminate.
  - intros kv Hin. destruct (H2 kv Hin) as (t & r & -> & Hn & Hu & Hr). exists t, r. split; auto. split; auto. split; auto.
    destruct (C1 t (HQ t Hn)) as [Hs|[Hs Hs']].
    + destruct Hr as [Hr|[Hr1 Hr2]]; [left; now rewrite Hs|]. right. split; auto. intros o'. rewrite Hs. apply Hr1.
    + right. split; auto. destruct Hr as [Hr|[Hr1 Hr2]]; eauto.
Qed.

Lemma covers_good U o n lim L d : covers U o n lim L d -> Forall (good_len (k := k)) L.
Proof.
  intros [_ H]. apply Forall_forall. intros kv Hin. destruct (H kv Hin) as (t & r & -> & _).
  unfold good_len. simpl. apply enc_length.
Qed.

Lemma removes_ext keys keys' (m : tree) : om_sorted bytes_cmp m ->
  (forall j, bget j m <> None -> In j keys <-> In j keys') -> removes keys m = removes keys' m.
Proof.
  intros S H. apply (om_get_ext BC); try now apply removes_sorted.
  intros j. destruct (bget j m) as [v|] eqn:Hj.
  - assert (In j keys <-> In j keys') as Hi by (apply H; congruence).
    destruct (in_dec bytes_dec j keys) as [Hk|Hk].
    + rewrite !removes_get_in; tauto.
    + rewrite !removes_get_notin; tauto.
  - now rewrite !get_removes.
Qed.

Lemma late_remove_node U n Lf Lb d : fair U d -> agree_at n d -> covers U SPO n None Lf d -> covers U OSP n None Lb d ->
  remove_node_txn (SE := SE) (BE := BE) n (fwd (k := k) Lf no_batches) (bwd (k := k) Lb no_batches) d = Ok (tt, d_rm_node n d).
Proof.
  intros [F1 F2] A Cf Cb. pose proof (covers_good _ _ _ _ _ _ Cf) as Gf. pose proof (covers_good _ _ _ _ _ _ Cb) as Gb.
  unfold remove_node_txn, t_bind, t_remove, t_apply_removals, t_ret. f_equal. f_equal.
  transitivity (d_del_node n (d_rm_many (map (ent (k := k) SPO) Lf ++ map (ent OSP) Lb) (map snd Lf ++ map snd Lb) d)).
  { unfold d_del_node, d_rm_many. cbn [set_tbl tbl t_node t_edge t_spo t_pos t_osp fwd bwd b_spo b_pos b_osp b_edge no_batches app].
    rewrite !map_app, !removes_app. unfold removes. f_equal.
    - rewrite map_ent_fst by auto. rewrite map_map. reflexivity.
    - rewrite !map_map. reflexivity.
    - rewrite map_ent_fst by auto. rewrite map_map. reflexivity. }
  unfold d_rm_node. f_equal.
  set (fs := brange (key_bounds_1 n) (t_spo d)). set (bs := brange (key_bounds_1 n) (t_osp d)).
  destruct Cf as [Cf1 Cf2]. destruct Cb as [Cb1 Cb2].
  assert (forall t o, rid o d t <> None ->
    In t (map (ent SPO) Lf ++ map (ent OSP) Lb) <-> In t (map (ent SPO) fs ++ map (ent OSP) bs)) as Ht.
  { intros t o Hr.
    assert (sub t = n \/ obj t = n -> forall o', rid o' d t = rid o d t) as Ao by (intros Hn o'; now rewrite (A o), (A o')).
    pose proof (in_ent ce U d SPO n t F2) as Es. change (brange (key_bounds_1 n) (idx SPO d)) with fs in Es.
    pose proof (in_ent ce U d OSP n t F2) as Eo. change (brange (key_bounds_1 n) (idx OSP d)) with bs in Eo.
    rewrite !in_app_iff, Es, Eo, !in_map_iff.
    split; intros [H|H].
    - left. destruct H as (kv & Ht & Hin). destruct (Cf2 kv Hin) as (u & r & -> & Hn & _).
      change (ent SPO (enc SPO u, r)) with (dec SPO (enc SPO u) : T) in Ht. rewrite dec_enc in Ht. subst u.
      rewrite Ao by (left; exact Hn). auto.
    - right. destruct H as (kv & Ht & Hin). destruct (Cb2 kv Hin) as (u & r & -> & Hn & _).
      change (ent OSP (enc OSP u, r)) with (dec OSP (enc OSP u) : T) in Ht. rewrite dec_enc in Ht. subst u.
      rewrite Ao by (right; exact Hn). auto.
    - left. destruct H as [_ Hn]. assert (rid SPO d t <> None) as Hs by (rewrite Ao by (left; exact Hn); exact Hr).
      destruct (rid SPO d t) as [r|] eqn:Er; [|congruence].
      exists (enc SPO t, r). split; [apply dec_enc|]. apply Cf1; auto.
    - right. destruct H as [_ Hn]. assert (rid OSP d t <> None) as Hs by (rewrite Ao by (right; exact Hn); exact Hr).
      destruct (rid OSP d t) as [r|] eqn:Er; [|congruence].
      exists (enc OSP t, r). split; [apply dec_enc|]. apply Cb1; auto. }
  assert (forall o, removes (map (enc o) (map (ent (k := k) SPO) Lf ++ map (ent OSP) Lb)) (idx o d) =
    removes (map (enc o) (map (ent (k := k) SPO) fs ++ map (ent OSP) bs)) (idx o d)) as Hi.
  { intros o. apply removes_ext; [apply (fe_isorted ce _ _ F2)|]. intros j Hj.
    destruct (bget j (idx o d)) as [r|] eqn:Ej; [|congruence].
    pose proof Ej as Ei. apply (get_iff_in BC _ _ _ (fe_isorted ce _ _ F2 o)) in Ei.
    destruct (fe_keys ce _ _ F2 _ _ _ Ei) as [t ->].
    rewrite !enc_in. apply (Ht t o). unfold rid. rewrite Ej. exact Hj. }
  unfold d_rm_many. f_equal; [|apply (Hi SPO)|apply (Hi POS)|apply (Hi OSP)].
  apply removes_ext; [apply (fe_sorted ce _ _ F2)|]. intros r Hr. rewrite !in_app_iff, !in_map_iff.
  split; intros [([key r'] & <- & Hin)|([key r'] & <- & Hin)]; simpl in Hr.
  - left. destruct (Cf2 _ Hin) as (t & r & [= -> ->] & Hn & _ & [Hx|[_ Hx]]); [|simpl in Hr; congruence].
    exists (enc SPO t, r). split; auto. apply (in_range_entry ce U d SPO); eauto.
  - right. destruct (Cb2 _ Hin) as (t & r & [= -> ->] & Hn & _ & [Hx|[_ Hx]]); [|simpl in Hr; congruence].
    exists (enc OSP t, r). split; auto. apply (in_range_entry ce U d OSP); eauto.
  - left. apply (in_range_entry ce U d SPO) in Hin; auto. destruct Hin as (t & -> & Hx & Hn).
    exists (enc SPO t, r'). split; auto.
  - right. apply (in_range_entry ce U d OSP) in Hin; auto. destruct Hin as (t & -> & Hx & Hn).
    exists (enc OSP t, r'). split; auto.
Qed.

End Calm.
