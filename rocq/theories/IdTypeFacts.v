(** Facts about IdType.v: codecs, order, key bounds. *)
From Coq Require Import Arith NArith List Lia Bool.
From Verif Require Import Bytes BytesFacts Core OMap OMapFacts IdType.
Import ListNotations.

Lemma id_cmp_ok k : cmp_ok (@id_cmp k).
Proof. apply uint_cmp_ok. Qed.

Lemma id_eqb_eq {k} (a b : Id k) : id_eqb a b = true <-> a = b.
Proof. apply uint_eqb_eq. Qed.

Lemma id_eq_dec {k} (a b : Id k) : {a = b} + {a <> b}.
Proof. apply uint_eq_dec. Defined.

Lemma triple_eq_dec {k} (a b : triple (Id k)) : {a = b} + {a <> b}.
Proof. decide equality; apply id_eq_dec. Defined.

Lemma width_pos k : width k <> 0.
Proof. now destruct k. Qed.

(** ** Identifiers *)
Lemma to_be_bytes_uint {k} (a : Id k) : to_be_bytes a = uint_to_be_bytes a.
Proof. now destruct k. Qed.

Lemma from_be_bytes_uint {k} l : @from_be_bytes k l = uint_from_be_bytes (width k) l.
Proof. now destruct k. Qed.

Lemma try_from_be_bytes_uint {k} l :
  @try_from_be_bytes k l =
  if Nat.eqb (length l) (width k) then Some (uint_from_be_bytes (width k) l) else None.
Proof.
  destruct k; simpl; unfold u64_try_from_be_bytes, ulid_try_from_be_bytes, try_into_array;
  [destruct (Nat.eqb (length l) 8) | destruct (Nat.eqb (length l) 16)]; reflexivity.
Qed.

Lemma to_be_bytes_length {k} (a : Id k) : length (to_be_bytes a) = width k.
Proof. rewrite to_be_bytes_uint. apply uint_to_be_bytes_length. Qed.

Lemma from_to_be_bytes {k} (a : Id k) : from_be_bytes (to_be_bytes a) = a.
Proof. rewrite to_be_bytes_uint, from_be_bytes_uint. apply uint_roundtrip. Qed.

Lemma to_from_be_bytes {k} l :
  length l = width k -> to_be_bytes (@from_be_bytes k l) = l.
Proof. rewrite to_be_bytes_uint, from_be_bytes_uint. apply uint_roundtrip_bytes. Qed.

Lemma try_from_to_be_bytes {k} (a : Id k) : try_from_be_bytes (to_be_bytes a) = Some a.
Proof.
  rewrite try_from_be_bytes_uint, to_be_bytes_length, Nat.eqb_refl.
  rewrite to_be_bytes_uint. now rewrite uint_roundtrip.
Qed.

Lemma try_from_be_bytes_spec {k} l :
  @try_from_be_bytes k l =
  if Nat.eqb (length l) (width k) then Some (from_be_bytes l) else None.
Proof. now rewrite try_from_be_bytes_uint, from_be_bytes_uint. Qed.

Lemma to_be_bytes_inj {k} (a b : Id k) : to_be_bytes a = to_be_bytes b -> a = b.
Proof. rewrite !to_be_bytes_uint. apply uint_to_be_bytes_inj. Qed.

Lemma to_be_bytes_cmp {k} (a b : Id k) :
  bytes_cmp (to_be_bytes a) (to_be_bytes b) = id_cmp a b.
Proof. rewrite !to_be_bytes_uint. apply uint_to_be_bytes_cmp. Qed.

(** ** Slices *)
Lemma copy_slice_app (pre mid post src : bytes) lo hi :
  length pre = lo -> lo + length mid = hi -> length src = length mid ->
  copy_from_slice (pre ++ mid ++ post) lo hi src = Some (pre ++ src ++ post).
Proof.
  intros <- <- H. unfold copy_from_slice.
  rewrite !app_length.
  replace (Nat.leb (length pre) (length pre + length mid)) with true
    by (symmetry; apply Nat.leb_le; lia).
  replace (Nat.leb (length pre + length mid) (length pre + (length mid + length post)))
    with true by (symmetry; apply Nat.leb_le; lia).
  replace (Nat.eqb (length src) (length pre + length mid - length pre)) with true
    by (symmetry; apply Nat.eqb_eq; lia).
  simpl. f_equal.
  rewrite firstn_app, firstn_all, Nat.sub_diag. simpl. rewrite app_nil_r.
  f_equal. f_equal.
  rewrite skipn_app, skipn_app, !skipn_all2 by lia.
  replace (length pre + length mid - length pre - length mid) with 0 by lia. reflexivity.
Qed.

Lemma three_writes_ok w a b c :
  length a = w -> length b = w -> length c = w ->
  three_writes (w + w + w) (0, w, a) (w, w + w, b) (w + w, w + w + w, c)
  = Some (a ++ b ++ c).
Proof.
  intros Ha Hb Hc. unfold three_writes.
  rewrite !repeat_app.
  set (z := repeat Byte.x00 w).
  assert (length z = w) as Hz by apply repeat_length.
  rewrite <- app_assoc.
  rewrite (copy_slice_app [] z (z ++ z) a) by (simpl; congruence).
  cbn [app].
  rewrite (copy_slice_app a z z b) by congruence.
  replace (a ++ b ++ z) with ((a ++ b) ++ z ++ []) by now rewrite app_nil_r, app_assoc.
  rewrite (copy_slice_app (a ++ b) z [] c); try congruence.
  - now rewrite app_nil_r, app_assoc.
  - rewrite app_length. congruence.
Qed.

Definition concat3 {k} (a b c : Id k) : bytes :=
  to_be_bytes a ++ to_be_bytes b ++ to_be_bytes c.

Lemma encode_spo_opt_eq {k} (t : triple (Id k)) :
  encode_spo_opt t = Some (concat3 (sub t) (pred t) (obj t)).
Proof.
  destruct k.
  - apply (three_writes_ok 8); apply uint_to_be_bytes_length.
  - apply (three_writes_ok 16); apply uint_to_be_bytes_length.
Qed.

Lemma encode_pos_opt_eq {k} (t : triple (Id k)) :
  encode_pos_opt t = Some (concat3 (pred t) (obj t) (sub t)).
Proof.
  destruct k.
  - apply (three_writes_ok 8); apply uint_to_be_bytes_length.
  - apply (three_writes_ok 16); apply uint_to_be_bytes_length.
Qed.

Lemma encode_osp_opt_eq {k} (t : triple (Id k)) :
  encode_osp_opt t = Some (concat3 (obj t) (sub t) (pred t)).
Proof.
  destruct k.
  - apply (three_writes_ok 8); apply uint_to_be_bytes_length.
  - apply (three_writes_ok 16); apply uint_to_be_bytes_length.
Qed.

Lemma encode_spo_eq {k} (t : triple (Id k)) :
  encode_spo t = concat3 (sub t) (pred t) (obj t).
Proof. unfold encode_spo. now rewrite encode_spo_opt_eq. Qed.
Lemma encode_pos_eq {k} (t : triple (Id k)) :
  encode_pos t = concat3 (pred t) (obj t) (sub t).
Proof. unfold encode_pos. now rewrite encode_pos_opt_eq. Qed.
Lemma encode_osp_eq {k} (t : triple (Id k)) :
  encode_osp t = concat3 (obj t) (sub t) (pred t).
Proof. unfold encode_osp. now rewrite encode_osp_opt_eq. Qed.

Lemma concat3_length {k} (a b c : Id k) : length (concat3 a b c) = 3 * width k.
Proof. unfold concat3. rewrite !app_length, !to_be_bytes_length. lia. Qed.

Lemma concat3_cmp {k} (a b c a' b' c' : Id k) :
  bytes_cmp (concat3 a b c) (concat3 a' b' c') =
  match id_cmp a a' with
  | Eq => match id_cmp b b' with Eq => id_cmp c c' | r => r end
  | r => r
  end.
Proof.
  unfold concat3.
  rewrite !bytes_cmp_app by (rewrite !to_be_bytes_length; reflexivity).
  now rewrite !to_be_bytes_cmp.
Qed.

Lemma concat3_inj {k} (a b c a' b' c' : Id k) :
  concat3 a b c = concat3 a' b' c' -> a = a' /\ b = b' /\ c = c'.
Proof.
  intros H. apply (cmp_eq _ bytes_cmp_ok) in H. rewrite concat3_cmp in H.
  pose proof (id_cmp_ok k) as C.
  destruct (id_cmp a a') eqn:E1; try discriminate.
  destruct (id_cmp b b') eqn:E2; try discriminate.
  apply (cmp_eq _ C) in E1, E2, H. auto.
Qed.

(** Splitting an array in three. *)
Lemma split3 w (d : bytes) : length d = w + w + w ->
  exists a b c, d = a ++ b ++ c /\ length a = w /\ length b = w /\ length c = w.
Proof.
  intros H. exists (firstn w d), (firstn w (skipn w d)), (skipn w (skipn w d)).
  rewrite !firstn_skipn. rewrite !firstn_length, !skipn_length. repeat split; lia.
Qed.

Lemma index_app (pre mid post : bytes) lo hi :
  length pre = lo -> lo + length mid = hi ->
  index_range (pre ++ mid ++ post) lo hi = Some mid.
Proof.
  intros <- <-. unfold index_range. rewrite !app_length.
  replace (Nat.leb (length pre) (length pre + length mid)) with true
    by (symmetry; apply Nat.leb_le; lia).
  replace (Nat.leb (length pre + length mid) (length pre + (length mid + length post)))
    with true by (symmetry; apply Nat.leb_le; lia).
  simpl. f_equal. rewrite skipn_app, skipn_all, Nat.sub_diag. simpl.
  replace (length pre + length mid - length pre) with (length mid) by lia.
  rewrite firstn_app, firstn_all, Nat.sub_diag. simpl. apply app_nil_r.
Qed.

Lemma u64_read3 a b c : length a = 8 -> length b = 8 -> length c = 8 ->
  u64_read (a ++ b ++ c) 0 8 = Some (u64_from_be_bytes a) /\
  u64_read (a ++ b ++ c) 8 16 = Some (u64_from_be_bytes b) /\
  u64_read (a ++ b ++ c) 16 24 = Some (u64_from_be_bytes c).
Proof.
  intros Ha Hb Hc. unfold u64_read.
  pose proof (index_app [] a (b ++ c) 0 8 eq_refl ltac:(simpl; lia)) as I0.
  cbn [app] in I0. rewrite I0.
  rewrite (index_app a b c 8 16) by lia.
  replace (a ++ b ++ c) with ((a ++ b) ++ c ++ []) by now rewrite app_nil_r, app_assoc.
  rewrite (index_app (a ++ b) c [] 16 24) by (rewrite ?app_length; lia).
  unfold try_into_array. rewrite Ha, Hb, Hc. simpl. auto.
Qed.

Lemma ulid_read3 a b c : length a = 16 -> length b = 16 -> length c = 16 ->
  ulid_read (a ++ b ++ c) 0 16 = Some (ulid_from_be_bytes a) /\
  ulid_read (a ++ b ++ c) 16 32 = Some (ulid_from_be_bytes b) /\
  ulid_read (a ++ b ++ c) 32 48 = Some (ulid_from_be_bytes c).
Proof.
  intros Ha Hb Hc. unfold ulid_read.
  pose proof (index_app [] a (b ++ c) 0 16 eq_refl ltac:(simpl; lia)) as I0.
  cbn [app] in I0. rewrite I0.
  rewrite (index_app a b c 16 32) by lia.
  replace (a ++ b ++ c) with ((a ++ b) ++ c ++ []) by now rewrite app_nil_r, app_assoc.
  rewrite (index_app (a ++ b) c [] 32 48) by (rewrite ?app_length; lia).
  unfold try_into_array. rewrite Ha, Hb, Hc. simpl. auto.
Qed.

Lemma decode_opt3 {k} a b c :
  length a = width k -> length b = width k -> length c = width k ->
  @decode_spo_opt k (a ++ b ++ c) = Some (Triple (from_be_bytes a) (from_be_bytes b) (from_be_bytes c)) /\
  @decode_pos_opt k (a ++ b ++ c) = Some (Triple (from_be_bytes c) (from_be_bytes a) (from_be_bytes b)) /\
  @decode_osp_opt k (a ++ b ++ c) = Some (Triple (from_be_bytes b) (from_be_bytes c) (from_be_bytes a)).
Proof.
  destruct k; intros Ha Hb Hc;
    unfold decode_spo_opt, decode_pos_opt, decode_osp_opt,
      u64_decode_spo_opt, u64_decode_pos_opt, u64_decode_osp_opt,
      ulid_decode_spo_opt, ulid_decode_pos_opt, ulid_decode_osp_opt.
  - destruct (u64_read3 a b c Ha Hb Hc) as (-> & -> & ->). auto.
  - destruct (ulid_read3 a b c Ha Hb Hc) as (-> & -> & ->). auto.
Qed.

Lemma decode_spo_opt_concat3 {k} (a b c : Id k) :
  decode_spo_opt (concat3 a b c) = Some (Triple a b c).
Proof.
  unfold concat3.
  destruct (@decode_opt3 k (to_be_bytes a) (to_be_bytes b) (to_be_bytes c)) as (E & _ & _);
    try apply to_be_bytes_length.
  now rewrite E, !from_to_be_bytes.
Qed.
Lemma decode_pos_opt_concat3 {k} (a b c : Id k) :
  decode_pos_opt (concat3 a b c) = Some (Triple c a b).
Proof.
  unfold concat3.
  destruct (@decode_opt3 k (to_be_bytes a) (to_be_bytes b) (to_be_bytes c)) as (_ & E & _);
    try apply to_be_bytes_length.
  now rewrite E, !from_to_be_bytes.
Qed.
Lemma decode_osp_opt_concat3 {k} (a b c : Id k) :
  decode_osp_opt (concat3 a b c) = Some (Triple b c a).
Proof.
  unfold concat3.
  destruct (@decode_opt3 k (to_be_bytes a) (to_be_bytes b) (to_be_bytes c)) as (_ & _ & E);
    try apply to_be_bytes_length.
  now rewrite E, !from_to_be_bytes.
Qed.

(** ** By order *)
Definition enc {k} (o : edge_order) (t : triple (Id k)) : bytes :=
  match o with SPO => encode_spo t | POS => encode_pos t | OSP => encode_osp t end.
Definition dec {k} (o : edge_order) (d : bytes) : triple (Id k) :=
  match o with SPO => decode_spo d | POS => decode_pos d | OSP => decode_osp d end.

(** Components of a triple in the sequence named by the order. *)
Definition comps {I} (o : edge_order) (t : triple I) : I * I * I :=
  match o with
  | SPO => (sub t, pred t, obj t)
  | POS => (pred t, obj t, sub t)
  | OSP => (obj t, sub t, pred t)
  end.

Lemma enc_eq {k} o (t : triple (Id k)) :
  enc o t = let '(a, b, c) := comps o t in concat3 a b c.
Proof.
  destruct o; simpl; [apply encode_spo_eq | apply encode_pos_eq | apply encode_osp_eq].
Qed.

Lemma comps_inj {I} o (t u : triple I) : comps o t = comps o u -> t = u.
Proof. destruct o, t, u; simpl; congruence. Qed.

Lemma enc_inj {k} o (t u : triple (Id k)) : enc o t = enc o u -> t = u.
Proof.
  rewrite !enc_eq. intros H. apply (comps_inj o).
  destruct (comps o t) as [[a b] c], (comps o u) as [[a' b'] c'].
  apply concat3_inj in H. destruct H as (-> & -> & ->). reflexivity.
Qed.

Lemma dec_enc {k} o (t : triple (Id k)) : dec o (enc o t) = t.
Proof.
  destruct o; simpl; unfold decode_spo, decode_pos, decode_osp.
  - rewrite encode_spo_eq, decode_spo_opt_concat3. now destruct t.
  - rewrite encode_pos_eq, decode_pos_opt_concat3. now destruct t.
  - rewrite encode_osp_eq, decode_osp_opt_concat3. now destruct t.
Qed.

Lemma enc_length {k} o (t : triple (Id k)) : length (enc o t) = 3 * width k.
Proof. rewrite enc_eq. destruct (comps o t) as [[a b] c]. apply concat3_length. Qed.

Lemma enc_dec {k} o (d : bytes) : length d = 3 * width k -> enc o (@dec k o d) = d.
Proof.
  intros H. destruct (split3 (width k) d) as (a & b & c & -> & Ha & Hb & Hc); [lia|].
  destruct (@decode_opt3 k a b c Ha Hb Hc) as (E1 & E2 & E3).
  destruct o; simpl; unfold decode_spo, decode_pos, decode_osp.
  - rewrite E1, encode_spo_eq. unfold concat3. simpl. now rewrite !to_from_be_bytes.
  - rewrite E2, encode_pos_eq. unfold concat3. simpl. now rewrite !to_from_be_bytes.
  - rewrite E3, encode_osp_eq. unfold concat3. simpl. now rewrite !to_from_be_bytes.
Qed.

(** Lexicographic comparison by the components of an order. *)
Definition comps_cmp {k} (o : edge_order) (t u : triple (Id k)) : comparison :=
  let '(a, b, c) := comps o t in
  let '(a', b', c') := comps o u in
  match id_cmp a a' with
  | Eq => match id_cmp b b' with Eq => id_cmp c c' | r => r end
  | r => r
  end.

Lemma enc_cmp {k} o (t u : triple (Id k)) : bytes_cmp (enc o t) (enc o u) = comps_cmp o t u.
Proof.
  rewrite !enc_eq. unfold comps_cmp.
  destruct (comps o t) as [[a b] c], (comps o u) as [[a' b'] c']. apply concat3_cmp.
Qed.

Lemma comps_cmp_ok k o : cmp_ok (@comps_cmp k o).
Proof.
  pose proof bytes_cmp_ok as B. split.
  - intros a b. rewrite <- enc_cmp, (cmp_eq _ B). split; [apply enc_inj | congruence].
  - intros a b. rewrite <- !enc_cmp. apply (cmp_opp _ B).
  - intros a b c. rewrite <- !enc_cmp. apply (cmp_trans _ B).
Qed.

Lemma tr_cmp_spo {k} (t u : triple (Id k)) : tr_cmp t u = comps_cmp SPO t u.
Proof.
  unfold tr_cmp, triple_cmp, comps_cmp. simpl.
  destruct (id_cmp (sub t) (sub u)); auto.
Qed.

Lemma tr_cmp_ok k : cmp_ok (@tr_cmp k).
Proof.
  pose proof (comps_cmp_ok k SPO) as B. split.
  - intros a b. rewrite tr_cmp_spo. apply (cmp_eq _ B).
  - intros a b. rewrite !tr_cmp_spo. apply (cmp_opp _ B).
  - intros a b c. rewrite !tr_cmp_spo. apply (cmp_trans _ B).
Qed.

Lemma tr_eqb_eq {k} (t u : triple (Id k)) : tr_eqb t u = true <-> t = u.
Proof.
  unfold tr_eqb, triple_eqb. rewrite !andb_true_iff, !id_eqb_eq.
  destruct t, u; simpl. split; [intros [[-> ->] ->]; auto | intros [= -> -> ->]; auto].
Qed.

(** ** Key bounds *)
Lemma key_bounds_1_eq {k} (a : Id k) :
  key_bounds_1 a = (concat3 a id_min id_min, concat3 a id_max id_max).
Proof.
  destruct k; simpl; unfold u64_key_bounds_1, ulid_key_bounds_1;
    rewrite !encode_spo_eq; reflexivity.
Qed.

Lemma key_bounds_2_eq {k} (a b : Id k) :
  key_bounds_2 a b = (concat3 a b id_min, concat3 a b id_max).
Proof.
  destruct k; simpl; unfold u64_key_bounds_2, ulid_key_bounds_2;
    rewrite !encode_spo_eq; reflexivity.
Qed.

Lemma id_min_le {k} (a : Id k) : id_cmp id_min a <> Gt.
Proof.
  unfold id_cmp, uint_cmp, id_min. rewrite uval_min. rewrite N.compare_gt_iff. lia.
Qed.

Lemma id_le_max {k} (a : Id k) : id_cmp a id_max <> Gt.
Proof.
  unfold id_cmp, uint_cmp, id_max. rewrite uval_max. pose proof (uval_lt a).
  rewrite N.compare_gt_iff. lia.
Qed.

Lemma in_bounds_1_concat3 {k} (a x y z : Id k) :
  in_range bytes_cmp (fst (key_bounds_1 a)) (snd (key_bounds_1 a)) (concat3 x y z) = true
  <-> x = a.
Proof.
  pose proof (id_cmp_ok k) as C.
  rewrite key_bounds_1_eq. simpl. rewrite in_range_spec, !concat3_cmp.
  pose proof (id_min_le y). pose proof (id_min_le z).
  pose proof (id_le_max y). pose proof (id_le_max z).
  rewrite (cmp_opp _ C a x). split.
  - destruct (id_cmp a x) eqn:E; simpl; intros [H3 H4]; try congruence.
    apply (cmp_eq _ C) in E. auto.
  - intros ->. rewrite (cmp_refl C). simpl.
    destruct (id_cmp id_min y), (id_cmp y id_max); split; try congruence; auto.
Qed.

Lemma in_bounds_2_concat3 {k} (a b x y z : Id k) :
  in_range bytes_cmp (fst (key_bounds_2 a b)) (snd (key_bounds_2 a b)) (concat3 x y z) = true
  <-> x = a /\ y = b.
Proof.
  pose proof (id_cmp_ok k) as C.
  rewrite key_bounds_2_eq. simpl. rewrite in_range_spec, !concat3_cmp.
  pose proof (id_min_le z). pose proof (id_le_max z).
  rewrite (cmp_opp _ C a x), (cmp_opp _ C b y). split.
  - destruct (id_cmp a x) eqn:E; simpl; try (intros [? ?]; congruence).
    apply (cmp_eq _ C) in E. subst x.
    destruct (id_cmp b y) eqn:F; simpl; intros [? ?]; try congruence.
    apply (cmp_eq _ C) in F. auto.
  - intros [-> ->]. rewrite !(cmp_refl C). simpl. auto.
Qed.

Lemma in_bounds_1_enc {k} o (a : Id k) (t : triple (Id k)) :
  in_range bytes_cmp (fst (key_bounds_1 a)) (snd (key_bounds_1 a)) (enc o t) = true
  <-> fst (fst (comps o t)) = a.
Proof. rewrite enc_eq. destruct (comps o t) as [[x y] z]. apply in_bounds_1_concat3. Qed.

Lemma in_bounds_2_enc {k} o (a b : Id k) (t : triple (Id k)) :
  in_range bytes_cmp (fst (key_bounds_2 a b)) (snd (key_bounds_2 a b)) (enc o t) = true
  <-> fst (comps o t) = (a, b).
Proof.
  rewrite enc_eq. destruct (comps o t) as [[x y] z]. simpl.
  rewrite in_bounds_2_concat3. split; [intros [-> ->] | intros [= -> ->]]; auto.
Qed.

Lemma key_bounds_1_no_panic {k} (a : Id k) :
  range_panics bytes_cmp (fst (key_bounds_1 a)) (snd (key_bounds_1 a)) = false.
Proof.
  unfold range_panics. rewrite key_bounds_1_eq. simpl. rewrite concat3_cmp.
  rewrite (cmp_refl (id_cmp_ok k)). pose proof (id_min_le (@id_max k)).
  destruct (id_cmp id_min id_max); congruence.
Qed.

Lemma key_bounds_2_no_panic {k} (a b : Id k) :
  range_panics bytes_cmp (fst (key_bounds_2 a b)) (snd (key_bounds_2 a b)) = false.
Proof.
  unfold range_panics. rewrite key_bounds_2_eq. simpl. rewrite concat3_cmp.
  rewrite !(cmp_refl (id_cmp_ok k)). pose proof (id_min_le (@id_max k)).
  destruct (id_cmp id_min id_max); congruence.
Qed.

(** Panic freedom of the codecs. *)
Lemma decode_no_panic {k} o (d : bytes) : length d = 3 * width k ->
  match o with
  | SPO => @decode_spo_opt k d | POS => decode_pos_opt d | OSP => decode_osp_opt d
  end = Some (dec o d).
Proof.
  intros H. destruct (split3 (width k) d) as (a & b & c & -> & Ha & Hb & Hc); [lia|].
  destruct (@decode_opt3 k a b c Ha Hb Hc) as (E1 & E2 & E3).
  destruct o; simpl; unfold decode_spo, decode_pos, decode_osp; rewrite ?E1, ?E2, ?E3; auto.
Qed.

Lemma encode_no_panic {k} o (t : triple (Id k)) :
  match o with
  | SPO => encode_spo_opt t | POS => encode_pos_opt t | OSP => encode_osp_opt t
  end = Some (enc o t).
Proof.
  destruct o; simpl; unfold encode_spo, encode_pos, encode_osp;
    rewrite ?encode_spo_opt_eq, ?encode_pos_opt_eq, ?encode_osp_opt_eq; reflexivity.
Qed.
