(** Lemmas about IdGen.v and MemIndex.v. *)
From Coq Require Import NArith List Lia Arith Sorted.
From Verif Require Import Bytes BytesFacts Core IdType IdTypeFacts Store Spec IdGen MemIndex GenSpec.
Import ListNotations.

(** ** U64IdGenerator *)
Lemma set_nth_length {A} (a : A) : forall l n, length (set_nth n a l) = length l.
Proof. induction l as [|x l IH]; intros [|n]; simpl; auto. Qed.

Lemma nth_set_eq {A} (a : A) : forall l n, n < length l -> nth_error (set_nth n a l) n = Some a.
Proof. induction l as [|x l IH]; intros [|n] H; simpl in *; auto; try lia. apply IH. lia. Qed.

Lemma nth_set_neq {A} (a : A) : forall l n m, n <> m -> nth_error (set_nth n a l) m = nth_error l m.
Proof. induction l as [|x l IH]; intros [|n] [|m] H; simpl; auto; congruence. Qed.

Lemma gen_run_app es : forall w es',
  gen_run w (es ++ es') =
  (fst (gen_run (fst (gen_run w es)) es'), snd (gen_run w es) ++ snd (gen_run (fst (gen_run w es)) es')).
Proof.
  induction es as [|e es IH]; intros w es'; simpl.
  - now destruct (gen_run w es').
  - destruct (gen_step w e) as [w1 o]. rewrite IH.
    destruct (gen_run w1 es) as [w2 ds]. simpl. now destruct o.
Qed.

Definition nth_value (v : Id KU64) (n : nat) : Id KU64 := uint_mk 8 (uval v + N.of_nat n).

Lemma nth_value_next v n : fetch_add_1 (nth_value v n) = nth_value v (S n).
Proof.
  apply uint_ext. unfold fetch_add_1, nth_value. rewrite !uval_mk.
  rewrite N.add_mod_idemp_l by (pose proof (modulus_pos 8); lia). f_equal. lia.
Qed.

Definition mine (rts : list nat) (r : nat) (d : nat * Id KU64) : bool :=
  match nth_error rts (fst d) with Some r' => Nat.eqb r' r | None => false end.

Lemma nth_app_old {A} (l : list A) x n : n < length l -> nth_error (l ++ [x]) n = nth_error l n.
Proof. intros. now rewrite nth_error_app1. Qed.
Lemma nth_app_new {A} (l : list A) x : nth_error (l ++ [x]) (length l) = Some x.
Proof. rewrite nth_error_app2 by lia. now rewrite Nat.sub_diag. Qed.
Lemma nth_app_some {A} (l : list A) x n y :
  nth_error (l ++ [x]) n = Some y -> nth_error l n = Some y \/ (n = length l /\ y = x).
Proof.
  intros H. destruct (Nat.lt_ge_cases n (length l)) as [L|L].
  - left. now rewrite nth_app_old in H.
  - right. rewrite nth_error_app2 in H by auto.
    destruct (n - length l) as [|m] eqn:E; simpl in H; [|now destruct m].
    split; [lia | congruence].
Qed.

Record inv (w : u64_world) (rts : list nat) (ds : list (nat * Id KU64)) : Prop := {
  iv_len : length rts = length (handles w);
  iv_cell : forall h c, nth_error (handles w) h = Some c -> c < length (cells w);
  iv_drawn : forall d, In d ds -> fst d < length rts;
  iv_root : forall h r, nth_error rts h = Some r ->
    nth_error rts r = Some r /\ nth_error (handles w) h = nth_error (handles w) r;
  iv_apart : forall r r', nth_error rts r = Some r -> nth_error rts r' = Some r' ->
    nth_error (handles w) r = nth_error (handles w) r' -> r = r';
  iv_seq : forall r, nth_error rts r = Some r ->
    exists c v, nth_error (handles w) r = Some c /\
      let l := map snd (filter (mine rts r) ds) in
      nth_error (cells w) c = Some (nth_value v (length l)) /\ l = map (nth_value v) (seq 0 (length l))
}.

Lemma filter_mine_grow rts x r ds :
  (forall d, In d ds -> fst d < length rts) ->
  filter (mine (rts ++ [x]) r) ds = filter (mine rts r) ds.
Proof.
  intros H. apply filter_ext_in. intros d Hd. unfold mine. now rewrite nth_app_old by auto.
Qed.

Lemma filter_mine_none rts r ds :
  (forall d, In d ds -> fst d < length rts) -> length rts <= r ->
  (forall h r', nth_error rts h = Some r' -> r' < length rts) -> filter (mine rts r) ds = [].
Proof.
  intros H L K. induction ds as [|d ds IH]; simpl; auto.
  unfold mine at 1. destruct (nth_error rts (fst d)) as [r'|] eqn:E.
  - apply K in E. destruct (Nat.eqb_spec r' r); [lia|]. apply IH. intros; apply H; simpl; auto.
  - apply IH. intros; apply H; simpl; auto.
Qed.

Lemma inv_step w rts ds e :
  inv w rts ds ->
  inv (fst (gen_step w e)) (root_step rts e)
      (ds ++ match snd (gen_step w e) with Some d => [d] | None => [] end).
Proof.
  intros [Il Ic Id Ir Ia Is].
  assert (Rlt : forall h r, nth_error rts h = Some r -> r < length rts).
  { intros h r H. apply Ir in H. destruct H as [H _]. apply nth_error_Some. congruence. }
  destruct e as [v|h|h]; simpl.
  - (* new *)
    rewrite app_nil_r. constructor; simpl.
    + rewrite !app_length, Il. reflexivity.
    + intros h c H. rewrite app_length. simpl. apply nth_app_some in H.
      destruct H as [H|[_ ->]]; [apply Ic in H|]; lia.
    + intros d H. rewrite app_length. apply Id in H. lia.
    + intros h r H. apply nth_app_some in H. destruct H as [H|[-> ->]].
      * destruct (Ir _ _ H) as [H1 H2]. pose proof (Rlt _ _ H).
        assert (h < length rts) by (apply nth_error_Some; congruence).
        rewrite !nth_app_old by (rewrite <- ?Il; auto). auto.
      * rewrite nth_app_new. auto.
    + intros r r' H H' E. apply nth_app_some in H. apply nth_app_some in H'.
      destruct H as [H|[-> _]], H' as [H'|[-> _]]; auto.
      * pose proof (Rlt _ _ H). pose proof (Rlt _ _ H').
        rewrite !nth_app_old in E by (rewrite <- ?Il; auto). auto.
      * exfalso. pose proof (Rlt _ _ H). rewrite nth_app_old in E by (rewrite <- ?Il; auto).
        rewrite Il, nth_app_new in E. apply Ic in E. lia.
      * exfalso. pose proof (Rlt _ _ H'). symmetry in E. rewrite nth_app_old in E by (rewrite <- ?Il; auto).
        rewrite Il, nth_app_new in E. apply Ic in E. lia.
    + intros r H. apply nth_app_some in H. rewrite filter_mine_grow by auto. destruct H as [H|[-> _]].
      * destruct (Is r H) as (c & v0 & H1 & H2 & H3). exists c, v0. pose proof (Rlt _ _ H).
        rewrite nth_app_old by (rewrite <- ?Il; auto). split; auto. split; auto.
        rewrite nth_app_old; auto. eapply Ic; eauto.
      * exists (length (cells w)), v. rewrite Il, nth_app_new. split; auto.
        rewrite (filter_mine_none rts) by (auto; lia). simpl. rewrite nth_app_new.
        split; auto. f_equal. unfold nth_value. simpl. rewrite N.add_0_r. symmetry. apply (@uint_mk_uval 8).
  - (* clone *)
    destruct (nth_error (handles w) h) as [c|] eqn:Hh; simpl.
    + assert (h < length rts) by (rewrite Il; apply nth_error_Some; congruence).
      destruct (nth_error rts h) as [r0|] eqn:Hr; [|apply nth_error_None in Hr; lia].
      rewrite app_nil_r. destruct (Ir _ _ Hr) as [Hr0 Hc0]. rewrite Hh in Hc0.
      pose proof (Rlt _ _ Hr) as Lr0.
      constructor; simpl.
      * rewrite !app_length, Il. reflexivity.
      * intros h' c' H'. apply nth_app_some in H'. destruct H' as [H'|[_ ->]]; eauto.
      * intros d H'. rewrite app_length. apply Id in H'. lia.
      * intros h' r' H'. apply nth_app_some in H'. destruct H' as [H'|[-> ->]].
        -- destruct (Ir _ _ H') as [H1 H2]. pose proof (Rlt _ _ H').
           assert (h' < length rts) by (apply nth_error_Some; congruence).
           rewrite !nth_app_old by (rewrite <- ?Il; auto). auto.
        -- rewrite (nth_app_old rts) by auto. split; auto.
           rewrite Il, nth_app_new. rewrite nth_app_old by (rewrite <- Il; auto). auto.
      * intros r r' H1 H2 E. apply nth_app_some in H1. apply nth_app_some in H2.
        destruct H1 as [H1|[? ?]]; [|lia]. destruct H2 as [H2|[? ?]]; [|lia].
        pose proof (Rlt _ _ H1). pose proof (Rlt _ _ H2).
        rewrite !nth_app_old in E by (rewrite <- ?Il; auto). auto.
      * intros r H'. apply nth_app_some in H'. destruct H' as [H'|[? ?]]; [|lia].
        rewrite filter_mine_grow by auto. pose proof (Rlt _ _ H').
        rewrite nth_app_old by (rewrite <- ?Il; auto). auto.
    + assert (nth_error rts h = None) as -> by (apply nth_error_None in Hh; apply nth_error_None; rewrite Il; exact Hh).
      rewrite app_nil_r. constructor; auto.
  - (* fresh *)
    destruct (nth_error (handles w) h) as [c|] eqn:Hh; simpl; [|rewrite app_nil_r; constructor; auto].
    pose proof (Ic _ _ Hh) as Lc.
    destruct (nth_error (cells w) c) as [v|] eqn:Hc; [|apply nth_error_None in Hc; lia].
    assert (Lh : h < length rts) by (rewrite Il; apply nth_error_Some; congruence).
    destruct (nth_error rts h) as [r0|] eqn:Hr; [|apply nth_error_None in Hr; lia].
    destruct (Ir _ _ Hr) as [Hr0 Hc0]. rewrite Hh in Hc0.
    simpl. constructor; simpl; auto.
    + intros h' c' H'. rewrite set_nth_length. eauto.
    + intros d H'. apply in_app_iff in H'. destruct H' as [H'|[<-|[]]]; auto.
    + intros r H'. destruct (Is r H') as (c' & v0 & H1 & H2 & H3). exists c', v0. split; auto.
      rewrite filter_app. simpl. unfold mine at 2 4 6. simpl. rewrite Hr.
      destruct (Nat.eqb_spec r0 r) as [->|N].
      * assert (c' = c) by congruence. subst c'. rewrite Hc in H2. injection H2 as ->.
        rewrite map_app, app_length. cbn [map snd length]. rewrite Nat.add_1_r.
        rewrite nth_set_eq by auto. rewrite nth_value_next. split; auto.
        rewrite seq_S, map_app. simpl. now rewrite <- H3.
      * rewrite app_nil_r. split; auto. rewrite nth_set_neq; auto.
        intros <-. apply N. apply Ia; auto. congruence.
Qed.

Lemma inv_run es : inv (fst (gen_run (U64World [] []) es)) (roots es) (snd (gen_run (U64World [] []) es)).
Proof.
  induction es as [|e es IH] using rev_ind.
  - constructor; simpl; auto.
    + intros [|h] c H; discriminate.
    + intros d [].
    + intros [|h] r H; discriminate.
    + intros [|r] r' H; discriminate.
    + intros [|r] H; discriminate.
  - rewrite gen_run_app. unfold roots. rewrite fold_left_app. fold (roots es). simpl.
    pose proof (inv_step _ _ _ e IH) as H.
    destruct (gen_step (fst (gen_run (U64World [] []) es)) e) as [w1 o]. simpl in *.
    destruct o; auto.
Qed.

(** The identifiers of one family count up from the initial value, modulo 2^64. *)
Lemma drawn_sequence es r :
  nth_error (roots es) r = Some r ->
  exists v : Id KU64, drawn_from r es = map (fun i => uint_mk 8 (uval v + N.of_nat i)) (seq 0 (length (drawn_from r es))).
Proof.
  intros H. destruct (iv_seq _ _ _ (inv_run es) r H) as (c & v & _ & _ & E). exists v. exact E.
Qed.

Lemma nth_value_inj v n m :
  (N.of_nat n < 2 ^ 64)%N -> (N.of_nat m < 2 ^ 64)%N -> nth_value v n = nth_value v m -> n = m.
Proof.
  intros Hn Hm E. apply (f_equal uval) in E. unfold nth_value in E. rewrite !uval_mk in E.
  change (modulus 8) with (2 ^ 64)%N in E.
  pose proof (N.div_mod (uval v + N.of_nat n) (2 ^ 64) ltac:(discriminate)) as D1.
  pose proof (N.div_mod (uval v + N.of_nat m) (2 ^ 64) ltac:(discriminate)) as D2.
  rewrite E in D1. set (a := ((uval v + N.of_nat n) / 2 ^ 64)%N) in *.
  set (b := ((uval v + N.of_nat m) / 2 ^ 64)%N) in *.
  set (x := ((uval v + N.of_nat m) mod 2 ^ 64)%N) in *. clearbody a b x.
  assert (a = b)%N by lia. subst b. lia.
Qed.

Lemma filter_all_none {A} (f : A -> bool) l : (forall a, In a l -> f a = false) -> filter f l = [].
Proof.
  induction l as [|a l IH]; simpl; intros H; auto. rewrite (H a) by auto. apply IH. auto.
Qed.

Lemma drawn_not_root es r : nth_error (roots es) r <> Some r -> drawn_from r es = [].
Proof.
  intros H. unfold drawn_from. rewrite filter_all_none; auto. intros d _.
  destruct (nth_error (roots es) (fst d)) as [r'|] eqn:E; auto.
  apply (iv_root _ _ _ (inv_run es)) in E. destruct E as [E _].
  destruct (Nat.eqb_spec r' r); auto. congruence.
Qed.

Lemma seq_map_NoDup {A} (f : nat -> A) n :
  (forall i j, i < n -> j < n -> f i = f j -> i = j) -> NoDup (map f (seq 0 n)).
Proof.
  intros H. apply NoDup_nth_error. intros i j Hi E. rewrite map_length, seq_length in Hi.
  rewrite !nth_error_map in E.
  assert (S : forall a, a < n -> nth_error (seq 0 n) a = Some a).
  { intros a Ha. rewrite (nth_error_nth' _ 0) by (rewrite seq_length; auto). f_equal. now rewrite seq_nth. }
  rewrite (S i Hi) in E. simpl in E.
  destruct (Nat.lt_ge_cases j n) as [Lj|Lj].
  - rewrite (S j Lj) in E. injection E. auto.
  - assert (nth_error (seq 0 n) j = None) as E' by (apply nth_error_None; rewrite seq_length; auto).
    rewrite E' in E. discriminate.
Qed.

Lemma drawn_NoDup es r :
  (N.of_nat (length (drawn_from r es)) <= 2 ^ 64)%N -> NoDup (drawn_from r es).
Proof.
  intros H. destruct (nth_error (roots es) r) as [r'|] eqn:E.
  - destruct (Nat.eq_dec r' r) as [->|N].
    + destruct (drawn_sequence es r E) as [v ->].
      apply seq_map_NoDup. intros i j Hi Hj. apply (nth_value_inj v); lia.
    + rewrite drawn_not_root; [constructor | congruence].
  - rewrite drawn_not_root; [constructor | congruence].
Qed.

(** A store that sees part of such a sequence. *)
Lemma counter_drawn_distinct (v : Id KU64) (p : nat -> nat) n :
  (forall i j, i < j -> p i < p j) -> (forall i, i < n -> (N.of_nat (p i) < 2 ^ 64)%N) ->
  drawn_distinct (Gen (k := KU64) (fun i => uint_mk 8 (uval v + N.of_nat (p i))) n).
Proof.
  intros Mono Hb i j Hi Hj E. simpl in *.
  apply (nth_value_inj v) in E; auto.
  destruct (Nat.lt_total i j) as [H|[H|H]]; auto; apply Mono in H; lia.
Qed.

(** ** UlidIdGenerator *)
Local Open Scope N_scope.

Lemma mod_16 : modulus 16 = 2 ^ time_bits * 2 ^ rand_bits.
Proof. reflexivity. Qed.

Lemma ulid_of_val r :
  uval (ulid_of r) = (clock r mod 2 ^ time_bits) * 2 ^ rand_bits + random r mod 2 ^ rand_bits.
Proof.
  apply uval_mk_small. rewrite mod_16.
  assert (clock r mod 2 ^ time_bits < 2 ^ time_bits) by (apply N.mod_lt; discriminate).
  assert (random r mod 2 ^ rand_bits < 2 ^ rand_bits) by (apply N.mod_lt; discriminate).
  set (a := clock r mod 2 ^ time_bits) in *. set (b := random r mod 2 ^ rand_bits) in *.
  set (X := 2 ^ time_bits) in *. set (Y := 2 ^ rand_bits) in *. clearbody a b X Y. nia.
Qed.

Lemma ulid_increment_val u u' :
  ulid_increment u = Some u' -> uval u' = uval u + 1.
Proof.
  unfold ulid_increment. destruct (N.eqb_spec (uval u mod 2 ^ rand_bits) (2 ^ rand_bits - 1)); [discriminate|].
  intros [= <-]. apply uval_mk_small. assert (L : uval u < 2 ^ 128) by exact (uval_lt u). change (modulus 16) with (2 ^ 128).
  destruct (N.eq_dec (uval u + 1) (2 ^ 128)) as [E|]; [|lia].
  exfalso. apply n. replace (uval u) with ((2 ^ rand_bits - 1) + (2 ^ time_bits - 1) * 2 ^ rand_bits).
  - rewrite N.mod_add by discriminate. reflexivity.
  - change (2 ^ rand_bits - 1 + (2 ^ time_bits - 1) * 2 ^ rand_bits) with (2^128-1). lia.
Qed.

Lemma ulid_generate_gt prev r u :
  clock r < 2 ^ time_bits -> ulid_generate prev r = Some u -> uval prev < uval u.
Proof.
  intros C. unfold ulid_generate. destruct (N.leb_spec (clock r) (uval prev / 2 ^ rand_bits)) as [L|L].
  - intros H. apply ulid_increment_val in H. lia.
  - intros [= <-]. rewrite ulid_of_val, (N.mod_small (clock r)) by auto.
    pose proof (N.div_mod (uval prev) (2 ^ rand_bits) ltac:(discriminate)) as D.
    assert (uval prev mod 2 ^ rand_bits < 2 ^ rand_bits) by (apply N.mod_lt; discriminate).
    set (a := uval prev / 2 ^ rand_bits) in *. set (b := uval prev mod 2 ^ rand_bits) in *.
    set (c := random r mod 2 ^ rand_bits). set (Y := 2 ^ rand_bits) in *. clearbody a b c Y. nia.
Qed.

Lemma draws_increase rs : forall prev,
  (forall r r', In (r, r') rs -> clock r < 2 ^ time_bits) -> overflows prev rs = false ->
  StronglySorted id_lt (prev :: ulid_draws prev rs).
Proof.
  induction rs as [|[r r'] rs IH]; intros prev C O; simpl in *.
  - repeat constructor.
  - unfold ulid_fresh. destruct (ulid_generate prev r) as [u|] eqn:G; [|discriminate].
    assert (S : StronglySorted id_lt (u :: ulid_draws u rs)) by (apply IH; eauto).
    apply ulid_generate_gt in G; [|eauto]. constructor; auto.
    constructor; auto. inversion S as [|? ? _ F]; subst. rewrite Forall_forall in *.
    intros x Hx. specialize (F x Hx). unfold id_lt in *. lia.
Qed.

(** Enough room in the random part: no overflow. *)
Lemma no_overflow rs : forall prev n,
  uval prev mod 2 ^ rand_bits + N.of_nat (length rs) < 2 ^ rand_bits ->
  (forall r r', In (r, r') rs -> random r + N.of_nat n < 2 ^ rand_bits) -> (length rs <= n)%nat ->
  overflows prev rs = false.
Proof.
  induction rs as [|[r r'] rs IH]; intros prev n Hp Hr Hn; simpl; auto.
  cbn [length] in *. unfold ulid_generate.
  destruct (N.leb_spec (clock r) (uval prev / 2 ^ rand_bits)) as [L|L].
  - destruct (ulid_increment prev) as [u|] eqn:U.
    + pose proof (ulid_increment_val _ _ U) as V. apply (IH u n); [|intros; eapply Hr; simpl; eauto | lia].
      assert (uval u mod 2 ^ rand_bits = uval prev mod 2 ^ rand_bits + 1) as ->; [|lia].
      rewrite V. rewrite <- N.add_mod_idemp_l by discriminate. apply N.mod_small. lia.
    + unfold ulid_increment in U.
      destruct (N.eqb_spec (uval prev mod 2 ^ rand_bits) (2 ^ rand_bits - 1)); [|discriminate]. lia.
  - apply (IH _ n); [|intros; eapply Hr; simpl; eauto | lia].
    rewrite ulid_of_val. rewrite (N.add_comm (_ * _)), N.mod_add by discriminate. rewrite N.mod_mod by discriminate.
    specialize (Hr r r' (or_introl eq_refl)). rewrite N.mod_small by lia. lia.
Qed.

Lemma draws_increase_room rs :
  room rs -> StronglySorted id_lt (ulid_draws ulid_gen_new rs).
Proof.
  intros H.
  assert (S : StronglySorted id_lt (ulid_gen_new :: ulid_draws ulid_gen_new rs)).
  2: now inversion S.
  apply draws_increase.
  - intros r r' Hin. now apply H in Hin.
  - destruct rs as [|[r r'] rs]; auto. apply (no_overflow _ _ (length ((r, r') :: rs))); auto.
    + assert (uval ulid_gen_new = 0) as -> by reflexivity. change (0 mod 2 ^ rand_bits) with 0.
      destruct (H r r') as [_ ?]; [simpl; auto|]. lia.
    + intros. now apply H in H0.
Qed.

Lemma draws_increase_top rs :
  (forall r r', In (r, r') rs -> clock r < 2 ^ time_bits) -> overflows ulid_gen_new rs = false ->
  StronglySorted id_lt (ulid_draws ulid_gen_new rs).
Proof. intros C O. pose proof (draws_increase rs _ C O) as S. now inversion S. Qed.

(** Same clock reading throughout, all random bits set: the second identifier is smaller
    than the first and the third equals the first. *)
Definition max_reading : reading * reading := (Reading 1 (2 ^ 80 - 1), Reading 1 0).
Lemma ulid_not_increasing : exists rs a b c,
  (forall r r', In (r, r') rs -> clock r = 1 /\ clock r' = 1) /\
  ulid_draws ulid_gen_new rs = [a; b; c] /\ id_lt b a /\ c = a.
Proof.
  exists [max_reading; max_reading; (Reading 1 0, Reading 1 (2 ^ 80 - 1))].
  eexists. eexists. eexists. split; [|split; [vm_compute; reflexivity|]].
  - intros r r' [E|[E|[E|[]]]]; inversion E; subst; auto.
  - split; [vm_compute|]; reflexivity.
Qed.

Local Close Scope N_scope.

(** ** MemHashIndex *)
Section Index.
Context {L R : Type} (leqb : L -> L -> bool) (reqb : R -> R -> bool).
Context (leqb_eq : forall a b, leqb a b = true <-> a = b) (reqb_eq : forall a b, reqb a b = true <-> a = b).
Notation set := (index_set leqb reqb).
Notation sets := (index_sets leqb reqb).
Notation l2r := (left_to_right leqb).
Notation r2l := (right_to_left reqb).

Lemma leqb_refl a : leqb a a = true. Proof. now apply leqb_eq. Qed.
Lemma reqb_refl a : reqb a a = true. Proof. now apply reqb_eq. Qed.

(** What one call does, case by case. *)
Lemma set_spec l r m :
  match fst (set l r m) with
  | Ok _ => l2r m l = None /\ r2l m r = None /\
      (forall l', l2r (snd (set l r m)) l' = if leqb l' l then Some r else l2r m l') /\
      (forall r', r2l (snd (set l r m)) r' = if reqb r' r then Some l else r2l m r')
  | Err (DuplicateRight l1 r1 r2) => l1 = l /\ r1 = r /\ l2r m l = Some r2 /\ snd (set l r m) = m
  | Err (DuplicateLeft r1 l1 l2) => r1 = r /\ l1 = l /\ l2r m l = None /\ r2l m r = Some l2 /\
      (forall l', l2r (snd (set l r m)) l' = if leqb l' l then Some r else l2r m l') /\
      (forall r', r2l (snd (set l r m)) r' = r2l m r')
  end.
Proof.
  unfold index_set. destruct (l2r m l) as [r0|] eqn:E; simpl; auto.
  change (r2l {| idx_l2r := (l, r) :: idx_l2r m; idx_r2l := idx_r2l m |} r) with (r2l m r).
  destruct (r2l m r) as [l0|] eqn:E'; simpl.
  - repeat split; auto.
  - repeat split; auto.
Qed.

Lemma set_one_to_one l r m :
  one_to_one (l2r m) (r2l m) -> ~ is_duplicate_left (fst (set l r m)) ->
  one_to_one (l2r (snd (set l r m))) (r2l (snd (set l r m))).
Proof.
  intros O D. pose proof (set_spec l r m) as S.
  destruct (fst (set l r m)) as [u|[l1 r1 r2|r1 l1 l2]].
  - destruct S as (H1 & H2 & H3 & H4). intros a b. rewrite H3, H4.
    destruct (leqb a l) eqn:Ea; destruct (reqb b r) eqn:Eb.
    + apply leqb_eq in Ea. apply reqb_eq in Eb. subst. tauto.
    + apply leqb_eq in Ea. subst. split.
      * intros [= <-]. now rewrite reqb_refl in Eb.
      * intros H. apply O in H. congruence.
    + apply reqb_eq in Eb. subst. split.
      * intros H. apply O in H. congruence.
      * intros [= <-]. now rewrite leqb_refl in Ea.
    + apply O.
  - destruct S as (_ & _ & _ & ->). exact O.
  - now contradiction D.
Qed.

Lemma sets_one_to_one h : forall m,
  one_to_one (l2r m) (r2l m) -> (forall x, In x (fst (sets h m)) -> ~ is_duplicate_left x) ->
  one_to_one (l2r (snd (sets h m))) (r2l (snd (sets h m))).
Proof.
  induction h as [|[l r] h IH]; intros m O D; simpl in *; auto.
  pose proof (set_one_to_one l r m O) as S.
  destruct (set l r m) as [x m1]. simpl in S. pose proof (IH m1) as IH1.
  destruct (sets h m1) as [xs m2]. simpl in *. apply IH1; auto.
Qed.

(** Whatever happens, an entry of the second map is matched by one of the first ... *)
Lemma sets_right_sound h : forall m,
  (forall l r, r2l m r = Some l -> l2r m l = Some r) ->
  forall l r, r2l (snd (sets h m)) r = Some l -> l2r (snd (sets h m)) l = Some r.
Proof.
  induction h as [|[l r] h IH]; intros m O; simpl; auto.
  assert (S : forall a b, r2l (snd (set l r m)) b = Some a -> l2r (snd (set l r m)) a = Some b).
  { pose proof (set_spec l r m) as S. destruct (fst (set l r m)) as [u|[l1 r1 r2|r1 l1 l2]].
    - destruct S as (H1 & H2 & H3 & H4). intros a b. rewrite H3, H4. destruct (reqb b r) eqn:Eb.
      + intros [= <-]. rewrite leqb_refl. apply reqb_eq in Eb. now subst.
      + intros H. apply O in H. destruct (leqb a l) eqn:Ea; auto. apply leqb_eq in Ea. congruence.
    - destruct S as (_ & _ & _ & ->). exact O.
    - destruct S as (_ & _ & H1 & _ & H3 & H4). intros a b. rewrite H3, H4. intros H. apply O in H.
      destruct (leqb a l) eqn:Ea; auto. apply leqb_eq in Ea. congruence. }
  destruct (set l r m) as [x m1]. simpl in S. specialize (IH m1 S). destruct (sets h m1) as [xs m2]. exact IH.
Qed.

(** ... and no association is ever changed. *)
Lemma sets_monotone h : forall m,
  (forall l r, l2r m l = Some r -> l2r (snd (sets h m)) l = Some r) /\
  (forall l r, r2l m r = Some l -> r2l (snd (sets h m)) r = Some l).
Proof.
  induction h as [|[l r] h IH]; intros m; simpl; auto.
  assert (S : (forall a b, l2r m a = Some b -> l2r (snd (set l r m)) a = Some b) /\
              (forall a b, r2l m b = Some a -> r2l (snd (set l r m)) b = Some a)).
  { pose proof (set_spec l r m) as S. destruct (fst (set l r m)) as [u|[l1 r1 r2|r1 l1 l2]].
    - destruct S as (H1 & H2 & H3 & H4). split; intros a b H; [rewrite H3 | rewrite H4].
      + destruct (leqb a l) eqn:Ea; auto. apply leqb_eq in Ea. congruence.
      + destruct (reqb b r) eqn:Ea; auto. apply reqb_eq in Ea. congruence.
    - destruct S as (_ & _ & _ & ->). auto.
    - destruct S as (_ & _ & H1 & _ & H3 & H4). split; intros a b H; [rewrite H3 | now rewrite H4].
      destruct (leqb a l) eqn:Ea; auto. apply leqb_eq in Ea. congruence. }
  destruct S as [S1 S2]. destruct (set l r m) as [x m1]. simpl in *. destruct (IH m1) as [I1 I2].
  destruct (sets h m1) as [xs m2]. simpl in *. split; auto.
Qed.

Lemma index_one_to_one h :
  (forall x, In x (fst (sets h index_new)) -> ~ is_duplicate_left x) ->
  one_to_one (l2r (snd (sets h index_new))) (r2l (snd (sets h index_new))).
Proof. apply sets_one_to_one. intros l r. split; discriminate. Qed.

Lemma index_right_sound h l r :
  r2l (snd (sets h index_new)) r = Some l -> l2r (snd (sets h index_new)) l = Some r.
Proof. apply sets_right_sound. discriminate. Qed.

End Index.

Lemma index_not_one_to_one : exists (h : list (nat * nat)) l r,
  left_to_right Nat.eqb (snd (index_sets Nat.eqb Nat.eqb h index_new)) l = Some r /\
  right_to_left Nat.eqb (snd (index_sets Nat.eqb Nat.eqb h index_new)) r <> Some l /\
  (exists e h', h = h' ++ [(l, r)] /\
     fst (index_sets Nat.eqb Nat.eqb h index_new) = fst (index_sets Nat.eqb Nat.eqb h' index_new) ++ [Err e] /\
     left_to_right Nat.eqb (snd (index_sets Nat.eqb Nat.eqb h' index_new)) l = None).
Proof.
  exists [(1, 5); (2, 5)], 2, 5. split; [reflexivity|]. split; [discriminate|].
  eexists. exists [(1, 5)]. split; [reflexivity|]. split; reflexivity.
Qed.
