(** Hashes of 64 bits collide, and what the Debug output then depends on. *)
From Coq Require Import Arith NArith List Bool Lia.
From Verif Require Import Bytes BytesFacts OMap OMapFacts Core IdType IdTypeFacts Store Mem Spec
  CodecFacts ListFacts MemFacts MemSim History MemTop Debug DebugSpec DebugFacts Ex.
Import ListNotations.
Local Open Scope N_scope.

Lemma dup_or {A} (f : A -> N) (l : list A) :
  NoDup (map f l) \/ exists l1 x l2 y l3, l = l1 ++ x :: l2 ++ y :: l3 /\ f x = f y.
Proof.
  induction l as [|x l [IH|(l1 & a & l2 & b & l3 & -> & H)]]; [left; constructor| |].
  - destruct (in_dec N.eq_dec (f x) (map f l)) as [Hin|Hn].
    + right. apply in_map_iff in Hin. destruct Hin as (y & Hy & Hin). apply in_split in Hin. destruct Hin as (l2 & l3 & ->).
      exists [], x, l2, y, l3. auto.
    + left. now constructor.
  - right. exists (x :: l1), a, l2, b, l3. auto.
Qed.

Lemma pigeonhole (n : N) (f : N -> N) : (forall x, f x < n) -> exists x y, x <= n /\ y <= n /\ x <> y /\ f x = f y.
Proof.
  intros Hf. set (l := map N.of_nat (seq 0 (S (N.to_nat n)))).
  assert (NoDup l) as ND.
  { unfold l. apply FinFun.Injective_map_NoDup; [|apply seq_NoDup]. intros a b. apply Nnat.Nat2N.inj. }
  assert (forall x, In x l -> x <= n) as Hin.
  { intros x H. apply in_map_iff in H. destruct H as (i & <- & Hi). apply in_seq in Hi. lia. }
  destruct (dup_or f l) as [H|(l1 & x & l2 & y & l3 & El & H)].
  - exfalso. assert (incl (map f l) (map N.of_nat (seq 0 (N.to_nat n)))) as Hi.
    { intros v Hv. apply in_map_iff in Hv. destruct Hv as (x & <- & _). apply in_map_iff. exists (N.to_nat (f x)).
      split; [apply Nnat.N2Nat.id|]. apply in_seq. specialize (Hf x). lia. }
    apply NoDup_incl_length in Hi; auto. unfold l in Hi. rewrite !map_length, !seq_length in Hi. lia.
  - exists x, y. split; [|split; [|split]]; auto.
    + apply Hin. rewrite El. apply in_app_iff. right. now left.
    + apply Hin. rewrite El. apply in_app_iff. do 2 right. apply in_app_iff. right. now left.
    + intros ->. rewrite El in ND. apply NoDup_remove_2 in ND. apply ND. apply in_app_iff. right. apply in_app_iff. right. now left.
Qed.

(** Two edges with the same hash. *)
Lemma collision (hash : bytes -> N) : (forall b, hash b < 2 ^ 64) ->
  exists t u : triple (Id KU64), t <> u /\ hash (encode_spo t) = hash (encode_spo u).
Proof.
  intros Hh. pose (edge := fun x : N => Triple (u (x mod 2 ^ 64)) (u (x / 2 ^ 64)) (u 0)).
  destruct (pigeonhole (2 ^ 64) (fun x => hash (encode_spo (edge x)))) as (x & y & Hx & Hy & Hn & H); auto.
  exists (edge x), (edge y). split; auto. intros E. apply Hn.
  assert (modulus 8 = 2 ^ 64) as M by reflexivity.
  assert (forall z, z <= 2 ^ 64 -> uval (sub (edge z)) = z mod 2 ^ 64 /\ uval (pred (edge z)) = z / 2 ^ 64) as Hv.
  { intros z Hz. unfold edge, u. cbn [sub pred]. rewrite !uval_mk_small; rewrite ?M; auto.
    - apply N.div_lt_upper_bound; lia.
    - apply N.mod_lt. lia. }
  destruct (Hv x Hx) as [X1 X2]. destruct (Hv y Hy) as [Y1 Y2].
  rewrite (N.div_mod x (2 ^ 64)), (N.div_mod y (2 ^ 64)) by lia. now rewrite <- X1, <- X2, <- Y1, <- Y2, E.
Qed.

Notation bget := (om_get bytes_cmp).
Notation binsert := (om_insert bytes_cmp).

Section Two.
Context (hash : bytes -> N) (t u' : triple (Id KU64)).
Context (Hn : t <> u') (Hh : hash (encode_spo t) = hash (encode_spo u')).

Definition two (a b : triple (Id KU64)) (v w : N) : store :=
  mem_history (E := N) mg mg [OInsertEdge a v; OInsertEdge b w] (mem_new (counter 0)).

Lemma two_distinct a b v w : drawn_distinct (id_generator (two a b v w)).
Proof.
  assert (forall t d (m : store), id_generator (insert_edge t d m) = snd (fresh (id_generator m))) as H.
  { intros x d m. unfold insert_edge, insert_edge_create_data. now destruct (om_get _ _ (spo_data m)). }
  apply drawn_distinct_check. unfold two. cbn [mem_history fold_left mem_apply]. rewrite !H. vm_compute. reflexivity.
Qed.

Lemma two_records a b v w : a <> b ->
  edge_props (two a b v w) = [(u 0, v); (u 1, w)] /\ eid (two a b v w) a = Some (u 0) /\ eid (two a b v w) b = Some (u 1).
Proof.
  intros Hab. assert (encode_spo a <> encode_spo b) as He by (intros H; apply Hab; now apply (enc_inj SPO)).
  unfold two, eid. cbn [mem_history fold_left mem_apply].
  assert (bget (encode_spo b) (spo_data (insert_edge a v (mem_new (counter 0) : store))) = None) as E1.
  { change (bget (encode_spo b) (binsert (encode_spo a) (u 0) om_empty) = None).
    rewrite (get_insert_neq bytes_cmp_ok) by congruence. reflexivity. }
  unfold insert_edge at 1 3 5. rewrite E1.
  assert (spo_data (insert_edge a v (mem_new (counter 0) : store)) = binsert (encode_spo a) (u 0) om_empty) as E2 by reflexivity.
  split; [reflexivity|]. unfold insert_edge_create_data. cbn [fresh fst snd]. split.
  - change (bget (encode_spo a) (binsert (encode_spo b) (u 1) (binsert (encode_spo a) (u 0) om_empty)) = Some (u 0)).
    rewrite (get_insert_neq bytes_cmp_ok) by congruence. now rewrite (get_insert_eq bytes_cmp_ok).
  - change (bget (encode_spo b) (binsert (encode_spo b) (u 1) (binsert (encode_spo a) (u 0) om_empty)) = Some (u 1)).
    now rewrite (get_insert_eq bytes_cmp_ok).
Qed.

Lemma two_prop a b v w : a <> b -> hash (encode_spo a) = hash (encode_spo b) ->
  mem_edge_data hash (two a b v w) = [(Some (hash (encode_spo a)), w)].
Proof.
  intros Hab He. destruct (two_records a b v w Hab) as (Hp & Ha & Hb).
  assert (reachable N mg mg (two a b v w)) as R by (apply reachable_history, R_new).
  pose proof (top_history mg mg (counter 0) [OInsertEdge a v; OInsertEdge b w] (two_distinct a b v w)) as S.
  destruct (sim_of_shows mg mg _ _ R S) as [A H]. destruct (H (two_distinct a b v w)) as [Go _].
  unfold mem_edge_data. rewrite Hp. cbn [map fst snd].
  rewrite (mem_hash_get hash _ A Go a _ Ha), (mem_hash_get hash _ A Go b _ Hb), <- He.
  unfold om_collect. simpl. now rewrite N.compare_refl.
Qed.

Lemma two_page a b v w : a <> b -> hash (encode_spo a) = hash (encode_spo b) ->
  forall h e, In (PropLine h e) (mem_debug hash (two a b v w)) -> e = w.
Proof.
  intros Hab He h e. unfold mem_debug. rewrite (two_prop a b v w Hab He). unfold mem_edge_lines.
  rewrite !in_app_iff, !in_map_iff. simpl. rewrite !in_map_iff.
  intros [[X|[X|[]]]|[(y & X & _)|[[X|[]]|[(y & [= _ <-] & [<-|[]])|[[X|(y & X & _)]|[[X|(y & X & _)]|[X|(y & X & _)]]]]]]]; try discriminate. reflexivity.
Qed.

End Two.

Lemma debug_collides (hash : bytes -> N) : (forall b, hash b < 2 ^ 64) ->
  exists (m m' : store) g, reachable N mg mg m /\ drawn_distinct (id_generator m) /\ shows m g /\
    reachable N mg mg m' /\ drawn_distinct (id_generator m') /\ shows m' g /\ mem_debug hash m <> mem_debug hash m'.
Proof.
  intros H. destruct (collision hash H) as (t & t' & Hn & Hh).
  exists (two t t' 1 2), (two t' t 2 1), (spec_history (E := N) mg mg [OInsertEdge t 1; OInsertEdge t' 2] g_empty).
  split; [apply reachable_history, R_new|]. split; [apply two_distinct|]. split; [apply top_history; apply two_distinct|].
  split; [apply reachable_history, R_new|]. split; [apply two_distinct|]. split.
  - assert (forall g g' : graph KU64 N N, g_equiv g g' -> shows (two t' t 2 1) g -> shows (two t' t 2 1) g') as X.
    { intros g g' Eg. apply shows_equiv; auto. }
    eapply X; [|apply top_history; apply two_distinct].
    split; [reflexivity|]. intros x. simpl. destruct (triple_eq_dec x t) as [E1|N1], (triple_eq_dec x t') as [E2|N2]; congruence.
  - intros El. assert (In (PropLine (Some (hash (encode_spo t))) 2) (mem_debug hash (two t t' 1 2))) as Hin.
    { unfold mem_debug. rewrite (two_prop hash t t' 1 2 Hn Hh). rewrite !in_app_iff. do 3 right. left. simpl. auto. }
    rewrite El in Hin. apply (two_page hash t' t 2 1) in Hin; auto. discriminate.
Qed.
