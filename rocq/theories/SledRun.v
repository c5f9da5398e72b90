(** Extend, merge and whole histories on a SledTripleStore. *)
From Coq Require Import Arith NArith List Bool Sorted Lia.
From Verif Require Import Bytes BytesFacts OMap OMapFacts Core IdType IdTypeFacts Store Mem Spec
  CodecFacts ListFacts MemSim History Prog ProgFacts Sled SledHistory SledDb SledOps SledBulk.
Import ListNotations.

(** ** Steps *)
Section Steps.
Context {k : idkind} {NP EP : Type}.
Notation G := (graph k NP EP).

Definition proper (f : G -> G) : Prop := forall a b, g_equiv a b -> g_equiv (f a) (f b).

Lemma run_steps_equiv (l : list (G -> G)) : Forall proper l -> forall a b, g_equiv a b -> g_equiv (run_steps l a) (run_steps l b).
Proof.
  induction 1 as [|f l Hf _ IH]; intros a b H; simpl; auto.
Qed.

Lemma run_steps_app (l l' : list (G -> G)) g : run_steps (l ++ l') g = run_steps l' (run_steps l g).
Proof. apply fold_left_app. Qed.

Lemma Forall_firstn {A} (Q : A -> Prop) l : forall n, Forall Q l -> Forall Q (firstn n l).
Proof. induction l as [|a l IH]; intros [|n] H; simpl; auto. inversion H; subst. constructor; auto. Qed.

Lemma Forall_app' {A} (Q : A -> Prop) l l' : Forall Q l -> Forall Q l' -> Forall Q (l ++ l').
Proof. intros. apply Forall_app. auto. Qed.

End Steps.

Section Run.
Context {k : idkind} {NP EP SE BE E : Type} (cn : codec BE NP) (ce : codec BE EP).
Context (Hcn : codec_ok cn) (Hce : codec_ok ce).
Context (mn : NP -> NP -> NP) (me : EP -> EP -> EP).
Notation I := (Id k).
Notation T := (triple (Id k)).
Notation G := (graph k NP EP).
Notation err := (sled_error SE BE).
Notation P A := (prog db SE A).
Notation PR A := (prog db SE (result err A)).
Notation fair := (fair (k := k) cn ce).
Notation agree := (indexes_agree (k := k)).
Notation sabs := (sabs (k := k) cn ce).
Notation nod := (nod (k := k) cn).
Notation view := (view (k := k) ce).
Notation near := (near (k := k) cn ce).
Notation nearx := (nearx (k := k) cn ce).
Notation blame := (blame (SE := SE) cn ce).
Notation finished := (finished (k := k) (SE := SE) cn ce).
Notation op := (op k NP EP E).
Notation outcome := (outcome (SE := SE) (BE := BE) (E := E)).
Implicit Types t u : T.
Implicit Types F : SE -> Prop.
Implicit Types U : bytes -> Prop.
Implicit Types steps : list (G -> G).
Implicit Types g : G.

Lemma op_steps_proper (o : op) : Forall proper (op_steps mn me o).
Proof.
  destruct o; cbn [op_steps bulk_steps]; try (constructor; [intros a b H|constructor]).
  - now apply put_node_equiv.
  - now apply put_edge_equiv.
  - now apply del_node_equiv.
  - now apply del_edge_equiv.
  - now apply merge_node_equiv.
  - now apply merge_edge_equiv.
  - unfold bulk_steps. apply Forall_app'; [|destruct (first_error _); [constructor|]];
      apply Forall_forall; intros f H; apply in_map_iff in H; destruct H as (x & <- & _);
      intros a b H; [now apply put_node_equiv | now apply put_edge_equiv].
  - unfold bulk_steps. apply Forall_app'; [|destruct (first_error _); [constructor|]];
      apply Forall_forall; intros f H; apply in_map_iff in H; destruct H as (x & <- & _);
      intros a b H; [now apply merge_node_equiv | now apply merge_edge_equiv].
Qed.

Lemma op_steps_spec (o : op) g : run_steps (op_steps mn me o) g = spec_apply mn me o g.
Proof.
  assert (forall fn fe (s : source k NP EP E) g, run_steps (bulk_steps fn fe s) g = g_bulk fn fe s g) as B.
  { intros fn fe s g0. unfold bulk_steps, g_bulk, run_steps. rewrite fold_left_app.
    assert (forall A (f : A -> G -> G) l g, fold_left (fun g f => f g) (map f l) g = fold_left (fun g a => f a g) l g) as Fm.
    { intros A f l. induction l; intros g1; simpl; auto. }
    rewrite Fm. destruct (first_error (src_nodes s)); simpl; auto. }
  destruct o; simpl; auto.
Qed.

(** ** Where a database may be in between *)

(** The database shows an initial part of the steps. *)
Definition part steps g (x : db) : Prop :=
  agree x /\ exists c, g_equiv (sabs x) (run_steps (firstn c steps) g).

(** Each order shows an initial part of the steps, and they differ by at most one. *)
Definition partx steps g (x : db) : Prop :=
  exists c, (forall i, nod x i = g_node (run_steps (firstn c steps) g) i) /\
    forall o, exists c', (c' = c \/ c' = S c) /\ forall u, view o x u = g_edge (run_steps (firstn c' steps) g) u.

Lemma part_partx steps g x : part steps g x -> partx steps g x.
Proof.
  intros [A [c [H1 H2]]]. exists c. split; auto. intros o. exists c. split; auto. intros u.
  rewrite <- H2. simpl. unfold SledDb.view. now rewrite A.
Qed.

(** What the loops need to know of such a relation. *)
Record between (R0 : list (G -> G) -> G -> db -> Prop) : Prop := {
  bt_equiv : forall steps g g' x, Forall proper steps -> g_equiv g g' -> R0 steps g x -> R0 steps g' x;
  bt_more : forall steps steps' g x, R0 steps g x -> R0 (steps ++ steps') g x;
  bt_later : forall steps steps' g x, R0 steps' (run_steps steps g) x -> R0 (steps ++ steps') g x;
  bt_start : forall steps g x, agree x -> g_equiv (sabs x) g -> R0 steps g x
}.

Lemma between_part : between part.
Proof.
  split.
  - intros steps g g' x Hp Hg [A [c H]]. split; auto. exists c. eapply g_equiv_trans; [exact H|].
    apply run_steps_equiv; auto. now apply Forall_firstn.
  - intros steps steps' g x [A [c H]]. split; auto. exists (Nat.min c (length steps)).
    rewrite firstn_app. replace (Nat.min c (length steps) - length steps) with 0 by lia.
    rewrite app_nil_r. simpl. rewrite <- firstn_firstn, firstn_all. exact H.
  - intros steps steps' g x [A [c H]]. split; auto. exists (length steps + c).
    rewrite firstn_app_2, run_steps_app. exact H.
  - intros steps g x A H. split; auto. exists 0. exact H.
Qed.

Lemma firstn_min {A} c (l : list A) : firstn (Nat.min c (length l)) l = firstn c l.
Proof. rewrite <- firstn_firstn, firstn_all. reflexivity. Qed.

Lemma firstn_app_short {A} c (l l' : list A) : c <= length l -> firstn c (l ++ l') = firstn c l.
Proof.
  intros H. rewrite firstn_app. replace (c - length l) with 0 by lia. now rewrite app_nil_r.
Qed.

Lemma between_partx : between partx.
Proof.
  split.
  - intros steps g g' x Hp Hg (c & H1 & H2). exists c. split.
    + intros i. rewrite H1. apply run_steps_equiv; auto. now apply Forall_firstn.
    + intros o. destruct (H2 o) as (c' & Hc & H). exists c'. split; auto. intros u. rewrite H.
      apply run_steps_equiv; auto. now apply Forall_firstn.
  - intros steps steps' g x (c & H1 & H2). exists (Nat.min c (length steps)). split.
    + intros i. rewrite H1. rewrite firstn_app_short by lia. now rewrite firstn_min.
    + intros o. destruct (H2 o) as (c' & Hc & H). exists (Nat.min c' (length steps)).
      split; [lia|]. intros u. rewrite H. rewrite firstn_app_short by lia. now rewrite firstn_min.
  - intros steps steps' g x (c & H1 & H2). exists (length steps + c). split.
    + intros i. rewrite H1. now rewrite firstn_app_2, run_steps_app.
    + intros o. destruct (H2 o) as (c' & Hc & H). exists (length steps + c').
      split; [lia|]. intros u. rewrite H. now rewrite firstn_app_2, run_steps_app.
  - intros steps g x A H. apply part_partx. split; auto. exists 0. exact H.
Qed.

Lemma near_part U d f x : near U d f x -> fair U x /\ (agree d -> part [f] (sabs d) x).
Proof.
  intros [H1 H2]. split; auto. intros A. destruct (H2 A) as [A' [H|H]]; split; auto.
  - exists 0. exact H.
  - exists 1. exact H.
Qed.

Lemma nearx_partx U d t e x : nearx U d (g_put_edge t e) x -> fair U x /\ (agree d -> partx [g_put_edge t e] (sabs d) x).
Proof.
  intros [H1 H2]. split; auto. intros A. destruct (H2 A) as [Hn Hv]. exists 0. split; auto.
  intros o. destruct (Hv o) as [H|H]; [exists 0 | exists 1]; auto.
Qed.

(** ** Identifiers *)
Section Window.
Context (base : bytes -> Prop) (h0 : handle k) (n m : nat).

Definition gkeys (i : nat) : list bytes := map to_be_bytes (next_ids (h_gen h0) i).
Definition ukeys (j : nat) : list bytes := map to_be_bytes (next_ids (h_ulid h0) j).
Definition used (i j : nat) (x : bytes) : Prop := base x \/ In x (gkeys i) \/ In x (ukeys j).
Definition at_ (i j : nat) : handle k :=
  Handle (Gen (g_seq (h_gen h0)) (g_pos (h_gen h0) + i)) (Gen (g_seq (h_ulid h0)) (g_pos (h_ulid h0) + j)).

Context (Hnd : NoDup (gkeys n ++ ukeys m)) (Hbase : forall x, In x (gkeys n ++ ukeys m) -> ~ base x).

Lemma gkeys_S i : gkeys (S i) = gkeys i ++ [next_key (at_ i 0)].
Proof.
  unfold gkeys, next_ids. rewrite seq_S, !map_app. reflexivity.
Qed.
Lemma ukeys_S j : ukeys (S j) = ukeys j ++ [next_ulid (at_ 0 j)].
Proof.
  unfold ukeys, next_ids. rewrite seq_S, !map_app. reflexivity.
Qed.

Lemma gkeys_split i : i <= n -> exists l, gkeys n = gkeys i ++ l.
Proof.
  intros H. exists (map to_be_bytes (map (g_seq (h_gen h0)) (seq (g_pos (h_gen h0) + i) (n - i)))).
  unfold gkeys, next_ids. replace n with (i + (n - i)) at 1 by lia. rewrite seq_app, !map_app. reflexivity.
Qed.
Lemma ukeys_split j : j <= m -> exists l, ukeys m = ukeys j ++ l.
Proof.
  intros H. exists (map to_be_bytes (map (g_seq (h_ulid h0)) (seq (g_pos (h_ulid h0) + j) (m - j)))).
  unfold ukeys, next_ids. replace m with (j + (m - j)) at 1 by lia. rewrite seq_app, !map_app. reflexivity.
Qed.

Lemma used_mono i j i' j' x : i <= i' -> j <= j' -> used i j x -> used i' j' x.
Proof.
  intros Hi Hj [H|[H|H]]; unfold used; auto; right; [left|right].
  - unfold gkeys, next_ids in *. replace i' with (i + (i' - i)) by lia.
    rewrite seq_app, !map_app, in_app_iff. auto.
  - unfold ukeys, next_ids in *. replace j' with (j + (j' - j)) by lia.
    rewrite seq_app, !map_app, in_app_iff. auto.
Qed.

Lemma fresh_gen i j : i < n -> j <= m -> ~ used i j (next_key (at_ i j)).
Proof.
  intros Hi Hj H. change (next_key (at_ i j)) with (next_key (at_ i 0)) in H.
  destruct (gkeys_split (S i) Hi) as [l El]. rewrite gkeys_S, <- app_assoc in El. simpl in El.
  destruct (ukeys_split j Hj) as [l' El'].
  destruct H as [H|[H|H]].
  - revert H. apply Hbase. rewrite El, !in_app_iff. simpl. auto.
  - rewrite El, <- app_assoc in Hnd. simpl in Hnd. apply NoDup_remove_2 in Hnd. apply Hnd. rewrite in_app_iff. auto.
  - rewrite El, El', <- app_assoc in Hnd. simpl in Hnd. apply NoDup_remove_2 in Hnd. apply Hnd.
    rewrite !in_app_iff. auto.
Qed.

Lemma fresh_ulid i j : i <= n -> j < m -> ~ used i j (next_ulid (at_ i j)).
Proof.
  intros Hi Hj H. change (next_ulid (at_ i j)) with (next_ulid (at_ 0 j)) in H.
  destruct (gkeys_split i Hi) as [l El].
  destruct (ukeys_split (S j) Hj) as [l' El']. rewrite ukeys_S, <- app_assoc in El'. simpl in El'.
  destruct H as [H|[H|H]].
  - revert H. apply Hbase. rewrite El', !in_app_iff. simpl. auto.
  - rewrite El', app_assoc in Hnd. apply NoDup_remove_2 in Hnd. apply Hnd.
    rewrite !in_app_iff, El, in_app_iff. auto.
  - rewrite El', app_assoc in Hnd. apply NoDup_remove_2 in Hnd. apply Hnd. rewrite !in_app_iff. auto.
Qed.

Lemma used_gen i j x : used i j x \/ x = next_key (at_ i j) <-> used (S i) j x.
Proof.
  unfold used. rewrite gkeys_S, in_app_iff. change (next_key (at_ i j)) with (next_key (at_ i 0)).
  simpl. intuition.
Qed.
Lemma used_ulid i j x : used i j x \/ x = next_ulid (at_ i j) <-> used i (S j) x.
Proof.
  unfold used. rewrite ukeys_S, in_app_iff. change (next_ulid (at_ i j)) with (next_ulid (at_ 0 j)).
  simpl. intuition.
Qed.

Lemma at_gen i j : step_gen (at_ i j) = at_ (S i) j.
Proof. unfold step_gen, at_. simpl. now rewrite Nat.add_succ_r. Qed.
Lemma at_ulid i j : step_ulid (at_ i j) = at_ i (S j).
Proof. unfold step_ulid, at_. simpl. now rewrite Nat.add_succ_r. Qed.

Lemma near_swap U U' d f x : (forall r, U r -> U' r) -> near U d f x -> near U' d f x.
Proof. intros H [H1 H2]. split; auto. eapply fair_mono; eauto. Qed.

(** ** Loops over a source *)
Section Loop.
Context (F : SE -> Prop) (R0 : list (G -> G) -> G -> db -> Prop) (HR0 : between R0).

(** During a call. *)
Definition during steps (d x : db) : Prop := fair (used n m) x /\ (agree d -> R0 steps (sabs d) x).

(** After a call that takes at most [dg] and [du] identifiers. *)
Definition after {Er} steps (exp : result (lr_error err Er) unit) (i j dg du : nat) (d : db)
    (rh : result (lr_error err Er) unit * handle k) (x : db) : Prop :=
  exists i' j', i <= i' <= i + dg /\ j <= j' <= j + du /\ snd rh = at_ i' j' /\ fair (used i' j') x /\
  match fst rh with
  | Err (LeftE e) => blame F e
  | r => r = exp /\ (agree d -> agree x /\ g_equiv (sabs x) (run_steps steps (sabs d)))
  end.

(** The body of a loop. *)
Definition body_ok {A} (body : A -> handle k -> P (result err unit * handle k)) (f : A -> G -> G) (dg du : nat) : Prop :=
  forall a i j d, i + dg <= n -> j + du <= m -> fair (used i j) d ->
  wp F (during [f a] d)
    (fun rh x => snd rh = at_ (i + dg) (j + du) /\ fair (used (i + dg) (j + du)) x /\
       match fst rh with
       | Ok _ => agree d -> agree x /\ g_equiv (sabs x) (f a (sabs d))
       | Err e => blame F e
       end)
    (body a (at_ i j)) d.

Definition src_expected {A Er} (l : list (result Er A)) : result (lr_error err Er) unit :=
  match first_error l with None => Ok tt | Some e => Err (RightE e) end.

Lemma during_start steps d i j : i <= n -> j <= m -> fair (used i j) d -> during steps d d.
Proof.
  intros Hi Hj H. split.
  - eapply fair_mono; [|exact H]. intros r. now apply used_mono.
  - intros A. apply (bt_start _ HR0); auto. apply g_equiv_refl.
Qed.

Lemma after_none {Er} (exp : result (lr_error err Er) unit) i j d : fair (used i j) d ->
  match exp with Err (LeftE _) => False | _ => True end ->
  after [] exp i j 0 0 d (exp, at_ i j) d.
Proof.
  intros H He. exists i, j. split; [lia|]. split; [lia|]. split; auto. split; auto. simpl.
  assert (agree d -> agree d /\ g_equiv (sabs d) (sabs d)) by (intros A0; split; [exact A0|apply g_equiv_refl]).
  destruct exp as [[]|[]]; [auto|contradiction|auto].
Qed.

Lemma wp_for_source {A Er} body (f : A -> G -> G) dg du (l : list (result Er A)) :
  body_ok body f dg du -> (forall a, proper (f a)) ->
  forall i j d, i + length (before_error l) * dg <= n -> j + length (before_error l) * du <= m ->
  fair (used i j) d ->
  wp F (during (map f (before_error l)) d)
    (after (map f (before_error l)) (src_expected l) i j
       (length (before_error l) * dg) (length (before_error l) * du) d)
    (for_source body l (at_ i j)) d.
Proof.
  intros Hb Hp. induction l as [|[a|e] l IH]; intros i j d Hi Hj H.
  - simpl in *. assert (during [] d d) as Hd by (apply (during_start _ _ i j); auto; lia).
    split; auto. apply after_none; simpl; auto.
  - cbn [before_error length map for_source] in *.
    assert (Forall proper (map f (before_error l))) as Hps
      by (apply Forall_forall; intros x Hx; apply in_map_iff in Hx; destruct Hx as (y & <- & _); auto).
    apply wp_bind. eapply wp_mono; [| |apply Hb; eauto; lia].
    + intros x [H1 H2]. split; auto. intros A0. apply (bt_more _ HR0 [f a]). auto.
    + intros [r h] x [Hx1 Hx2] (Eh & Hf & Hr). simpl in Eh, Hr |- *. subst h. destruct r as [[]|er].
      * eapply wp_mono; [| |apply (IH (i + dg) (j + du) x); auto; lia].
        -- intros y [H1 H2]. split; auto. intros A0. destruct (Hr A0) as [Ax Gx].
           apply (bt_later _ HR0 [f a]). simpl. eapply (bt_equiv _ HR0); [auto|exact Gx|]. auto.
        -- intros [r h] y _ (i' & j' & Hi' & Hj' & E1 & E2 & E3). exists i', j'.
           split; [lia|]. split; [lia|]. split; auto. split; auto. simpl in *.
           destruct r as [[]|[el|er]]; auto; destruct E3 as (E3 & E4); (split; [exact E3|]);
             intros A0; destruct (Hr A0) as [Ax Gx]; destruct (E4 Ax) as [Ay Gy];
             (split; [auto|]); eapply g_equiv_trans; [exact Gy| |exact Gy|]; now apply run_steps_equiv.
      * simpl. split.
        -- split; auto. intros A0. apply (bt_more _ HR0 [f a]). auto.
        -- exists (i + dg), (j + du). simpl. split; [lia|]. split; [lia|]. auto.
  - simpl in *. assert (during [] d d) as Hd by (apply (during_start _ _ i j); auto; lia).
    split; auto. apply after_none; simpl; auto.
Qed.

(** The nodes and then the edges. *)
Lemma wp_nodes_edges {Er} fn fe f1 f2 dg du (s : source k NP EP Er) :
  body_ok fn (fun ip => f1 (fst ip) (snd ip)) 0 0 -> (forall i p, proper (f1 i p)) ->
  body_ok fe (fun te => f2 (fst te) (snd te)) dg du -> (forall t e, proper (f2 t e)) ->
  forall i j d, i + length (before_error (src_edges s)) * dg <= n ->
  j + length (before_error (src_edges s)) * du <= m ->
  fair (used i j) d ->
  wp F (during (bulk_steps f1 f2 s) d)
    (after (bulk_steps f1 f2 s)
       (match bulk_error s with None => Ok tt | Some e => Err (RightE e) end) i j
       (length (before_error (src_edges s)) * dg) (length (before_error (src_edges s)) * du) d)
    (for_nodes_edges fn fe s (at_ i j)) d.
Proof.
  intros Hfn Hp1 Hfe Hp2 i j d Hi Hj H. unfold for_nodes_edges, bulk_error, bulk_steps.
  set (ne := length (before_error (src_edges s))) in *.
  apply wp_bind. eapply wp_mono.
  3: { apply (wp_for_source fn (fun ip => f1 (fst ip) (snd ip)) 0 0 (src_nodes s)); auto; lia. }
  - intros x [H1 H2]. split; auto. intros A0. apply (bt_more _ HR0). auto.
  - intros [r h] x [Hx1 Hx2] (i' & j' & Hi' & Hj' & Eh & Hf & Hr). simpl in Eh, Hr |- *. subst h.
    assert (i' = i) as -> by lia. assert (j' = j) as -> by lia.
    unfold src_expected in Hr. destruct r as [[]|[el|er]].
    + destruct Hr as [Er1 Hr]. destruct (first_error (src_nodes s)) as [e0|]; [discriminate|].
      eapply wp_mono.
      3: { apply (wp_for_source fe (fun te => f2 (fst te) (snd te)) dg du (src_edges s)); eauto. }
      * intros y [H1 H2]. split; auto. intros A0. destruct (Hr A0) as [Ax Gx].
        apply (bt_later _ HR0). eapply (bt_equiv _ HR0); [|exact Gx|auto].
        apply Forall_forall. intros f Hin. apply in_map_iff in Hin. destruct Hin as (z & <- & _). auto.
      * intros [r h] y _ (i' & j' & Hi'' & Hj'' & E1 & E2 & E3). exists i', j'.
        split; [exact Hi''|]. split; [exact Hj''|]. split; auto. split; auto. simpl in *.
        assert (forall r', r' = src_expected (src_edges s) /\ (agree x -> agree y /\ g_equiv (sabs y) (run_steps (map (fun te => f2 (fst te) (snd te)) (before_error (src_edges s))) (sabs x))) ->
          r' = match first_error (src_edges s) with None => Ok tt | Some e => Err (RightE e) end /\
          (agree d -> agree y /\ g_equiv (sabs y) (run_steps (map (fun ip => f1 (fst ip) (snd ip)) (before_error (src_nodes s)) ++ map (fun te => f2 (fst te) (snd te)) (before_error (src_edges s))) (sabs d)))) as Hfin.
        { intros r' [Er' E4]. split; [exact Er'|]. intros A0. destruct (Hr A0) as [Ax Gx].
          destruct (E4 Ax) as [Ay Gy]. split; auto. rewrite run_steps_app.
          eapply g_equiv_trans; [exact Gy|]. apply run_steps_equiv; auto.
          apply Forall_forall. intros f Hin. apply in_map_iff in Hin. destruct Hin as (z & <- & _). auto. }
        destruct r as [[]|[el|er]]; auto.
    + split.
      * split; auto. intros A0. apply (bt_more _ HR0). auto.
      * exists i, j. split; [lia|]. split; [lia|]. auto.
    + destruct Hr as [Er1 Hr]. destruct (first_error (src_nodes s)) as [e0|]; [|discriminate].
      rewrite app_nil_r. split.
      * split; auto.
      * exists i, j. split; [lia|]. split; [lia|]. split; [reflexivity|]. split; [exact Hf|]. simpl. auto.
Qed.

End Loop.

(** ** Single calls *)
Lemma wp_lift F R0 (f : G -> G) (exp : outcome) (HR0 : between R0) (Hpart : forall steps g x, part steps g x -> R0 steps g x)
    (i j dg du : nat) U (p : P (result err unit * handle k)) d :
  exp = Ok tt -> (forall x, U x -> used (i + dg) (j + du) x) -> i + dg <= n -> j + du <= m ->
  wp F (near U d f) (with_h (at_ (i + dg) (j + du)) (finished F d f)) p d ->
  wp F (during R0 [f] d) (after F [f] exp i j dg du d) (lift p) d.
Proof.
  intros -> HU Hi Hj H. unfold lift. apply wp_bind. eapply wp_mono; [| |exact H].
  - intros x Hx. apply near_part in Hx. destruct Hx as [H1 H2]. split; auto.
    eapply fair_mono; [|exact H1]. intros r Hr. apply (used_mono (i + dg) (j + du)); auto.
  - intros [r h] x Hx [Eh Hr]. simpl in Eh, Hr. subst h. simpl. split.
    + apply near_part in Hx. destruct Hx as [H1 H2]. split; auto.
      eapply fair_mono; [|exact H1]. intros r' Hr'. apply (used_mono (i + dg) (j + du)); auto.
    + exists (i + dg), (j + du). split; [lia|]. split; [lia|]. split; auto.
      destruct Hx as [Hx1 Hx2]. split; [eapply fair_mono; eauto|].
      destruct r as [[]|e]; simpl in *; auto. split; auto. intros A. destruct (Hx2 A). auto.
Qed.

Lemma wp_body F R0 (HR0 : between R0) (Hpart : forall steps g x, part steps g x -> R0 steps g x)
  {A} (body : A -> handle k -> P (result err unit * handle k)) (f : A -> G -> G) dg du
  (Hbody : forall a i j d, i + dg <= n -> j + du <= m -> fair (used i j) d ->
    wp F (near (used (i + dg) (j + du)) d (f a)) (with_h (at_ (i + dg) (j + du)) (finished F d (f a))) (body a (at_ i j)) d) :
  body_ok F R0 body f dg du.
Proof.
  intros a i j d Hi Hj H. eapply wp_mono; [| |apply Hbody; auto].
  - intros x Hx. apply near_part in Hx. destruct Hx as [H1 H2]. split; auto.
    eapply fair_mono; [|exact H1]. intros r Hr. apply (used_mono (i + dg) (j + du)); auto.
  - intros [r h] x [Hx1 Hx2] [Eh Hr]. simpl in Eh, Hr |- *. split; auto. split; auto.
    destruct r as [[]|e]; simpl in *; auto. intros A0. destruct (Hx2 A0). auto.
Qed.

Lemma used_gen_wp {A} F i j d f (Q : A -> db -> Prop) p :
  wp F (near (fun x => used i j x \/ x = next_key (at_ i j)) d f) Q p d -> wp F (near (used (S i) j) d f) Q p d.
Proof.
  intros H. eapply wp_mono; [| |exact H]; auto. intros x. apply near_swap. intros r. apply used_gen.
Qed.

Lemma wp_op F R0 (HR0 : between R0) (Hpart : forall steps g x, part steps g x -> R0 steps g x) (o : op) :
  (not_extend o \/ forall steps g x, partx steps g x -> R0 steps g x) ->
  forall i j d, i + draws o <= n -> j + draws_ulid o <= m -> fair (used i j) d ->
  wp F (during R0 (op_steps mn me o) d) (after F (op_steps mn me o) (expected o) i j (draws o) (draws_ulid o) d)
    (sled_apply cn ce mn me o (at_ i j)) d.
Proof.
  intros Hx i j d Hi Hj H.
  assert (forall i j x, used i j x -> used (i + 0) (j + 0) x) as U0 by (intros; now rewrite !Nat.add_0_r).
  assert (forall i j, at_ (i + 0) (j + 0) = at_ i j) as A00 by (intros; now rewrite !Nat.add_0_r).
  destruct o as [v p|t e|v|t|v p|t e|s|s]; cbn [draws draws_ulid sled_apply op_steps] in *.
  - apply (wp_lift F R0 _ _ HR0 Hpart i j 0 0 (used i j)); [reflexivity | apply U0 | lia | lia |]. rewrite A00. apply wp_and_handle, wp_insert_node; auto.
  - apply (wp_lift F R0 (g_put_edge t e) _ HR0 Hpart i j 1 0 (used (S i) j)); [reflexivity | | lia | lia |].
    + intros x. now rewrite Nat.add_0_r, Nat.add_1_r.
    + rewrite Nat.add_0_r, Nat.add_1_r, <- at_gen. apply used_gen_wp. apply wp_insert_edge; auto.
      apply fresh_gen; lia.
  - apply (wp_lift F R0 _ _ HR0 Hpart i j 0 0 (used i j)); [reflexivity | apply U0 | lia | lia |]. rewrite A00. apply wp_and_handle, wp_remove_node; auto.
  - apply (wp_lift F R0 _ _ HR0 Hpart i j 0 0 (used i j)); [reflexivity | apply U0 | lia | lia |]. rewrite A00. apply wp_and_handle, wp_remove_edge; auto.
  - apply (wp_lift F R0 _ _ HR0 Hpart i j 0 0 (used i j)); [reflexivity | apply U0 | lia | lia |]. rewrite A00. apply wp_and_handle, wp_merge_node; auto.
  - apply (wp_lift F R0 (g_merge_edge me t e) _ HR0 Hpart i j 1 0 (used (S i) j)); [reflexivity | | lia | lia |].
    + intros x. now rewrite Nat.add_0_r, Nat.add_1_r.
    + rewrite Nat.add_0_r, Nat.add_1_r, <- at_gen. apply used_gen_wp. apply wp_merge_edge; auto.
      apply fresh_gen; lia.
  - destruct Hx as [[]|Hx]. unfold s_extend.
    replace 0 with (length (before_error (src_edges s)) * 0) by lia.
    replace (length (before_error (src_edges s))) with (length (before_error (src_edges s)) * 1) at 2 by lia.
    apply (wp_nodes_edges F R0 HR0); auto; try lia.
    + apply wp_body; auto. intros [v p] i0 j0 d0 Hi0 Hj0 H0. rewrite A00, !Nat.add_0_r.
      apply wp_and_handle. simpl fst. simpl snd. apply wp_insert_node; auto.
    + intros v p a b. apply put_node_equiv.
    + intros [t e] i0 j0 d0 Hi0 Hj0 H0. cbn [fst snd].
      replace (i0 + 0) with i0 by lia. replace (j0 + 1) with (S j0) by lia.
      eapply wp_mono; [| |apply (wp_extend_edge cn ce Hce F (used i0 j0)); [exact H0 | apply fresh_ulid; lia]].
      * intros x Hn. apply nearx_partx in Hn. destruct Hn as [H1 H2]. split; auto.
        eapply fair_mono; [|exact H1]. intros r Hr. apply used_ulid in Hr. apply (used_mono i0 (S j0)); auto; lia.
      * intros [r h] x [Hn1 Hn2] [Eh [Ha Hr]]. simpl in Eh, Ha, Hr |- *. subst h. split; [apply at_ulid|].
        split; [eapply fair_mono; [|exact Hn1]; intros r' Hr'; now apply used_ulid|].
        destruct r as [[]|er]; auto.
    + intros t e a b. apply put_edge_equiv.
  - unfold s_merge.
    replace 0 with (length (before_error (src_edges s)) * 0) by lia.
    replace (length (before_error (src_edges s))) with (length (before_error (src_edges s)) * 1) at 1 by lia.
    apply (wp_nodes_edges F R0 HR0); auto; try lia.
    + apply wp_body; auto. intros [v p] i0 j0 d0 Hi0 Hj0 H0. rewrite A00, !Nat.add_0_r.
      apply wp_and_handle. simpl fst. simpl snd. apply wp_merge_node; auto.
    + intros v p a b. apply merge_node_equiv.
    + apply wp_body; auto. intros [t e] i0 j0 d0 Hi0 Hj0 H0. cbn [fst snd].
      replace (j0 + 0) with j0 by lia. replace (i0 + 1) with (S i0) by lia.
      rewrite <- at_gen. apply used_gen_wp. apply wp_merge_edge; auto. apply fresh_gen; lia.
    + intros t e a b. apply merge_edge_equiv.
Qed.

End Window.
End Run.
