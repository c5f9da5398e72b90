(** Writers next to each other and next to a reader: every one writes property records under keys of
    its own only, so a record that an order refers to keeps its value until it disappears. *)
From Coq Require Import Arith NArith List Bool Sorted Lia.
From Verif Require Import Bytes BytesFacts OMap OMapFacts Core IdType IdTypeFacts Store Mem Spec
  CodecFacts ListFacts MemSim History Prog ProgFacts Sled SledHistory SledDb SledOps SledBulk SledRead SledTables
  SledLeaf SledLeafFacts SledBeside SledRely.
Import ListNotations.

Section Own.
Context {k : idkind} {NP EP SE BE : Type} (cn : codec BE NP) (ce : codec BE EP).
(** [keep]: edges whose records are never taken away *)
Context (keep : triple (Id k) -> Prop).
Notation I := (Id k).
Notation T := (triple (Id k)).
Notation err := (sled_error SE BE).
Notation P A := (prog db SE A).
Notation PR A := (prog db SE (result err A)).
Notation keys := (bytes -> triple (Id k) -> Prop).
Notation room := (bytes -> Prop).
Implicit Types U A N : bytes -> triple (Id k) -> Prop.
Implicit Types K : bytes -> Prop.
Let BC := bytes_cmp_ok.

(** Record keys with the edge they are for. *)
Definition union (A N : keys) : keys := fun r t => A r t \/ N r t.
Definition nokeys : keys := fun _ _ => False.
Definition within (A U : keys) : Prop := forall r t, A r t -> U r t.
Definition single (r : bytes) (t : T) : keys := fun r' t' => r' = r /\ t' = t.
Definition one (U : keys) : Prop := forall r t t', U r t -> U r t' -> t = t'.

Lemma within_refl A : within A A.
Proof. intros r t H. exact H. Qed.
Lemma within_trans A U U' : within A U -> within U U' -> within A U'.
Proof. intros H H' r t Hr. auto. Qed.
Lemma within_union A N : within A (union A N).
Proof. intros r t H. left. exact H. Qed.

Record sane (U : keys) (d : db) : Prop := {
  sn_one : one U;
  sn_order : in_order d;
  sn_node : forall key b, In (key, b) (t_node d) -> exists (i : I) p, key = to_be_bytes i /\ de cn b = Ok p;
  sn_idx : forall o key r, In (key, r) (idx o d) ->
    exists t : T, key = enc o t /\ U r t /\ (keep t -> bget r (t_edge d) <> None);
  sn_rec : forall r t b, U r t -> bget r (t_edge d) = Some b -> exists e, de ce b = Ok e
}.

(** The records in use keep their value or disappear. *)
Definition lasting (U : keys) (d d' : db) : Prop :=
  forall r t, U r t -> bget r (t_edge d') = bget r (t_edge d) \/ (~ keep t /\ bget r (t_edge d') = None).

Lemma lasting_refl U d : lasting U d d.
Proof. intros r t _. auto. Qed.
Lemma lasting_trans U U' d d' d'' : within U U' -> lasting U d d' -> lasting U' d' d'' -> lasting U d d''.
Proof.
  intros H H1 H2 r t Hr. destruct (H2 r t (H r t Hr)) as [->|?]; auto.
Qed.

(** What one step may do: [N] are new record keys, [U] those in use before. *)
Inductive tame (U N : keys) : db -> db -> Prop :=
| T_refl d : tame U N d d
| T_node d d' (i : I) b p : de cn b = Ok p -> tame U N (set_tbl TNode (binsert (to_be_bytes i) b (t_node d)) d) d' -> tame U N d d'
| T_rec d d' r t b e : N r t -> de ce b = Ok e -> tame U N (set_tbl TEdge (binsert r b (t_edge d)) d) d' -> tame U N d d'
| T_idx d d' o (t : T) r : U r t \/ N r t -> (keep t -> bget r (t_edge d) <> None) ->
    tame U N (set_tbl (tab o) (binsert (enc o t) r (idx o d)) d) d' -> tame U N d d'
| T_del d d' x ks : (x = TEdge -> forall r, In r ks -> exists t, U r t /\ ~ keep t) ->
    tame U N (set_tbl x (removes ks (tbl x d)) d) d' -> tame U N d d'.

Lemma idx_set_same o v d : idx o (set_tbl (tab o) v d) = v.
Proof. apply tbl_set_eq. Qed.
Lemma idx_set_other o x v d : tab o <> x -> idx o (set_tbl x v d) = idx o d.
Proof. apply tbl_set_neq. Qed.

Lemma tame_spec U N d d' : tame U N d d' ->
  (forall r t t', N r t -> ~ U r t') -> sane (union U N) d ->
  sane (union U N) d' /\ lasting U d d' /\ forall r, (forall t, ~ N r t) -> bget r (t_edge d) = None -> bget r (t_edge d') = None.
Proof.
  induction 1 as [d|d d' i b p Hb _ IH|d d' r t b e Hr Hb _ IH|d d' o t r Hr Hk _ IH|d d' x ks Hk _ IH];
    intros HN [S0 S1 S2 S3 S4].
  - split; [now split|]. split; [apply lasting_refl|auto].
  - destruct (IH HN) as (H1 & H2 & H3); [|split; [exact H1|split; [exact H2|exact H3]]].
    split; auto.
    + now apply in_order_insert with (x := TNode).
    + simpl. intros key b' Hin. apply in_insert_weak in Hin. destruct Hin as [[-> ->]|Hin]; eauto.
    + intros o key r. rewrite idx_set_other by (destruct o; discriminate). exact (S3 o key r).
  - destruct (IH HN) as (H1 & H2 & H3).
    + split; auto.
      * now apply in_order_insert with (x := TEdge).
      * intros o key r'. rewrite idx_set_other by (destruct o; discriminate). intros Hin.
        destruct (S3 o key r' Hin) as (t' & Ht & Hu & Hp). exists t'. split; auto. split; auto. intros Hk. simpl.
        destruct (list_eq_dec Byte.byte_eq_dec r' r) as [->|Nr]; [rewrite (get_insert_eq BC); discriminate|].
        rewrite (get_insert_neq BC) by auto. auto.
      * simpl. intros r' t' b' Hu. destruct (list_eq_dec Byte.byte_eq_dec r' r) as [->|Nr].
        -- rewrite (get_insert_eq BC). intros [= <-]. eauto.
        -- rewrite (get_insert_neq BC) by auto. eauto.
    + split; [exact H1|]. split.
      * intros r' t' Hu. assert (r' <> r) as Nr by (intros ->; exact (HN r t t' Hr Hu)).
        destruct (H2 r' t' Hu) as [E|E]; auto. left. rewrite E. simpl. now rewrite (get_insert_neq BC).
      * intros r' Hn He. apply H3; auto. simpl. rewrite (get_insert_neq BC); auto. intros ->. exact (Hn t Hr).
  - destruct (IH HN) as (H1 & H2 & H3); [|split; [exact H1|]].
    + assert (forall r', bget r' (t_edge (set_tbl (tab o) (binsert (enc o t) r (idx o d)) d)) = bget r' (t_edge d)) as He
        by (intros; destruct o; reflexivity).
      split; auto.
      * apply (in_order_insert (tab o)). exact S1.
      * destruct o; exact S2.
      * intros o' key r' Hin. rewrite He. destruct (order_dec o' o) as [->|No].
        -- rewrite idx_set_same in Hin. apply in_insert_weak in Hin. destruct Hin as [[-> ->]|Hin]; [|eauto].
           exists t. split; auto.
        -- rewrite idx_set_other in Hin by (intros E; apply tab_inj in E; auto). eauto.
      * intros r' t' b'. rewrite He. exact (S4 r' t' b').
    + destruct o; split; [exact H2|exact H3|exact H2|exact H3|exact H2|exact H3].
  - destruct (table_dec x TEdge) as [->|Nx].
    + specialize (Hk eq_refl). change (tbl TEdge d) with (t_edge d) in *.
      assert (forall r t, union U N r t -> keep t -> ~ In r ks) as Hkeep.
      { intros r t Hu Kp Hi. destruct (Hk r Hi) as (t' & Hu' & Nk). apply Nk. replace t' with t; auto. eapply S0; [exact Hu|]. left. exact Hu'. }
      assert (forall r, bget r (t_edge (set_tbl TEdge (removes ks (t_edge d)) d)) = if in_dec (list_eq_dec Byte.byte_eq_dec) r ks then None else bget r (t_edge d)) as Hg.
      { intros r. change (t_edge (set_tbl TEdge (removes ks (t_edge d)) d)) with (removes ks (t_edge d)).
        destruct (in_dec (list_eq_dec Byte.byte_eq_dec) r ks) as [Hi|Hi]; [now rewrite removes_get_in|now rewrite removes_get_notin]. }
      destruct (IH HN) as (H1 & H2 & H3).
      * split; auto.
        -- now apply (in_order_removes TEdge).
        -- intros o key r Hin. rewrite idx_set_other in Hin by (destruct o; discriminate). destruct (S3 o key r Hin) as (t & Ht & Hu & Hp).
           exists t. split; auto. split; auto. intros Kp. rewrite Hg. destruct (in_dec (list_eq_dec Byte.byte_eq_dec) r ks) as [Hi|]; auto. exfalso. eapply Hkeep; eauto.
        -- intros r t b Hu. rewrite Hg. destruct (in_dec (list_eq_dec Byte.byte_eq_dec) r ks); [intros E; discriminate E|]. exact (S4 r t b Hu).
      * split; [exact H1|]. split.
        -- intros r t Hu. destruct (H2 r t Hu) as [E|E]; auto. rewrite E, Hg. destruct (in_dec (list_eq_dec Byte.byte_eq_dec) r ks) as [Hi|]; auto. right. split; auto.
           intros Kp. apply (Hkeep r t); auto. left. exact Hu.
        -- intros r Hn He. apply H3; auto. rewrite Hg. destruct (in_dec (list_eq_dec Byte.byte_eq_dec) r ks); auto.
    + assert (t_edge (set_tbl x (removes ks (tbl x d)) d) = t_edge d) as He by (destruct x; congruence || reflexivity).
      destruct (IH HN) as (H1 & H2 & H3).
      * split; auto.
        -- now apply in_order_removes.
        -- destruct (table_dec x TNode) as [->|Nx'].
           ++ intros key b Hin. apply removes_in in Hin. eauto.
           ++ assert (t_node (set_tbl x (removes ks (tbl x d)) d) = t_node d) as -> by (destruct x; congruence || reflexivity). exact S2.
        -- intros o key r Hin. rewrite He. apply (S3 o).
           destruct (table_dec (tab o) x) as [<-|Nx']; [rewrite idx_set_same in Hin; now apply removes_in in Hin|].
           now rewrite idx_set_other in Hin.
        -- intros r t b Hu. rewrite He. exact (S4 r t b Hu).
      * split; [exact H1|]. split.
        -- intros r t Hu. rewrite <- He. auto.
        -- intros r Hn E. apply H3; auto. now rewrite He.
Qed.

(** ** Programs that write under keys of their own *)

(** [A] are known to be in use, [K] are the keys left; [R] holds of both at the end and the result. *)
Fixpoint own {X} (R : keys -> room -> X -> Prop) (A : keys) (K : room) (p : P X) : Prop :=
  match p with
  | Ret x => R A K x
  | Look c => forall U d, within A U -> sane U d -> own R U K (c d)
  | Act u c e => exists (N : keys) (K1 : room),
      (forall r t, N r t -> K r) /\ (forall r, K1 r -> K r) /\ (forall r t, N r t -> ~ K1 r) /\ one N /\
      (forall U d, within A U -> sane U d -> tame U N d (u d) /\ own R (union U N) K1 (c d)) /\
      (forall x, own R A K (e x))
  end.

Definition lasts {X} (R : keys -> room -> X -> Prop) : Prop := forall A A' K x, within A A' -> R A K x -> R A' K x.

Lemma own_mono {X} (R R' : keys -> room -> X -> Prop) (p : P X) : forall A K,
  (forall A' K' x, within A A' -> R A' K' x -> R' A' K' x) -> own R A K p -> own R' A K p.
Proof.
  induction p as [x|c IH|u c IH e IHe]; simpl; intros A K HR Hp.
  - apply HR; auto. apply within_refl.
  - intros U d HU Hs. apply IH; auto. intros A' K' x HA. apply HR. eapply within_trans; eauto.
  - destruct Hp as (N & K1 & H1 & H2 & H3 & H4 & H5 & H6). exists N, K1. split; auto. split; auto. split; auto. split; auto. split.
    + intros U d HU Hs. destruct (H5 U d HU Hs) as [Ht Ho]. split; auto. apply IH; auto. intros A' K' x HA. apply HR.
      eapply within_trans; [exact HU|]. eapply within_trans; [apply within_union|exact HA].
    + intros x. apply IHe; auto.
Qed.

Lemma own_more {X} (R : keys -> room -> X -> Prop) (p : P X) : lasts R -> forall A A' K, within A A' -> own R A K p -> own R A' K p.
Proof.
  intros HR. induction p as [x|c IH|u c IH e IHe]; simpl; intros A A' K HA Hp.
  - eapply HR; eauto.
  - intros U d HU. apply Hp. eapply within_trans; eauto.
  - destruct Hp as (N & K1 & H1 & H2 & H3 & H4 & H5 & H6). exists N, K1. split; auto. split; auto. split; auto. split; auto. split.
    + intros U d HU. apply H5. eapply within_trans; eauto.
    + intros x. eapply IHe; eauto.
Qed.

Lemma own_bind {X Y} (R : keys -> room -> Y -> Prop) (p : P X) (f : X -> P Y) : forall A K,
  own (fun A' K' x => own R A' K' (f x)) A K p -> own R A K (bind p f).
Proof.
  induction p as [x|c IH|u c IH e IHe]; simpl; intros A K Hp; auto.
  destruct Hp as (N & K1 & H1 & H2 & H3 & H4 & H5 & H6). exists N, K1. split; auto. split; auto. split; auto. split; auto. split; auto.
  intros U d HU Hs. destruct (H5 U d HU Hs). auto.
Qed.

(** Programs that write no new record. *)
Fixpoint tames {X} (R : keys -> X -> Prop) (A : keys) (p : P X) : Prop :=
  match p with
  | Ret x => R A x
  | Look c => forall U d, within A U -> sane U d -> tames R U (c d)
  | Act u c e => (forall U d, within A U -> sane U d -> tame U nokeys d (u d) /\ tames R U (c d)) /\ (forall x, tames R A (e x))
  end.
Definition any {X} : keys -> X -> Prop := fun _ _ => True.

Lemma tame_more U U' N d d' : within U U' -> tame U N d d' -> tame U' N d d'.
Proof.
  intros H. induction 1 as [d|d d' i b p Hb _ IH|d d' r t b e Hr Hb _ IH|d d' o t r Hr Hk _ IH|d d' x ks Hk _ IH].
  - apply T_refl.
  - eapply T_node; eauto.
  - eapply T_rec; eauto.
  - eapply T_idx; [|exact Hk|exact IH]. destruct Hr; auto.
  - eapply T_del; eauto. intros E r Hr. destruct (Hk E r Hr) as (t & H1 & H2). eauto.
Qed.

Lemma own_tames {X} (R : keys -> X -> Prop) (R' : keys -> room -> X -> Prop) (p : P X) : forall A B K, within A B -> tames R A p ->
  (forall A' B' x, within A A' -> within B B' -> within A' B' -> R A' x -> R' B' K x) -> own R' B K p.
Proof.
  induction p as [x|c IH|u c IH e IHe]; simpl; intros A B K HB Hp HR.
  - apply (HR A B x); auto; apply within_refl.
  - intros U d HU Hs. assert (within A U) as HA by (eapply within_trans; eauto).
    apply IH with (A := U); auto; [apply within_refl|]. intros A' B' x HA' HB'. apply HR; [exact (within_trans _ _ _ HA HA')|exact (within_trans _ _ _ HU HB')].
  - destruct Hp as (H1 & H2). exists nokeys, K. split; [intros r t []|]. split; [auto|]. split; [intros r t []|]. split; [intros r t t' []|]. split.
    + intros U d HU Hs. assert (within A U) as HA by (eapply within_trans; eauto). destruct (H1 U d HA Hs) as [Ht Hc]. split; auto.
      apply IH with (A := U); auto; [apply within_union|]. intros A' B' x HA' HB'. apply HR; [exact (within_trans _ _ _ HA HA')|].
      apply (within_trans _ _ _ HU). exact (within_trans _ _ _ (within_union U _) HB').
    + intros x. eapply IHe; eauto.
Qed.

Lemma tames_mono {X} (R R' : keys -> X -> Prop) (p : P X) : forall A,
  (forall A' x, within A A' -> R A' x -> R' A' x) -> tames R A p -> tames R' A p.
Proof.
  induction p as [x|c IH|u c IH e IHe]; simpl; intros A HR Hp.
  - apply HR; auto. apply within_refl.
  - intros U d HU Hs. apply IH; auto. intros A' x HA. apply HR. eapply within_trans; eauto.
  - destruct Hp as [H1 H2]. split.
    + intros U d HU Hs. destruct (H1 U d HU Hs) as [Ht Ho]. split; auto. apply IH; auto. intros A' x HA. apply HR. eapply within_trans; eauto.
    + intros x. apply IHe; auto.
Qed.
Lemma tames_bind {X Y} (R : keys -> Y -> Prop) (p : P X) (f : X -> P Y) : forall A,
  tames (fun A' x => tames R A' (f x)) A p -> tames R A (bind p f).
Proof.
  induction p as [x|c IH|u c IH e IHe]; simpl; intros A Hp; auto.
  destruct Hp as [H1 H2]. split; auto. intros U d HU Hs. destruct (H1 U d HU Hs). auto.
Qed.

(** [Q] of what was found, when the program got that far. *)
Definition found {X} (Q : keys -> X -> Prop) : keys -> result err X -> Prop := fun A r => match r with Ok x => Q A x | Err _ => True end.
Lemma tames_bind_ok {X Y} (Q : keys -> X -> Prop) (R : keys -> Y -> Prop) A (p : PR X) (f : X -> PR Y) :
  tames (found Q) A p -> (forall A' x, within A A' -> Q A' x -> tames (found R) A' (f x)) -> tames (found R) A (bind_ok p f).
Proof.
  intros Hp Hf. apply tames_bind. eapply tames_mono; [|exact Hp]. intros A' [x|x] HA HQ; simpl; auto.
Qed.
Lemma tames_readonly {X} A (p : P X) : readonly p -> tames any A p.
Proof.
  intros H. revert A. induction H as [x|c _ IH|u c e Hu _ IH _ IHe]; intros A; simpl; auto; [exact Logic.I|].
  split; auto. intros U d _ _. rewrite Hu. split; auto. apply T_refl.
Qed.
Lemma tames_remove A x key : (x = TEdge -> exists t, A key t /\ ~ keep t) -> tames (found any) A (tree_remove x key : PR (option bytes)).
Proof.
  intros H. simpl. split; [|exact (fun _ => Logic.I)]. intros U d HU _. split; [|exact Logic.I].
  eapply T_del with (ks := [key]); [|apply T_refl]. intros E r [<-|[]]. destruct (H E) as (t & H1 & H2). eauto.
Qed.
(** The record keys found in an order are in use. *)
Definition old_of (t : T) : keys -> option bytes -> Prop := fun A o => forall r, o = Some r -> A r t.
Lemma sane_get U d o t r : sane U d -> bget (enc o t) (idx o d) = Some r -> U r t.
Proof.
  intros Hs Hg. destruct (sn_idx _ _ Hs o (enc o t) r) as (t' & E & Hu & _); [now apply (get_in BC)|].
  apply enc_inj in E. now subst.
Qed.
Lemma tames_remove_idx A o (t : T) : tames (found (old_of t)) A (tree_remove (tab o) (enc o t) : PR (option bytes)).
Proof.
  simpl. split; [|exact (fun _ => Logic.I)]. intros U d HU Hs. split.
  - eapply T_del with (x := tab o) (ks := [enc o t]); [intros E; destruct o; discriminate E|apply T_refl].
  - intros r Hr. eapply sane_get; eauto.
Qed.
Lemma tames_put_idx A o (t : T) r : A r t -> ~ keep t -> tames (found (old_of t)) A (tree_insert (tab o) (enc o t) r : PR (option bytes)).
Proof.
  intros Hr Nk. simpl. split; [|exact (fun _ => Logic.I)]. intros U d HU Hs. split.
  - eapply T_idx with (o := o) (t := t) (r := r); [auto|tauto|]. apply T_refl.
  - intros r' Hr'. eapply sane_get; eauto.
Qed.
Lemma tames_txn {X} A (b : txn (SE := SE) (BE := BE) X) :
  (forall U d x d', within A U -> sane U d -> b d = Ok (x, d') -> tame U nokeys d d') -> tames (found any) A (transaction b : PR X).
Proof.
  intros H. simpl. split; [|exact (fun _ => Logic.I)]. intros U d HU Hs.
  destruct (b d) as [[x d']|e] eqn:E; split; try exact Logic.I; eauto. apply T_refl.
Qed.

Lemma own_txn {X} (R : keys -> room -> result err X -> Prop) A K K1 r (t : T) (b : txn (SE := SE) (BE := BE) X) :
  K r -> (forall x, K1 x -> K x) -> ~ K1 r -> (forall A' x, R A' K1 x) -> (forall A' x, R A' K x) ->
  (forall U d x d', within A U -> sane U d -> b d = Ok (x, d') -> tame U (single r t) d d') -> own R A K (transaction b : PR X).
Proof.
  intros H1 H2 H3 H4 H5 H. simpl. exists (single r t), K1. unfold single at 1 2. split; [|split; [|split; [|split; [|split]]]]; auto.
  - intros r' t' [-> ->]. auto.
  - intros r' t' [-> ->]. auto.
  - intros r' t1 t2 [_ ->] [_ ->]. reflexivity.
  - intros U d HU Hs. destruct (b d) as [[x d']|e] eqn:E; split; eauto. apply T_refl.
Qed.

(** Loops *)
Lemma tames_for_ok {S Y} (Q : keys -> S -> Prop) (G : keys -> Y -> Prop) (f : Y -> S -> PR S) :
  (forall A A' y, within A A' -> G A y -> G A' y) ->
  (forall A y s, G A y -> Q A s -> tames (found Q) A (f y s)) ->
  forall l A s, Forall (G A) l -> Q A s -> tames (found Q) A (for_ok f l s).
Proof.
  intros HG Hf. induction l as [|y l IH]; intros A s Hl Hs; simpl; auto. inversion Hl; subst.
  eapply tames_bind_ok; [apply Hf; auto|]. intros A' s' HA Hs'. apply IH; auto. eapply Forall_impl; [|eassumption]. intros y'. now apply HG.
Qed.
Lemma tames_for_from {S} (Q : keys -> S -> Prop) (G : keys -> bytes * bytes -> Prop) entries (f : bytes * bytes -> S -> PR S) :
  (forall A A' s, within A A' -> Q A s -> Q A' s) ->
  (forall A A' y, within A A' -> G A y -> G A' y) ->
  (forall A y s, G A y -> Q A s -> tames (found Q) A (f y s)) ->
  (forall U d kv, sane U d -> In kv (entries d) -> G U kv) ->
  forall cuts lo A s, Q A s -> tames (found Q) A (for_from entries f lo cuts s).
Proof.
  intros HQ HG Hf Hent.
  assert (forall lo hi U d, sane U d -> Forall (G U) (piece lo hi (entries d))) as Hp.
  { intros lo hi U d Hs. apply Forall_forall. intros kv Hi. unfold piece in Hi. apply filter_In in Hi. destruct Hi as [Hi _]. eauto. }
  induction cuts as [|c cuts IH]; intros lo A s Hs.
  - simpl. intros U d HU Hd. eapply tames_for_ok; eauto.
  - cbn [for_from]. eapply tames_bind_ok.
    + simpl. intros U d HU Hd. eapply tames_for_ok; eauto.
    + intros A' s' HA. apply IH.
Qed.

(** ** The calls *)
Context (Hcn : codec_ok cn) (Hce : codec_ok ce).

Lemma tames_insert_node A (n : I) p : tames (found any) A (s_insert_node cn n p : PR unit).
Proof.
  unfold s_insert_node, bind_ok, bincode. simpl. destruct (ser cn p) as [b|e] eqn:E; simpl; [|exact Logic.I].
  split; [|exact (fun _ => Logic.I)]. intros U d _ _. split; [|exact Logic.I]. eapply T_node; [apply Hcn; exact E|]. apply T_refl.
Qed.

Lemma tame_insert_edge U (t : T) r b e d : de ce b = Ok e ->
  forall x d', insert_edge_txn (SE := SE) (BE := BE) t r b d = Ok (x, d') -> tame U (single r t) d d'.
Proof.
  intros Hb x d' [= <- <-].
  eapply T_rec with (t := t); [split; reflexivity|exact Hb|].
  eapply T_idx with (o := SPO) (t := t) (r := r); [right; split; auto|simpl; intros _; rewrite (get_insert_eq BC); discriminate|].
  eapply T_idx with (o := POS) (t := t) (r := r); [right; split; auto|simpl; intros _; rewrite (get_insert_eq BC); discriminate|].
  eapply T_idx with (o := OSP) (t := t) (r := r); [right; split; auto|simpl; intros _; rewrite (get_insert_eq BC); discriminate|].
  apply T_refl.
Qed.

Lemma tames_merge_node A mn (n : I) p : tames (found any) A (s_merge_node cn mn n p : PR unit).
Proof.
  eapply tames_bind_ok; [|intros; exact Logic.I]. apply tames_txn.
  intros U d x d' _ _. unfold merge_node_txn, t_bind, t_get. destruct (bget (to_be_bytes n) (tbl TNode d)) as [v|].
  - destruct (de cn v) as [p0|e0] eqn:E0; simpl; [|discriminate]. unfold t_ret.
    destruct (ser cn (mn p0 p)) as [b|e1] eqn:E1; simpl; [|discriminate].
    intros [= <- <-]. eapply T_node; [apply Hcn; exact E1|]. apply T_refl.
  - destruct (ser cn p) as [b|e1] eqn:E1; simpl; [|discriminate].
    intros [= <- <-]. eapply T_node; [apply Hcn; exact E1|]. apply T_refl.
Qed.

Lemma tames_extend_node A (n : I) p : tames (found any) A (s_extend_node cn n p : PR unit).
Proof. exact (tames_insert_node A n p). Qed.

Lemma tames_remove_edge A (t : T) : ~ keep t -> tames (found any) A (s_remove_edge t : PR unit).
Proof.
  intros Nk. eapply tames_bind_ok.
  - apply tames_txn. intros U d x d' _ Hs. unfold remove_edge_txn, t_bind, t_remove. cbn [tbl].
    destruct (bget (encode_spo t) (t_spo d)) as [r|] eqn:Er; intros [= <- <-].
    + eapply T_del with (x := TSpo) (ks := [encode_spo t]); [intros E; discriminate E|].
      eapply T_del with (x := TPos) (ks := [encode_pos t]); [intros E; discriminate E|].
      eapply T_del with (x := TOsp) (ks := [encode_osp t]); [intros E; discriminate E|].
      eapply T_del with (x := TEdge) (ks := [r]); [|apply T_refl].
      intros _ r' [<-|[]]. exists t. split; auto. exact (sane_get U d SPO t r Hs Er).
    + eapply T_del with (x := TSpo) (ks := [encode_spo t]); [intros E; discriminate E|].
      eapply T_del with (x := TPos) (ks := [encode_pos t]); [intros E; discriminate E|].
      eapply T_del with (x := TOsp) (ks := [encode_osp t]); [intros E; discriminate E|]. apply T_refl.
  - intros A1 _ _ _. eapply tames_bind_ok; [apply (tames_remove_idx A1 SPO t)|]. intros A2 r _ Hr.
    eapply tames_bind_ok; [apply tames_remove; intros E; discriminate E|]. intros A3 _ H3 _.
    eapply tames_bind_ok; [apply tames_remove; intros E; discriminate E|]. intros A4 _ H4 _.
    destruct r as [r|]; [|exact Logic.I]. eapply tames_bind_ok; [|intros; exact Logic.I]. apply tames_remove. intros _. exists t. split; auto.
Qed.

Lemma tames_remove_node A c (n : I) : (forall t, keep t -> sub t <> n /\ obj t <> n) -> tames (found any) A (l_remove_node c n : PR unit).
Proof.
  intros Hn.
  set (G := fun (A : keys) (kv : bytes * bytes) => exists t, A (snd kv) t /\ ~ keep t).
  set (Q := fun (A : keys) (b : batches) => forall r, In r (b_edge b) -> exists t, A r t /\ ~ keep t).
  assert (forall A A' y, within A A' -> G A y -> G A' y) as HG by (intros A0 A' y H (t & H1 & H2); exists t; auto).
  assert (forall A A' b, within A A' -> Q A b -> Q A' b) as HQ by (intros A0 A' b H Hb r Hr; destruct (Hb r Hr) as (t & H1 & H2); exists t; auto).
  assert (forall o U d kv, (forall t, fst (fst (comps o t)) = n -> ~ keep t) -> sane U d -> In kv (brange (key_bounds_1 n) (idx o d)) -> G U kv) as Hent.
  { intros o U d [key r] Ho Hs Hi. apply filter_In in Hi. destruct Hi as [Hi Hb]. destruct (sn_idx _ _ Hs o key r Hi) as (t & -> & Hu & _).
    exists t. split; auto. apply Ho. now apply in_bounds_1_enc. }
  assert (forall A b b' r, b_edge b' = b_edge b ++ [r] -> (exists t, A r t /\ ~ keep t) -> Q A b -> Q A b') as Hadd.
  { intros A0 b b' r E Hr Hb x Hx. rewrite E in Hx. apply in_app_iff in Hx. destruct Hx as [Hx|[<-|[]]]; auto. }
  assert (forall A, Q A (Batches [] [] [] [])) as H0 by (intros A0 r []).
  unfold l_remove_node. eapply tames_bind_ok.
  - apply (tames_for_from Q G); auto.
    + intros A0 y s Hy Hs. unfold forward_entry, next. simpl. split; [|exact (fun _ => Logic.I)].
      intros U d HU Hd. split; [apply T_refl|]. destruct (decode_key decode_spo (fst y)); simpl; auto.
      eapply Hadd; [reflexivity| |eapply HQ; eauto]. exact (HG _ _ y HU Hy).
    + intros U d kv Hs. apply (Hent SPO); auto. intros t E Kt. destruct (Hn t Kt) as [Hn1 _]. now apply Hn1.
  - intros A1 f _ Hf. eapply tames_bind_ok.
    + apply (tames_for_from Q G); auto.
      * intros A0 y s Hy Hs. unfold backward_entry, next. simpl. split; [|exact (fun _ => Logic.I)].
        intros U d HU Hd. split; [apply T_refl|]. destruct (decode_key decode_osp (fst y)); simpl; auto.
        eapply Hadd; [reflexivity| |eapply HQ; eauto]. exact (HG _ _ y HU Hy).
      * intros U d kv Hs. apply (Hent OSP); auto. intros t E Kt. destruct (Hn t Kt) as [_ Hn1]. now apply Hn1.
    + intros A2 b H2 Hb. eapply tames_bind_ok; [|intros; exact Logic.I]. apply tames_txn. intros U d x d' HU Hs [= <- <-].
      eapply T_del with (x := TNode) (ks := [to_be_bytes n]); [intros E; discriminate E|].
      eapply T_del with (x := TEdge) (ks := b_edge f); [intros _; apply (HQ A1); auto; eapply within_trans; eauto|].
      eapply T_del with (x := TEdge) (ks := b_edge b); [intros _; apply (HQ A2); auto|].
      eapply T_del with (x := TSpo) (ks := b_spo f); [intros E; discriminate E|].
      eapply T_del with (x := TSpo) (ks := b_spo b); [intros E; discriminate E|].
      eapply T_del with (x := TPos) (ks := b_pos f); [intros E; discriminate E|].
      eapply T_del with (x := TPos) (ks := b_pos b); [intros E; discriminate E|].
      eapply T_del with (x := TOsp) (ks := b_osp f); [intros E; discriminate E|].
      eapply T_del with (x := TOsp) (ks := b_osp b); [intros E; discriminate E|]. apply T_refl.
Qed.

Lemma tame_merge_edge U me (t : T) r e d : ~ keep t -> sane U d -> forall x d', merge_edge_txn (SE := SE) ce me t r e d = Ok (x, d') ->
  tame U (single r t) d d'.
Proof.
  intros Nk Hs x d'. unfold merge_edge_txn, t_bind, t_insert, t_remove. cbn [tbl].
  assert (forall d0 e0, (let put := fun props : EP => t_bind (t_bincode (ser ce props)) (fun b =>
    t_bind (t_insert (SE := SE) (BE := BE) TEdge r b) (fun _ => t_ret tt)) in put e0 d0 = Ok (x, d')) -> tame U (single r t) d0 d') as Hput.
  { intros d0 e0. cbn zeta. unfold t_bind, t_bincode. destruct (ser ce e0) as [b|?] eqn:E; simpl; [|discriminate].
    intros [= <- <-]. eapply T_rec with (t := t); [split; reflexivity|apply Hce; exact E|]. apply T_refl. }
  cbn zeta in Hput. unfold t_bind, t_insert in Hput.
  intros H.
  eapply T_idx with (o := SPO) (t := t) (r := r); [right; split; auto|tauto|].
  eapply T_idx with (o := POS) (t := t) (r := r); [right; split; auto|tauto|].
  eapply T_idx with (o := OSP) (t := t) (r := r); [right; split; auto|tauto|].
  destruct (bget (encode_spo t) (t_spo d)) as [old|] eqn:Eo; [|eapply Hput; exact H].
  cbn [t_edge set_tbl tbl] in H.
  eapply T_del with (x := TEdge) (ks := [old]).
  { intros _ r' [<-|[]]. exists t. split; auto. exact (sane_get U d SPO t old Hs Eo). }
  destruct (bget old (t_edge d)) as [v|]; [|eapply Hput; exact H].
  destruct (de ce v) as [e0|?]; simpl in H; [|discriminate]. eapply Hput. exact H.
Qed.
End Own.
