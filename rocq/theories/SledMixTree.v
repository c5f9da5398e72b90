(** Extend and merge as sequences of single calls. *)
From Coq Require Import Arith NArith List Bool Sorted Lia.
From Verif Require Import Bytes BytesFacts OMap OMapFacts Core IdType IdTypeFacts Store Mem Spec
  CodecFacts ListFacts MemSim History Prog ProgFacts Sled SledHistory SledSched SledDb SledOps SledBulk
  SledRun SledRead SledTop SledMain SledCrash SledLeak SledConc SledLeaf SledTornSpec SledMixSpec.
Import ListNotations.

Section Tree.
Context {k : idkind} {NP EP SE BE E : Type} (cn : codec BE NP) (ce : codec BE EP).
Context (mn : NP -> NP -> NP) (me : EP -> EP -> EP).
Notation I := (Id k).
Notation T := (triple (Id k)).
Notation G := (graph k NP EP).
Notation err := (sled_error SE BE).
Notation P A := (prog db SE A).
Notation PR A := (prog db SE (result err A)).
Notation op := (op k NP EP E).
Notation outcome := (outcome (SE := SE) (BE := BE) (E := E)).
Notation lapply := (l_apply (SE := SE) (E := E) cn ce mn me).

(** A single call, one edge of extend, or one edge of extend whose record is written. *)
Inductive call : Type :=
| One (c : cutting) (o : op)
| Ext (t : T) (e : EP)
| Late (t : T) (e : EP) (r : bytes).

Definition what (a : call) : op :=
  match a with One _ o => o | Ext t e | Late t e _ => OInsertEdge t e end.

(** The rest of extend.rs:34-62 from the OSP, the POS and the SPO order on. *)
Definition rest_drop (old : option bytes) : PR unit :=
  match old with Some x => bind_ok (tree_remove TEdge x) (fun _ => Ret (Ok tt)) | None => Ret (Ok tt) end.
Definition rest_osp (t : T) (r : bytes) (old : option bytes) : PR unit :=
  bind_ok (tree_insert TOsp (encode_osp t) r) (fun _ => rest_drop old).
Definition rest_pos (t : T) (r : bytes) (old : option bytes) : PR unit :=
  bind_ok (tree_insert TPos (encode_pos t) r) (fun _ => rest_osp t r old).
Definition rest_spo (t : T) (r : bytes) : PR unit :=
  bind_ok (tree_insert TSpo (encode_spo t) r) (fun old => rest_pos t r old).

Definition do_call (a : call) (h : handle k) : P (outcome * handle k) :=
  match a with
  | One c o => lapply c o h
  | Ext t e => lift (s_extend_edge ce t e h)
  | Late t _ r => lift (and_handle h (rest_spo t r))
  end.

(** What a caller is going to do, depending on the answers. *)
Inductive ct (A : Type) : Type :=
| CRet (a : A)
| CCall (a : call) (c : outcome -> ct A).
Arguments CRet {A} a.
Arguments CCall {A} a c.

Fixpoint ct_bind {A B} (c : ct A) (f : A -> ct B) : ct B :=
  match c with CRet a => f a | CCall a c' => CCall a (fun r => ct_bind (c' r) f) end.

Fixpoint run_ct {A} (c : ct A) (h : handle k) : P (A * handle k) :=
  match c with
  | CRet a => Ret (a, h)
  | CCall a c' => bind (do_call a h) (fun rh => run_ct (c' (fst rh)) (snd rh))
  end.

Lemma run_bind {A B} (c : ct A) (f : A -> ct B) : forall h,
  peq (run_ct (ct_bind c f) h) (bind (run_ct c h) (fun rh => run_ct (f (fst rh)) (snd rh))).
Proof.
  induction c as [a|a c IH]; intros h; simpl; [apply peq_refl|].
  eapply peq_trans; [|apply peq_sym, bind_assoc]. apply peq_bind; [apply peq_refl|]. intros rh. apply IH.
Qed.

(** ** The calls of a caller *)
Fixpoint plan_source {A} (el : A -> call) (l : list (result E A)) : ct outcome :=
  match l with
  | [] => CRet (Ok tt)
  | Err e :: _ => CRet (Err (RightE e))
  | Ok a :: l' => CCall (el a) (fun r => match r with Ok _ => plan_source el l' | Err e => CRet (Err e) end)
  end.

Definition plan_bulk (fn : I * NP -> call) (fe : T * EP -> call) (s : source k NP EP E) : ct outcome :=
  ct_bind (plan_source fn (src_nodes s)) (fun r =>
    match r with Err e => CRet (Err e) | Ok _ => plan_source fe (src_edges s) end).

Definition plan_op (c : cutting) (o : op) : ct outcome :=
  match o with
  | OExtend s => plan_bulk (fun ip => One ([], []) (OInsertNode (fst ip) (snd ip))) (fun te => Ext (fst te) (snd te)) s
  | OMerge s => plan_bulk (fun ip => One ([], []) (OMergeNode (fst ip) (snd ip)))
                          (fun te => One ([], []) (OMergeEdge (fst te) (snd te))) s
  | _ => CCall (One c o) (fun r => CRet r)
  end.

Fixpoint plan (cs : nat -> cutting) (j : nat) (l : list op) : ct (list outcome) :=
  match l with
  | [] => CRet []
  | o :: l' => ct_bind (plan_op (cs j) o) (fun r => ct_bind (plan cs (S j) l') (fun rs => CRet (r :: rs)))
  end.

Lemma plan_source_run {A} (body : A -> handle k -> P (result err unit * handle k)) (el : A -> call) (l : list (result E A)) :
  (forall a h, peq (lift (body a h)) (do_call (el a) h)) ->
  forall h, peq (for_source body l h) (run_ct (plan_source el l) h).
Proof.
  intros Hb. induction l as [|[a|e] l IH]; intros h; simpl; try apply peq_refl.
  eapply peq_trans; [|apply peq_bind; [apply Hb|intros; apply peq_refl]].
  unfold lift. eapply peq_trans; [|apply peq_sym, bind_assoc]. apply peq_bind; [apply peq_refl|].
  intros [[[]|e] h']; simpl; [apply IH|apply peq_refl].
Qed.

Lemma plan_bulk_run (bn : I * NP -> handle k -> P (result err unit * handle k)) be (fn : I * NP -> call) (fe : T * EP -> call) (s : source k NP EP E) :
  (forall a h, peq (lift (bn a h)) (do_call (fn a) h)) -> (forall a h, peq (lift (be a h)) (do_call (fe a) h)) ->
  forall h, peq (for_nodes_edges bn be s h) (run_ct (plan_bulk fn fe s) h).
Proof.
  intros Hn He h. unfold for_nodes_edges, plan_bulk. eapply peq_trans; [|apply peq_sym, run_bind].
  apply peq_bind; [now apply plan_source_run|]. intros [[[]|e] h']; simpl; [now apply plan_source_run|apply peq_refl].
Qed.

Lemma plan_op_run c (o : op) h : peq (lapply c o h) (run_ct (plan_op c o) h).
Proof.
  destruct o; try (cbn [plan_op run_ct do_call]; apply peq_sym; eapply peq_trans; [apply peq_bind; [apply peq_refl|]; intros rh; rewrite <- surjective_pairing; apply peq_refl|apply bind_ret]).
  - apply plan_bulk_run; intros; apply peq_refl.
  - apply plan_bulk_run; intros; apply peq_refl.
Qed.

Lemma plan_run cs (l : list op) : forall j h, peq (l_history (SE := SE) cn ce mn me cs j l h) (run_ct (plan cs j l) h).
Proof.
  induction l as [|o l IH]; intros j h; simpl; [apply peq_refl|].
  eapply peq_trans; [|apply peq_sym, run_bind]. apply peq_bind; [apply plan_op_run|].
  intros rh. eapply peq_trans; [|apply peq_sym, run_bind]. apply peq_bind; [apply IH|]. intros; apply peq_refl.
Qed.

(** ** What they did *)
Definition of_call (r : outcome) : Prop := match r with Err (RightE _) => False | _ => True end.

Inductive path {A} : ct A -> list (op * outcome) -> ct A -> Prop :=
| Pa_here c : path c [] c
| Pa_call a c r lg c' : of_call r -> path (c r) lg c' -> path (CCall a c) ((what a, r) :: lg) c'
| Pa_late t e r c lg c' : path (CCall (Late t e r) c) lg c' -> path (CCall (Ext t e) c) lg c'.

Lemma path_trans {A} (c : ct A) lg c' : path c lg c' -> forall lg' c'', path c' lg' c'' -> path c (lg ++ lg') c''.
Proof. induction 1; intros lg' c'' H'; simpl; auto; [apply Pa_call; auto|eapply Pa_late; eauto]. Qed.

Lemma path_done {A} (c : ct A) lg a : path c lg (CRet a) -> forall b, c = CRet b -> lg = [] /\ b = a.
Proof. intros H b ->. inversion H; subst; auto. Qed.

Lemma path_call_inv {A} a (c : outcome -> ct A) lg v : path (CCall a c) lg (CRet v) ->
  exists r lg', lg = (what a, r) :: lg' /\ of_call r /\ path (c r) lg' (CRet v).
Proof.
  intros H. remember (CCall a c) as x eqn:E1. remember (CRet v) as y eqn:E2. revert a E1 E2.
  induction H as [c0|a0 c0 r lg c' Hr H IH|t e r c0 lg c' H IH]; intros a E1 E2; subst; try discriminate.
  - injection E1 as -> ->. eauto.
  - injection E1 as <- ->. destruct (IH _ eq_refl eq_refl) as (r' & lg' & -> & H1 & H2). simpl. eauto.
Qed.

Lemma path_bind {A B} (c : ct A) (f : A -> ct B) : forall lg v, path (ct_bind c f) lg (CRet v) ->
  exists a l1 l2, lg = l1 ++ l2 /\ path c l1 (CRet a) /\ path (f a) l2 (CRet v).
Proof.
  induction c as [a|a c IH]; intros lg v H; simpl in H.
  - exists a, [], lg. split; auto. split; auto. constructor.
  - destruct (path_call_inv _ _ _ _ H) as (r & lg' & -> & Hr & H'). destruct (IH r lg' v H') as (a' & l1 & l2 & -> & H1 & H2).
    exists a', ((what a, r) :: l1), l2. split; auto. split; auto. now apply Pa_call.
Qed.

Definition all_ok (l : list op) : list (op * outcome) := map (fun o => (o, Ok tt)) l.

Lemma plan_source_path {A} (el : A -> call) (l : list (result E A)) : forall lg r, path (plan_source el l) lg (CRet r) ->
  (r = match first_error l with None => Ok tt | Some e => Err (RightE e) end /\
   lg = all_ok (map (fun a => what (el a)) (before_error l))) \/
  (exists l1 a l2 e, before_error l = l1 ++ a :: l2 /\ r = Err (LeftE e) /\
   lg = all_ok (map (fun a => what (el a)) l1) ++ [(what (el a), r)]).
Proof.
  induction l as [|[a|e] l IH]; intros lg r H; simpl in H.
  - destruct (path_done _ _ _ H _ eq_refl) as [-> <-]. left. auto.
  - destruct (path_call_inv _ _ _ _ H) as (r' & lg' & -> & Hr & H'). destruct r' as [[]|[e|e]]; [|right|contradiction].
    + destruct (IH _ _ H') as [[H1 H2]|(l1 & a' & l2 & e & H1 & H2 & H3)]; [left|right].
      * simpl. split; auto. now rewrite H2.
      * exists (a :: l1), a', l2, e. simpl. rewrite H1, H3. auto.
    + destruct (path_done _ _ _ H' _ eq_refl) as [-> <-]. exists [], a, (before_error l), e. simpl. auto.
  - destruct (path_done _ _ _ H _ eq_refl) as [-> <-]. left. auto.
Qed.

Lemma plan_bulk_path (fn : I * NP -> call) (fe : T * EP -> call) (s : source k NP EP E) lg r els :
  path (plan_bulk fn fe s) lg (CRet r) ->
  els = map (fun a => what (fn a)) (before_error (src_nodes s)) ++
      match first_error (src_nodes s) with Some _ => [] | None => map (fun a => what (fe a)) (before_error (src_edges s)) end ->
  if succeeded r then r = match bulk_error s with None => Ok tt | Some e => Err (RightE e) end /\ lg = all_ok els
  else exists l o l', els = l ++ o :: l' /\ lg = all_ok l ++ [(o, r)].
Proof.
  intros H Eels. destruct (path_bind _ _ _ _ H) as (a & l1 & l2 & -> & H1 & H2).
  unfold bulk_error. destruct (plan_source_path _ _ _ _ H1) as [[Ha ->]|(m1 & x & m2 & e & Hm & -> & ->)].
  - destruct (first_error (src_nodes s)) as [e|]; subst a els.
    + destruct (path_done _ _ _ H2 _ eq_refl) as [-> <-]. simpl. unfold all_ok. now rewrite !app_nil_r.
    + destruct (plan_source_path _ _ _ _ H2) as [[-> ->]|(m1 & x & m2 & e & Hm & -> & ->)].
      * unfold all_ok. destruct (first_error (src_edges s)); simpl; split; auto; now rewrite map_app.
      * simpl. exists (map (fun a => what (fn a)) (before_error (src_nodes s)) ++ map (fun a => what (fe a)) m1), (what (fe x)), (map (fun a => what (fe a)) m2).
        unfold all_ok. rewrite Hm, !map_app, <- !app_assoc. auto.
  - destruct (path_done _ _ _ H2 _ eq_refl) as [-> <-]. simpl. rewrite app_nil_r. subst els.
    exists (map (fun a => what (fn a)) m1), (what (fn x)), (map (fun a => what (fn a)) m2 ++
      match first_error (src_nodes s) with Some _ => [] | None => map (fun a => what (fe a)) (before_error (src_edges s)) end).
    rewrite Hm, map_app, <- app_assoc. auto.
Qed.

Lemma plan_op_path c (o : op) lg r : path (plan_op c o) lg (CRet r) -> carried (o, r) lg.
Proof.
  unfold carried. destruct o; cbn [fst snd]; intros H;
    try (simpl in H; destruct (path_call_inv _ _ _ _ H) as (r' & lg' & -> & Hr & H');
      destruct (path_done _ _ _ H' _ eq_refl) as [-> <-]; reflexivity).
  - exact (plan_bulk_path _ _ _ _ _ _ H eq_refl).
  - exact (plan_bulk_path _ _ _ _ _ _ H eq_refl).
Qed.

Lemma plan_path cs (l : list op) : forall j lg rs, path (plan cs j l) lg (CRet rs) ->
  length rs = length l /\ accounts (combine l rs) lg.
Proof.
  induction l as [|o l IH]; intros j lg rs H; simpl in H.
  - destruct (path_done _ _ _ H _ eq_refl) as [-> <-]. split; auto. exists []. split; [constructor|reflexivity].
  - destruct (path_bind _ _ _ _ H) as (r & l1 & l2 & -> & H1 & H2).
    destruct (path_bind _ _ _ _ H2) as (rs' & l3 & l4 & -> & H3 & H4).
    destruct (path_done _ _ _ H4 _ eq_refl) as [-> <-]. destruct (IH _ _ _ H3) as (Hl & ess & He & ->).
    simpl. split; [congruence|]. exists (l1 :: ess). rewrite app_nil_r. split; auto. constructor; auto.
    now apply plan_op_path in H1.
Qed.

(** ** What occurs in it *)
Inductive all_calls (X : call -> Prop) {A} : ct A -> Prop :=
| Al_ret a : all_calls X (CRet a)
| Al_call a c : X a -> (forall r, all_calls X (c r)) -> all_calls X (CCall a c).

Lemma all_mono (X Y : call -> Prop) {A} (c : ct A) : (forall a, X a -> Y a) -> all_calls X c -> all_calls Y c.
Proof. intros H. induction 1; [apply Al_ret|apply Al_call; auto]. Qed.

Lemma all_bind X {A B} (c : ct A) (f : A -> ct B) : all_calls X c -> (forall a, all_calls X (f a)) -> all_calls X (ct_bind c f).
Proof. intros H Hf. induction H; simpl; auto. now apply Al_call. Qed.

Lemma all_source (X : call -> Prop) {A} (el : A -> call) (l : list (result E A)) : (forall a, In a (before_error l) -> X (el a)) -> all_calls X (plan_source el l).
Proof.
  induction l as [|[a|e] l IH]; intros H; simpl; try apply Al_ret. apply Al_call; [apply H; simpl; auto|].
  intros [[]|e]; [apply IH; intros; apply H; simpl; auto|apply Al_ret].
Qed.

(** Identifiers drawn: at most [n] from the generator and [m] from Ulid::new(). *)
Definition gdraw (a : call) : nat := match a with One _ o => draws o | _ => 0 end.
Definition udraw (a : call) : nat := match a with Ext _ _ => 1 | _ => 0 end.

Inductive fits {A} : nat -> nat -> ct A -> Prop :=
| Fi_ret n m a : fits n m (CRet a)
| Fi_call n m a c : (forall r, fits n m (c r)) -> fits (gdraw a + n) (udraw a + m) (CCall a c).

Lemma fits_more {A} n m (c : ct A) : fits n m c -> forall n' m', n <= n' -> m <= m' -> fits n' m' c.
Proof.
  induction 1 as [n m a|n m a c H IH]; intros n' m' Hn Hm; [constructor|].
  replace n' with (gdraw a + (n' - gdraw a)) by lia. replace m' with (udraw a + (m' - udraw a)) by lia.
  constructor. intros r. apply IH; lia.
Qed.

Lemma fits_bind {A B} n m (c : ct A) (f : A -> ct B) n' m' : fits n m c -> (forall a, fits n' m' (f a)) ->
  fits (n + n') (m + m') (ct_bind c f).
Proof.
  intros H Hf. induction H as [n m a|n m a c H IH]; simpl.
  - eapply fits_more; [apply Hf|lia|lia].
  - rewrite <- !Nat.add_assoc. constructor. exact IH.
Qed.

Lemma fits_source {A} (el : A -> call) dg du (l : list (result E A)) : (forall a, gdraw (el a) = dg /\ udraw (el a) = du) ->
  fits (length (before_error l) * dg) (length (before_error l) * du) (plan_source el l).
Proof.
  intros Hd. induction l as [|[a|e] l IH]; simpl; try constructor.
  destruct (Hd a) as [<- <-]. constructor. intros [[]|e]; [exact IH|constructor].
Qed.

Lemma fits_op c (o : op) : fits (draws o) (draws_ulid o) (plan_op c o).
Proof.
  assert (one_call o -> fits (draws o) 0 (CCall (One c o) (fun r => CRet r))) as H1.
  { intros _. replace (draws o) with (gdraw (One c o) + 0) by (simpl; lia). apply (Fi_call 0 0 (One c o)). constructor. }
  destruct o as [v p|t e|v|t|v p|t e|s|s]; try (apply H1; exact Logic.I).
  - simpl. unfold plan_bulk.
    eapply fits_more; [apply (fits_bind (length (before_error (src_nodes s)) * 0) (length (before_error (src_nodes s)) * 0) _ _
      (length (before_error (src_edges s)) * 0) (length (before_error (src_edges s)) * 1))|lia|lia].
    + apply fits_source. auto.
    + intros [[]|e]; [apply fits_source; auto|constructor].
  - simpl. unfold plan_bulk.
    eapply fits_more; [apply (fits_bind (length (before_error (src_nodes s)) * 0) (length (before_error (src_nodes s)) * 0) _ _
      (length (before_error (src_edges s)) * 1) (length (before_error (src_edges s)) * 0))|lia|lia].
    + apply fits_source. auto.
    + intros [[]|e]; [apply fits_source; auto|constructor].
Qed.

Lemma fits_plan cs (l : list op) : forall j, fits (sum (map draws l)) (sum (map draws_ulid l)) (plan cs j l).
Proof.
  induction l as [|o l IH]; intros j; simpl; [constructor|]. apply fits_bind; [apply fits_op|].
  intros r. eapply fits_more; [eapply (fits_bind _ _ _ _ 0 0); [apply IH|constructor]|lia|lia].
Qed.

(** The calls it amounts to. *)
Definition from (o : op) (a : call) : Prop :=
  match a with
  | One _ x => In x (elements o) /\ one_call x /\ (forall t, writes x t -> ~ extends o t)
  | Ext t e => extends o t /\ In (OInsertEdge t e) (elements o)
  | Late _ _ _ => False
  end.

Lemma all_bulk (X : call -> Prop) (fn : I * NP -> call) (fe : T * EP -> call) (s : source k NP EP E) :
  (forall a, In a (before_error (src_nodes s)) -> X (fn a)) ->
  (first_error (src_nodes s) = None -> forall a, In a (before_error (src_edges s)) -> X (fe a)) ->
  all_calls X (plan_bulk fn fe s).
Proof.
  unfold plan_bulk. destruct (src_nodes s) as [|x l]; simpl; intros H1 H2.
  { apply all_source. auto. }
  assert (forall l' : list (result E (I * NP)), (forall a, In a (before_error l') -> X (fn a)) ->
    (first_error l' = None -> forall a, In a (before_error (src_edges s)) -> X (fe a)) ->
    all_calls X (ct_bind (plan_source fn l') (fun r => match r with Err e => CRet (Err e) | Ok _ => plan_source fe (src_edges s) end))) as H.
  { clear. induction l' as [|[a|e] l' IH]; intros H1 H2; simpl.
    - apply all_source. auto.
    - apply Al_call; [apply H1; simpl; auto|]. intros [[]|e]; [|apply Al_ret]. apply IH; auto. intros b Hb. apply H1. simpl. auto.
    - apply Al_ret. }
  apply (H (x :: l)); auto.
Qed.

Lemma all_op c (o : op) : all_calls (from o) (plan_op c o).
Proof.
  assert (one_call o -> all_calls (from o) (CCall (One c o) (fun r => CRet r))) as H1.
  { intros Ho. apply Al_call; [|intros; apply Al_ret]. simpl. split; [|split]; auto; destruct o; try contradiction; simpl; auto. }
  destruct o as [v p|t e|v|t|v p|t e|s|s]; try (apply H1; exact Logic.I).
  - apply all_bulk.
    + intros ip Hip. split; [|split]; try exact Logic.I; [|simpl; auto].
      simpl. apply in_app_iff. left. apply in_map_iff. eauto.
    + intros Hn te Hte. assert (In (OInsertEdge (fst te) (snd te)) (elements (OExtend s))) as H.
      { simpl. apply in_app_iff. right. rewrite Hn. apply in_map_iff. eauto. }
      split; auto. simpl. exists (snd te). exact H.
  - apply all_bulk.
    + intros ip Hip. split; [|split]; try exact Logic.I; [|simpl; auto].
      simpl. apply in_app_iff. left. apply in_map_iff. eauto.
    + intros Hn te Hte. split; [|split]; try exact Logic.I; [|simpl; auto].
      simpl. apply in_app_iff. right. rewrite Hn. apply in_map_iff. eauto.
Qed.

Lemma all_plan cs (l : list op) : forall j, all_calls (fun a => exists o, In o l /\ from o a) (plan cs j l).
Proof.
  induction l as [|o l IH]; intros j; simpl; [apply Al_ret|]. apply all_bind.
  - eapply all_mono; [|apply all_op]. simpl. eauto.
  - intros r. apply all_bind; [|intros; apply Al_ret]. eapply all_mono; [|apply IH]. simpl. intros a (o' & H1 & H2). eauto.
Qed.
End Tree.
Arguments CRet {k NP EP SE BE E A} a.
Arguments CCall {k NP EP SE BE E A} a c.
