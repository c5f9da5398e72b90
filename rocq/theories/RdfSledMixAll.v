(** All callers of an RdfTripleStore over sled: the graph goes where callers of the graph alone
    bring it. *)
From Coq Require Import Arith NArith List Bool Sorted Lia.
From Verif Require Import Bytes BytesFacts OMap OMapFacts Core IdType IdTypeFacts Store Mem Spec GenSpec
  CodecFacts ListFacts MemSim History Prog ProgFacts Sled SledHistory SledSched SledLeaf SledDb SledOps SledBulk
  SledRun SledRead SledTop SledMain SledCrash SledConc SledIndex SledIndexFacts Rdf RdfSpec RdfTop RdfSled RdfSledSpec
  RdfSledLeaf RdfSledSafe RdfSledConc RdfSledTop SledConcTop SledMixSpec SledMixMain RdfSledMixSpec RdfSledMixSim RdfSledMixOk RdfSledMixRun.
Import ListNotations.

(** ** Schedules *)
Section Sched.
Context {D SE A : Type}.
Notation P := (prog D SE A).
Lemma inter_app a : forall b (ps : list P) d, interleave (a ++ b) ps d = let (ps1, d1) := interleave a ps d in interleave b ps1 d1.
Proof.
  induction a as [|[i f] a IH]; intros b ps d; simpl; auto. destruct (nth_error ps i) as [p|]; auto.
  destruct (step1 f p d) as [p1 d1]. apply IH.
Qed.
Lemma inter_peq schedule : forall (ps qs : list P) d, Forall2 peq ps qs ->
  Forall2 peq (fst (interleave schedule ps d)) (fst (interleave schedule qs d)) /\
  snd (interleave schedule ps d) = snd (interleave schedule qs d).
Proof.
  induction schedule as [|[i f] schedule IH]; intros ps qs d H; cbn [interleave]; auto.
  destruct (nth_error ps i) as [p|] eqn:Hp.
  - destruct (Forall2_nth_l _ _ _ _ _ H Hp) as (q & Hq & Hpq). rewrite Hq. destruct (peq_step f p q d Hpq) as [H1 H2].
    destruct (step1 f p d) as [p1 d1], (step1 f q d) as [q1 d1']. cbn [fst snd] in *. subst d1'. apply IH. now apply Forall2_replace.
  - destruct (nth_error qs i) as [q|] eqn:Hq; [|auto]. destruct (Forall2_nth_r _ _ _ _ _ H Hq) as (p & Hp' & _). congruence.
Qed.
End Sched.

Section Finish.
Context {D SE A : Type}.
Notation P := (prog D (option SE) A).
Lemma inter_repeat f m : forall i (p : P) ps d, nth_error ps i = Some p ->
  interleave (repeat (i, f) m) ps d = (replace_nth i (fst (steps f m p d)) ps, snd (steps f m p d)).
Proof.
  induction m as [|m IH]; intros i p ps d Hp; cbn [repeat interleave steps fst snd].
  - now rewrite replace_same.
  - rewrite Hp. destruct (step1 f p d) as [p1 d1]. rewrite (IH i p1); [now rewrite replace_twice|]. eapply nth_replace_eq; eauto.
Qed.
Lemma replace_mid {X} (pre l : list X) x y : replace_nth (length pre) y (pre ++ x :: l) = pre ++ y :: l.
Proof. induction pre as [|z pre IH]; simpl; auto. now rewrite IH. Qed.
Lemma nth_mid {X} (pre l : list X) x : nth_error (pre ++ x :: l) (length pre) = Some x.
Proof. induction pre as [|z pre IH]; simpl; auto. Qed.
Lemma finish_all d (qs : list P) : forall bs, Forall2 (fun q b => exists m, steps (Some None) m q d = (Ret b, d)) qs bs ->
  forall pre, exists schedule, interleave schedule (pre ++ qs) d = (pre ++ map (fun b => Ret b) bs, d).
Proof.
  intros bs H. induction H as [|q b qs bs [m Hm] _ IH]; intros pre.
  - exists []. reflexivity.
  - destruct (IH (pre ++ [Ret b])) as [schedule Hs]. exists (repeat (length pre, Some None) m ++ schedule).
    rewrite inter_app, (inter_repeat _ _ _ q) by apply nth_mid. rewrite Hm. cbn [fst snd]. rewrite replace_mid.
    rewrite <- app_assoc in Hs. cbn [app] in Hs. rewrite Hs. rewrite <- app_assoc. reflexivity.
Qed.
End Finish.

Section All.
Context {S NP EP SE BE E : Type} (seqb : S -> S -> bool) (seqb_eq : forall a b, seqb a b = true <-> a = b).
Context (cs : codec BE S) (cu : codec BE (Id KUlid)) (cn : codec BE NP) (ce : codec BE EP).
Context (mn : NP -> NP -> NP) (me : EP -> EP -> EP).
Notation I := (Id KUlid).
Notation P A := (prog rdb SE A).
Notation rop := (rop S NP EP E).
Notation op := (op KUlid NP EP E).
Notation nu := (name_now (SE := SE) cs cu).
Notation idx_ok := (index_ok cs cu).
Notation ids := (S -> option I).
Notation SE' := (option SE).
Notation outcome := (outcome (SE := SE') (BE := BE) (E := E)).
Notation call := (call (S := S) (NP := NP) (EP := EP) (SE := SE) (BE := BE) (E := E)).
Notation state := (state (S := S) (NP := NP) (EP := EP) (SE := SE) (BE := BE) (E := E)).
Notation entry := (rop * (cutting * op))%type.
Notation stat := (stat (SE := SE) cn ce mn me).
Notation lrun := (lrun (SE := SE) cn ce mn me).
Implicit Types d : rdb.
Implicit Types M : S -> option I.
Implicit Types g : handle KUlid.
Context (T : ids -> Prop) {A : Type}.
Context (Qs : nat -> A -> list call -> ids -> handle KUlid -> nat -> Prop) (Rs : nat -> list (rop * bool) -> ids -> Prop).
Notation at_ i := (at_ cs cu cn ce mn me T (Qs i) (Rs i)).

Fixpoint stats_from (i : nat) (xs : list state) (F : nat -> list (cutting * op)) : list (prog db SE' (list outcome * handle KUlid)) :=
  match xs with [] => [] | x :: xs' => stat x (F i) :: stats_from (Datatypes.S i) xs' F end.
Notation stats := (stats_from 0).
Lemma stats_from_nth xs F : forall i j, nth_error (stats_from i xs F) j = option_map (fun x => stat x (F (i + j))) (nth_error xs j).
Proof.
  induction xs as [|x xs IH]; intros i [|j]; simpl; auto.
  - now rewrite Nat.add_0_r.
  - rewrite IH. now rewrite Nat.add_succ_r.
Qed.
Lemma stats_nth xs F j : nth_error (stats xs F) j = option_map (fun x => stat x (F j)) (nth_error xs j).
Proof. apply stats_from_nth. Qed.
Lemma stats_from_length xs F : forall i, length (stats_from i xs F) = length xs.
Proof. induction xs as [|x xs IH]; intros i; simpl; auto. Qed.

Definition all_at (ps : list (P A)) xs d : Prop :=
  length ps = length xs /\ forall i p x, nth_error ps i = Some p -> nth_error xs i = Some x -> at_ i p x /\ below (seen x) (nu d).

Lemma project schedule : forall ps d xs, all_at ps xs d -> idx_ok (r_names d) -> T (nu d) ->
  let pd := interleave schedule ps d in
  exists xs' (Fs : nat -> list entry) schedule', all_at (fst pd) xs' (snd pd) /\ length xs' = length xs /\
    idx_ok (r_names (snd pd)) /\ T (nu (snd pd)) /\ below (nu d) (nu (snd pd)) /\
    (forall i x x', nth_error xs i = Some x -> nth_error xs' i = Some x' -> trace x' = trace x ++ Fs i /\ budget x' = budget x) /\
    forall G, interleave schedule' (stats xs (fun i => map snd (Fs i) ++ G i)) (r_trees d) = (stats xs' G, r_trees (snd pd)).
Proof.
  induction schedule as [|[i f] schedule IH]; intros ps d xs Hat D1 D2; cbn [interleave].
  - exists xs, (fun _ => []), []. cbn [fst snd]. split; auto. split; auto. split; auto. split; auto. split; [apply below_refl|].
    split; [|reflexivity]. intros i x x' Hx Hx'. rewrite app_nil_r. split; congruence.
  - destruct (nth_error ps i) as [p|] eqn:Hp; [|apply IH; auto].
    destruct Hat as [Hlen Hat]. destruct (nth_error xs i) as [x|] eqn:Hx.
    2: { apply nth_error_None in Hx. assert (i < length ps) by (apply nth_error_Some; congruence). lia. }
    destruct (Hat i p x Hp Hx) as [Ha Hb].
    destruct (caller_step cs cu cn ce mn me T (Qs i) (Rs i) f p d x Ha D1 D2 Hb) as (x1 & fu & Ha1 & E1 & E2 & E3 & E4 & E5 & E6 & E7).
    destruct (step1 f p d) as [p1 d1]. cbn [fst snd] in *.
    destruct (IH (replace_nth i p1 ps) d1 (replace_nth i x1 xs)) as (xs' & Fs & schedule' & F1 & F2 & F3 & F4 & F5 & F6 & F7); auto.
    { split; [now rewrite !replace_length|]. intros j q y Hq Hy. destruct (Nat.eq_dec i j) as [<-|Hne].
      - rewrite (nth_replace_eq _ _ _ _ Hp) in Hq. rewrite (nth_replace_eq _ _ _ _ Hx) in Hy. injection Hq as <-. injection Hy as <-. auto.
      - rewrite nth_replace_neq in Hq by auto. rewrite nth_replace_neq in Hy by auto. destruct (Hat j q y Hq Hy). split; auto. eapply below_trans; eauto. }
    rewrite replace_length in F2.
    exists xs', (fun j => if Nat.eqb i j then fu ++ Fs j else Fs j).
    assert (forall G, stats xs (fun j => map snd (if Nat.eqb i j then fu ++ Fs j else Fs j) ++ G j) =
      replace_nth i (stat x (map snd fu ++ map snd (Fs i) ++ G i)) (stats (replace_nth i x1 xs) (fun j => map snd (Fs j) ++ G j))) as Hst.
    { intros G. apply nth_error_ext. intros j. rewrite stats_nth, replace_at, stats_nth, replace_at. destruct (Nat.eqb_spec i j) as [<-|Hne].
      - rewrite Hx. simpl. now rewrite map_app, app_assoc.
      - reflexivity. }
    assert (forall G, nth_error (stats (replace_nth i x1 xs) (fun j => map snd (Fs j) ++ G j)) i = Some (stat x1 (map snd (Fs i) ++ G i))) as Hn.
    { intros G. rewrite stats_nth. now rewrite (nth_replace_eq _ _ _ _ Hx). }
    assert (exists schedule2, forall G, interleave schedule2 (stats xs (fun j => map snd (if Nat.eqb i j then fu ++ Fs j else Fs j) ++ G j)) (r_trees d) =
      (stats xs' G, r_trees (snd (interleave schedule (replace_nth i p1 ps) d1)))) as [schedule2 Hs2].
    { destruct E7 as [[X1 X2]|[f' X2]].
      - exists schedule'. intros G. rewrite Hst, X2, replace_same, <- X1 by apply Hn. apply F7.
      - exists ((i, f') :: schedule'). intros G. rewrite Hst. cbn [interleave].
        rewrite (nth_replace_eq _ _ _ _ (Hn G)), X2, replace_twice, replace_same by apply Hn. apply F7. }
    exists schedule2. split; auto. split; auto. split; auto. split; auto. split; [eapply below_trans; eauto|]. split; auto.
    intros j y y' Hy Hy'. destruct (Nat.eqb_spec i j) as [<-|Hne].
    + rewrite Hx in Hy. injection Hy as <-. destruct (F6 i x1 y') as [Y1 Y2]; [eapply nth_replace_eq; eauto|auto|].
      rewrite Y1, Y2, E5, <- app_assoc. auto.
    + apply F6; auto. now rewrite nth_replace_neq.
Qed.

(** ** The end *)
Definition marks (tr : list entry) (os : list outcome) : list (rop * bool) := combine (map fst tr) (map succeeded os).
Lemma marks_calls s : marks (entries s) (outs s) = flags s.
Proof.
  induction s as [|x s IH]; [reflexivity|]. unfold marks, entries, outs, flags in *. simpl. rewrite IH. f_equal.
  unfold flag. f_equal. unfold out, fine. now destruct (c_res x).
Qed.
Lemma entries_outs (s : list call) : length (outs s) = length (entries s).
Proof. unfold outs, entries. now rewrite !map_length. Qed.
Lemma marks_snoc tr os e o : length os = length tr -> marks (tr ++ [e]) (os ++ [o]) = marks tr os ++ [(fst e, succeeded o)].
Proof.
  unfold marks. rewrite !map_app. simpl. revert os. induction tr as [|x tr IH]; intros [|y os] H; try discriminate; auto.
  simpl. rewrite IH; auto.
Qed.

Definition ends (Q : A -> list call -> ids -> handle KUlid -> nat -> Prop) (R : list (rop * bool) -> ids -> Prop) (p : P A) x (d : db) (fu : list entry) (z : list outcome * handle KUlid) : Prop :=
  (exists m, steps (Some None) m (stat x (map snd fu)) d = (Ret z, d)) /\ length (fst z) = length (trace x ++ fu) /\
  R (marks (trace x ++ fu) (fst z)) (seen x) /\ fits (seen x) (trace x ++ fu) /\ drawn (trace x ++ fu) <= budget x /\
  forall a, p = Ret a -> exists s g n, Q a s (seen x) g n /\ flags s = marks (trace x ++ fu) (fst z).

Lemma idle_ends i p s M g n (d : db) : okay cs cu cn ce mn me T (Qs i) (Rs i) p s M g n -> forall p0, peq p0 p -> fits M (entries s) ->
  exists fu z, ends (Qs i) (Rs i) p0 (Idle s M g n) d fu z.
Proof.
  intros Hok. assert (forall p0 s M g n, (forall a, p0 <> Ret a) -> fits M (entries s) -> Rs i (flags s) M ->
    exists fu z, ends (Qs i) (Rs i) p0 (Idle s M g n) d fu z) as Hno.
  { clear. intros p0 s M g n Hne Hf HR. exists [], (outs s, g). split; [exists 0; reflexivity|]. cbn [trace seen fst]. rewrite app_nil_r.
    split; [apply entries_outs|]. split; [now rewrite marks_calls|]. split; auto. split; [unfold budget; simpl; lia|].
    intros a ->. now destruct (Hne a). }
  induction Hok as [p a s M g n H1 H2 H3|p u k e s M g n H1 H2 He IHe H3 Hk IHk|p ro c o F s M g n H1 H2 H3 H4 H5 IH]; intros p0 Hpp Hfit.
  - pose proof (peq_trans _ _ Hpp _ H1) as Hq. apply peq_ret in Hq. subst p0. exists [], (outs s, g).
    split; [exists 0; reflexivity|]. cbn [trace seen fst]. rewrite app_nil_r.
    split; [apply entries_outs|]. split; [now rewrite marks_calls|]. split; auto. split; [unfold budget; simpl; lia|].
    intros a' [= <-]. exists s, g, n. split; auto. now rewrite marks_calls.
  - apply Hno; auto. intros a ->. pose proof (peq_trans _ _ Hpp _ H1) as Hq. inversion Hq.
  - pose proof (peq_trans _ _ Hpp _ H1) as Hq. destruct p0 as [a0| |] eqn:Hp0; [|apply Hno; auto; discriminate|apply Hno; auto; discriminate].
    pose proof (raw_sim (SE := SE) (E := E) cn ce mn me c o g (stands_one _ _ _ H3)) as Hsim.
    destruct (raw cn ce mn me c o g) as [a|k|u k e] eqn:Hraw; [|inversion Hq|inversion Hq].
    inversion Hsim as [x a' Ha X1 X2| |]. subst x a'. cbn [on_graph bind] in Hq.
    destruct (IH a (Ret a0) Hq) as (fu & z & Y1 & Y2 & Y3 & Y4 & Y5 & Y6).
    { rewrite entries_app. apply Forall_app. split; auto. constructor; auto. }
    cbn [trace seen] in *. rewrite entries_app, <- app_assoc in *. cbn [entries map app c_rop c_cut c_op] in *.
    exists ((ro, (c, o)) :: fu), z. split; [|split; [exact Y2|split; [exact Y3|split; [exact Y4|split; [|exact Y6]]]]].
    + destruct Y1 as [m Y1]. exists m. rewrite <- Y1. f_equal. cbn [RdfSledMixRun.stat map RdfSledMixRun.lrun fst snd]. rewrite <- X2. cbn [bind fst snd].
      now rewrite outs_app.
    + cbn [trace]. eapply Nat.le_trans; [exact Y5|]. unfold budget. simpl. rewrite entries_app, drawn_app. unfold drawn at 2. simpl. lia.
Qed.
Lemma one_ends i p x (d : db) : at_ i p x -> exists fu z, ends (Qs i) (Rs i) p x d fu z.
Proof.
  intros Hat. destruct Hat as [p s M g n Hok Hfit|p s M n ro c o q q' F H1 H2 H3 H4 H5 H6].
  - eapply idle_ends; eauto. apply peq_refl.
  - pose proof (psim_map _ _ (fun a z => z = (outs s ++ [out (fst a)], snd a)) (fun z => fst z = outs s ++ [lost]) q q'
      (fun rh => (outs s ++ [fst rh], snd rh)) H2) as Hm.
    destruct (psim_end _ _ _ _ d (Hm ltac:(intros a a' ->; reflexivity) ltac:(intros a Ha; cbn [fst]; now rewrite Ha))) as (m & z & Z1 & Z2).
    exists [], z.
    assert (exists rh : result (sled_error SE BE) unit * handle KUlid, length (fst z) = length (entries s ++ [(ro, (c, o))]) /\ marks (entries s ++ [(ro, (c, o))]) (fst z) = flags (s ++ [Call ro c o (fst rh)]) /\
      Rs i (flags (s ++ [Call ro c o (fst rh)])) M) as (rh & L1 & L2 & L3).
    { destruct Z2 as [Z2|[b Z2]].
      - exists (Err KeySizeError, snd z). rewrite Z2, !app_length, entries_outs, marks_snoc, marks_calls, flags_app by apply entries_outs.
        split; auto. split; auto. rewrite <- flags_app. apply (okay_R _ _ _ _ _ _ _ _ _ _ _ _ _ _ (H5 (Err KeySizeError, snd z))).
      - exists b. rewrite Z2. cbn [fst]. rewrite !app_length, entries_outs, marks_snoc, marks_calls, flags_app by apply entries_outs.
        split; auto. split; [unfold flag; cbn; repeat f_equal; unfold out, fine; now destruct (fst b)|].
        rewrite <- flags_app. apply (okay_R _ _ _ _ _ _ _ _ _ _ _ _ _ _ (H5 b)). }
    split; [exists m; exact Z1|]. cbn [trace seen]. rewrite app_nil_r. split; auto. split; [now rewrite L2|].
    split; [apply Forall_app; split; auto; constructor; auto|]. split; [unfold budget; simpl; lia|].
    intros a ->. exfalso. destruct q as [b|k|u k e]; [now apply (H6 b)| |]; inversion H1.
Qed.

(** ** The callers of the graph *)
Lemma lrun_history (cut : nat -> cutting) (fut : list (cutting * op)) : forall done g j,
  (forall m co, nth_error fut m = Some co -> cut (j + m) = fst co) ->
  peq (lrun fut done g) (bind (l_history (SE := SE') cn ce mn me cut j (map snd fut) g) (fun rsh => Ret (done ++ fst rsh, snd rsh))).
Proof.
  induction fut as [|co fut IH]; intros done g j Hc; cbn [RdfSledMixRun.lrun map l_history].
  - cbn [bind fst snd]. rewrite app_nil_r. apply peq_refl.
  - rewrite <- (Hc 0 co eq_refl), Nat.add_0_r. eapply peq_trans; [|apply peq_sym, bind_assoc]. apply peq_bind; [apply peq_refl|].
    intros rh. eapply peq_trans; [|apply peq_sym, bind_assoc]. cbn [bind].
    eapply peq_trans; [apply (IH _ _ (Datatypes.S j))|].
    + intros m co' Hm. rewrite Nat.add_succ_l, <- Nat.add_succ_r. apply (Hc (Datatypes.S m)). exact Hm.
    + apply peq_bind; [apply peq_refl|]. intros rsh. cbn [fst snd]. rewrite <- app_assoc. apply peq_refl.
Qed.
Definition no_cut : cutting := ([], []).
Definition cut_of (l : list entry) (j : nat) : cutting := match nth_error l j with Some e => fst (snd e) | None => no_cut end.
Lemma lrun_whole (l : list entry) g : peq (lrun (map snd l) [] g) (l_history (SE := SE') cn ce mn me (cut_of l) 0 (map (fun e => snd (snd e)) l) g).
Proof.
  eapply peq_trans; [apply (lrun_history (cut_of l) (map snd l) [] g 0)|].
  - intros m co Hm. rewrite nth_error_map in Hm. unfold cut_of. simpl. destruct (nth_error l m); simpl in Hm; congruence.
  - rewrite map_map. eapply peq_trans; [|apply bind_ret]. apply peq_bind; [apply peq_refl|]. intros [rs h]. apply peq_refl.
Qed.
End All.

(** ** From the start to the end *)
Section Whole.
Context {S NP EP SE BE E : Type} (seqb : S -> S -> bool) (seqb_eq : forall a b, seqb a b = true <-> a = b).
Context (cs : codec BE S) (cu : codec BE (Id KUlid)) (cn : codec BE NP) (ce : codec BE EP).
Context (Hcs : codec_ok cs) (Hcu : codec_ok cu).
Context (mn : NP -> NP -> NP) (me : EP -> EP -> EP).
Notation I := (Id KUlid).
Notation rop := (rop S NP EP E).
Notation op := (op KUlid NP EP E).
Notation nu := (name_now (SE := SE) cs cu).
Notation idx_ok := (index_ok cs cu).
Notation ids := (S -> option I).
Notation SE' := (option SE).
Notation outcome := (outcome (SE := SE') (BE := BE) (E := E)).
Notation entry := (rop * (cutting * op))%type.
Context (N : list S) (T : ids -> Prop) (kn : ids -> list S).
Context (HT : forall M M', T M -> below M M' -> (forall n, M' n <> None -> M n <> None \/ In n N) -> T M').
Context (Hkn : forall M n, T M -> In n (kn M) <-> M n <> None).
Notation so_far := (so_far (SE := SE) (BE := BE) seqb T kn).
Notation logged := (logged (SE := SE) (BE := BE) seqb T kn).

Definition on_ops (es : list entry) : list op := map (fun e => snd (snd e)) es.
Lemma rl_callers_nth cuts (ts : list (rhandle * list rop)) : forall i0 i,
  nth_error (rl_callers (SE := SE) cs cu cn ce mn me cuts i0 ts) i =
  option_map (fun hl => rl_history cs cu cn ce mn me (cuts (i0 + i)) 0 (snd hl) (fst hl)) (nth_error ts i).
Proof.
  induction ts as [|hl ts IH]; intros i0 [|i]; simpl; auto.
  - now rewrite Nat.add_0_r.
  - now rewrite IH, Nat.add_succ_r.
Qed.
Lemma rl_callers_length cuts (ts : list (rhandle * list rop)) : forall i0, length (rl_callers (SE := SE) cs cu cn ce mn me cuts i0 ts) = length ts.
Proof. induction ts as [|hl ts IH]; intros i0; simpl; auto. Qed.

Lemma graph_run cuts callers schedule (d : rdb) : idx_ok (r_names d) -> T (nu d) -> incl (flat_map given (concat (map snd callers))) N ->
  let pd := interleave schedule (rl_callers (SE := SE) cs cu cn ce mn me cuts 0 callers) d in
  idx_ok (r_names (snd pd)) /\ T (nu (snd pd)) /\ below (nu d) (nu (snd pd)) /\
  exists (ess : list (list entry)) (zs : list (list outcome * handle KUlid)) cuts' schedule',
    length ess = length callers /\ length zs = length callers /\
    interleave schedule' (l_callers (SE := SE') cn ce mn me cuts' 0 (combine (map (fun hl => rh_graph (fst hl)) callers) (map on_ops ess))) (r_trees d) =
      (map (fun z => Ret z) zs, r_trees (snd pd)) /\
    forall i h l es z p, nth_error callers i = Some (h, l) -> nth_error ess i = Some es -> nth_error zs i = Some z ->
      nth_error (fst pd) i = Some p ->
      length (fst z) = length es /\ fits (nu (snd pd)) es /\ drawn es <= sum (map r_draws l) /\
      so_far (nu (snd pd)) l (marks es (fst z)) /\
      forall rs h', p = Ret (rs, h') -> logged (nu (snd pd)) l rs (marks es (fst z)).
Proof.
  intros D1 D2 HN pd.
  set (l_of := fun i => match nth_error callers i with Some hl => snd hl | None => [] end).
  set (Qs := fun i => through (SE := SE) (BE := BE) seqb T kn (l_of i) 0 []).
  set (Rs := fun i => going (SE := SE) (BE := BE) seqb T kn (l_of i) []).
  set (xs := map (fun hl => Idle (SE := SE) (BE := BE) ([] : list (call (S := S) (NP := NP) (EP := EP) (SE := SE) (BE := BE) (E := E))) (nu d) (rh_graph (fst hl)) (sum (map r_draws (snd hl)) + 0)) callers).
  assert (all_at cs cu cn ce mn me T Qs Rs (rl_callers (SE := SE) cs cu cn ce mn me cuts 0 callers) xs d) as Hat.
  { unfold xs. split; [now rewrite rl_callers_length, map_length|]. intros i p x Hp Hx. rewrite rl_callers_nth in Hp. rewrite nth_error_map in Hx.
    destruct (nth_error callers i) as [hl|] eqn:Hc; [|discriminate]. injection Hp as <-. injection Hx as <-. split; [|apply below_refl].
    constructor; [|constructor]. unfold Qs, Rs, l_of. rewrite Hc.
    apply (okay_history seqb seqb_eq cs cu cn ce Hcs Hcu mn me N T kn HT Hkn (cuts (0 + i)) 0 (snd hl) 0 (fst hl) [] (nu d) D2).
    intros y Hy. apply HN. apply in_flat_map in Hy. destruct Hy as (o & Ho & Hy). apply in_flat_map. exists o. split; auto.
    apply in_concat. exists (snd hl). split; auto. apply in_map. eapply nth_error_In; eauto. }
  destruct (project cs cu cn ce mn me T Qs Rs schedule _ d xs Hat D1 D2) as (xs' & Fs & schedule' & [L1 A1] & L2 & B1 & B2 & B3 & B4 & B5).
  fold pd in L1, A1, B1, B2, B3, B5. split; auto. split; auto. split; auto.
  assert (length (fst pd) = length callers) as Lp.
  { unfold pd. rewrite interleave_length. apply rl_callers_length. }
  assert (length xs' = length callers) as Lx by (rewrite L2; unfold xs; apply map_length).
  destruct (SledMixMain.pick (fun i x fz => forall p, nth_error (fst pd) i = Some p ->
    ends cn ce mn me (Qs i) (Rs i) p x (r_trees (snd pd)) (fst fz) (snd fz)) xs') as (fzs & L3 & A3).
  { intros i x Hx. destruct (nth_error (fst pd) i) as [p|] eqn:Hp.
    - destruct (A1 i p x Hp Hx) as [Ha _]. destruct (one_ends cs cu cn ce mn me T Qs Rs i p x (r_trees (snd pd)) Ha) as (fu & z & Hz).
      exists (fu, z). intros p' [= <-]. exact Hz.
    - apply nth_error_None in Hp. assert (i < length xs') by (apply nth_error_Some; congruence). lia. }
  set (Gs := fun i => match nth_error fzs i with Some fz => fst fz | None => [] end).
  set (ess := map (fun i => Fs i ++ Gs i) (seq 0 (length callers))).
  set (zs := map snd fzs).
  assert (forall i, i < length callers -> nth_error ess i = Some (Fs i ++ Gs i)) as Ne.
  { intros i Hi. unfold ess. rewrite nth_error_map. rewrite (nth_error_nth' _ 0) by now rewrite seq_length. simpl. now rewrite seq_nth. }
  destruct (finish_all (r_trees (snd pd)) (stats_from cn ce mn me 0 xs' (fun i => map snd (Gs i))) zs) with (pre := @nil (prog db SE' (list outcome * handle KUlid))) as [sch2 Hs2].
  { apply SledMixMain.Forall2_of_nth; [unfold zs; now rewrite stats_from_length, map_length|].
    intros i q z Hq Hz. rewrite stats_nth in Hq. unfold zs in Hz. rewrite nth_error_map in Hz.
    destruct (nth_error xs' i) as [x|] eqn:Hx; [|discriminate]. destruct (nth_error fzs i) as [fz|] eqn:Hfz; [|discriminate].
    injection Hq as <-. injection Hz as <-. assert (i < length (fst pd)) as Hi by (rewrite L1; apply nth_error_Some; congruence).
    destruct (nth_error (fst pd) i) as [p|] eqn:Hp; [|apply nth_error_None in Hp; lia].
    destruct (A3 i x fz Hx Hfz p Hp) as [X _]. unfold Gs. rewrite Hfz. exact X. }
  cbn [app] in Hs2.
  exists ess, zs, (fun i => cut_of match nth_error ess i with Some es => es | None => [] end), (schedule' ++ sch2).
  split; [unfold ess; now rewrite map_length, seq_length|]. split; [unfold zs; rewrite map_length; lia|].
  split.
  - match goal with |- interleave _ ?ps _ = _ =>
      assert (Forall2 peq (stats_from cn ce mn me 0 xs (fun i => map snd (Fs i) ++ map snd (Gs i))) ps) as Hpeq end.
    { apply SledMixMain.Forall2_of_nth.
      - rewrite stats_from_length, SledConcTop.callers_length, combine_length, !map_length. unfold xs, ess. rewrite !map_length, seq_length. lia.
      - intros i a b Ha Hb. rewrite stats_nth in Ha. rewrite SledConcTop.callers_nth, nth_combine in Hb. unfold xs in Ha. rewrite !nth_error_map in *.
        destruct (nth_error callers i) as [hl|] eqn:Hc; [|discriminate]. assert (i < length callers) as Hi by (apply nth_error_Some; congruence).
        rewrite (Ne i Hi) in Hb. injection Ha as <-. injection Hb as <-. cbn [fst snd Nat.add]. rewrite (Ne i Hi).
        cbn [stat outs map]. rewrite <- map_app. apply lrun_whole. }
    destruct (inter_peq (schedule' ++ sch2) _ _ (r_trees d) Hpeq) as [Q1 Q2].
    rewrite inter_app, B5, Hs2 in Q1, Q2. cbn [fst snd] in *.
    match goal with |- ?x = _ => destruct x as [ps1 d1] end. cbn [fst snd] in *. subst d1. f_equal.
    clear -Q1. revert ps1 Q1. induction zs as [|z zs IH]; intros ps1 H; inversion H as [|a b c e H1 H2]; subst; auto.
    simpl. f_equal; auto. inversion H1; auto.
  - intros i h l es z p Hc He Hz Hp. assert (i < length callers) as Hi by (apply nth_error_Some; congruence).
    rewrite (Ne i Hi) in He. injection He as <-. unfold zs in Hz. rewrite nth_error_map in Hz.
    destruct (nth_error fzs i) as [fz|] eqn:Hfz; [|discriminate]. injection Hz as <-.
    destruct (nth_error xs' i) as [x|] eqn:Hx; [|apply nth_error_None in Hx; lia].
    destruct (A3 i x fz Hx Hfz p Hp) as (_ & Y2 & Y3 & Y4 & Y5 & Y6). destruct (A1 i p x Hp Hx) as [_ Hb].
    destruct (B4 i (Idle [] (nu d) (rh_graph h) (sum (map r_draws l) + 0)) x) as [X1 X2]; auto.
    { unfold xs. rewrite nth_error_map, Hc. reflexivity. }
    cbn [trace entries map app] in X1. unfold Gs. rewrite Hfz. rewrite X1 in *. rewrite X2 in Y5.
    assert (l_of i = l) as Hl by (unfold l_of; now rewrite Hc).
    split; auto. split; [eapply fits_below; eauto|]. split; [unfold budget in Y5; simpl in Y5; unfold drawn in Y5 |- *; simpl in Y5; lia|].
    split.
    + unfold Rs, going in Y3. destruct Y3 as (fl & F1 & F2). rewrite Hl in F2. cbn [app] in F1. rewrite F1. eapply so_far_below; eauto.
    + intros rs h' ->. destruct (Y6 _ eq_refl) as (s & g & n & (_ & _ & fl & F1 & F2) & F3). rewrite Hl in F2. cbn [app fst flags map] in F1, F2.
      rewrite F1 in F3. rewrite <- F3. eapply logged_below; eauto.
Qed.
End Whole.
