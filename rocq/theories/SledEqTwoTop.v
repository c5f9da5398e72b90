(** What try_eq of two sled stores tells when both are in use. *)
From Coq Require Import Arith NArith List Bool Sorted.
From Verif Require Import Bytes BytesFacts OMap OMapFacts Core IdType IdTypeFacts Store Mem Spec
  CodecFacts ListFacts MemFacts MemSim MemSetFacts EqFacts History MemTop Prog ProgFacts Sled SledHistory SledDb SledOps SledBulk SledRead SledTables
  SledAny SledRun SledTop SledLeaf SledLeafFacts SledLazy SledRely SledOwn SledOwnOps SledBesideTop SledReaders SledReadTop SledCopy
  SledCopyFacts SledSetLive SledSetLiveFacts SledSetLiveTop SledEqLive SledEqLiveFacts SledEqLiveTop SledTwo SledTwoFacts SledTwoTop SledEqTwo SledEqTwoFacts SledBeside.
Import ListNotations.

(** ** One loop on one database *)
Section Part.
Context {A P EL R H : Type} (lt : A -> A -> Prop) (had : A -> P -> Prop) (lacked : A -> Prop) (fault : R -> Prop)
  (f : A * P -> H -> result EL unit * H) (st : H).
Definition part (x : result (lr_error EL R) unit * H) : Prop :=
  (exists e, fst x = Err (RightE e) /\ fault e) \/
  (exists xs, x = feed f (map Ok xs) st /\ (forall a p, In (a, p) xs -> had a p) /\ StronglySorted lt (map fst xs) /\
    (forall a, (fst x = Ok tt \/ exists b, In b (map fst xs) /\ (a = b \/ lt a b)) -> ~ In a (map fst xs) -> lacked a)).
End Part.
Lemma part_mono {A P EL R H} lt (had had' : A -> P -> Prop) (lacked lacked' : A -> Prop) (fault fault' : R -> Prop) (f : A * P -> H -> result EL unit * H) st x :
  (forall a p, had a p -> had' a p) -> (forall a, lacked a -> lacked' a) -> (forall e, fault e -> fault' e) ->
  part lt had lacked fault f st x -> part lt had' lacked' fault' f st x.
Proof. intros H1 H2 H3 [(e & He & Hf)|(xs & E & A1 & A2 & A3)]; [left; eauto|right; exists xs]. split; [exact E|]. split; [auto|]. split; auto. Qed.

(** ** Two loops *)
Section Judge.
Context {A P : Type} (lt : A -> A -> Prop) (irr : forall a, ~ lt a a) (tr : forall a b c, lt a b -> lt b c -> lt a c)
  (dec : forall a b, lt a b \/ a = b \/ lt b a).
Context (eqb : A * P -> A * P -> bool) (eqp : P -> P -> bool)
  (spec : forall x y, eqb x y = true <-> fst x = fst y /\ eqp (snd x) (snd y) = true).
Context {EA EB : Type} (had had' : A -> P -> Prop) (lacked lacked' : A -> Prop) (fault : EA -> Prop) (fault' : EB -> Prop).
Notation answer := (result (lr_error EA EB) bool).

Definition failed_left (a : answer) : Prop := exists x, (a = Err (LeftE x) \/ a = Ok false) /\ fault x.
Definition failed_right (a : answer) : Prop := exists x, (a = Err (RightE x) \/ a = Ok false) /\ fault' x.
Definition judged (a : answer) : Prop :=
  failed_right a \/ (a = Ok true /\ forall i, agree_at eqp had had' lacked lacked' i) \/
  (a = Ok false /\ exists i, differ_at eqp had had' lacked lacked' i).

Lemma in_or_not a (l : list A) : In a l \/ ~ In a l.
Proof.
  induction l as [|b l IH]; simpl; [tauto|]. destruct IH as [IH|IH]; [tauto|].
  destruct (dec b a) as [L|[->|L]]; [|tauto|]; right; (intros [->|Hi]; [exact (irr _ L)|exact (IH Hi)]).
Qed.

Lemma judge {EL H} (f : A * P -> H -> result EL unit * H) st r st' (a : answer) (Q : list (A * P) -> result (lr_error unit EB) unit * list (A * P) -> Prop) :
  part lt had lacked fault f st (r, st') ->
  (forall e, r = Err (RightE e) -> a = Ok false \/ a = Err (LeftE e)) ->
  (forall ns, feed f (map Ok ns) st = (r, st') -> exists out, Q ns out /\
     a = match same_items out with Ok b => Ok b | Err e => Err (RightE e) end /\ (r = Ok tt \/ snd out <> [])) ->
  failed_left a \/ exists ns out, Q ns out /\ (part lt had' lacked' fault' (same_item eqb) ns out -> judged a).
Proof.
  intros [(e & He & Hf)|(ns & E & A1 & A2 & A3)] Hl Hr.
  { left. exists e. cbn [fst] in He. destruct (Hl e He); auto. }
  right. destruct (Hr ns (eq_sym E)) as (out & HQ & -> & Hend). exists ns, out. split; auto.
  intros [(e & He & Hf)|(xs & Ex & B1 & B2 & B3)].
  { left. exists e. split; auto. destruct out as [ro [|l ls]]; cbn [fst] in He; subst ro; simpl; auto. }
  right. destruct (compared (R := EB) lt irr tr dec eqb eqp spec xs ns A2 B2) as ((b & Hb) & H1 & H2). cbv zeta in *. rewrite <- Ex in *.
  rewrite Hb. destruct b; [left|right]; split; auto.
  - destruct (H1 Hb) as (Ho & M1 & M2).
    assert (snd out = []) as Hnil by (destruct out as [[u|[u|u]] [|]]; simpl in *; congruence).
    assert (r = Ok tt) as Hrr by (destruct Hend as [Hend|Hend]; [auto|contradiction]).
    intros i. destruct (in_or_not i (map fst ns)) as [Hi|Hi].
    + left. apply in_map_iff in Hi. destruct Hi as ([i' p] & <- & Hi). destruct (M1 i' p Hi) as (q & Hq & Eq). exists p, q. auto.
    + right. split; [apply A3; auto|apply B3; auto].
  - destruct (H2 Hb) as [(i & p & Hin & [[Na Ha]|(q & Hq & Eq)])|(i & q & Na & Hin & Hrest)]; exists i.
    + left. exists p. auto.
    + right. right. exists p, q. auto.
    + right. left. exists q. split; auto. apply A3; auto. cbn [fst].
      destruct Hend as [Hend|Hend]; [left; exact Hend|]. destruct Hrest as [Hrest|(c & Hc & Hlt)]; [contradiction|]. right. exists c. auto.
Qed.
End Judge.

(** ** The reader of one database *)
Section Reader.
Context {k : idkind} {NP EP SE BE : Type} (cn : codec BE NP) (ce : codec BE EP).
Notation I := (Id k).
Notation T := (triple (Id k)).
Notation err := (sled_error SE BE).
Context {EN EE HN HE : Type} (fn : I * NP -> HN -> result EN unit * HN) (fe : T * EP -> HE -> result EE unit * HE).
Definition reader (cuts ecuts : list bytes) (st : HN) (more : option HE)
    : prog db SE ((result (lr_error EN err) unit * HN) * option (result (lr_error EE err) unit * HE)) :=
  bind (loop_from t_node (fun kv => next (node_read cn kv)) (fun a h => Ret (fn a h)) None cuts st) (fun x =>
  match more with
  | None => Ret (x, None)
  | Some st' => bind (loop_from t_spo (fun kv => next (edge_read ce kv)) (fun a h => Ret (fe a h)) None ecuts st') (fun y => Ret (x, Some y))
  end).

Section World.
Context (keep : T -> Prop) (F : SE -> Prop).
Notation st := (st (k := k) cn ce keep).
Notation s_now := (s_now (k := k) cn ce keep).
Notation ext := (ext (k := k) cn ce keep).
Notation rg := (rg s_now ext F).
Notation ext_refl := (ext_refl (k := k) cn ce keep).
Notation ext_trans := (ext_trans (k := k) cn ce keep).
Notation node_out := (node_out cn ce keep F).
Notation edge_out := (edge_out cn ce keep F).
Notation nodes_part w := (part id_lt (was_node (SE := SE) cn ce keep w) (no_node (SE := SE) cn ce keep w) (fault F) fn).
Notation edges_part w := (part (edge_lt SPO) (was_edge (SE := SE) cn ce keep SPO w) (no_edge (SE := SE) cn ce keep w)
  (fun x => fault F x \/ (x = MissingPropertyData /\ exists t, ~ keep t)) fe).
Definition read_told (s : HN) (more : option HE) (r : (result (lr_error EN err) unit * HN) * option (result (lr_error EE err) unit * HE)) (w : st) : Prop :=
  nodes_part w s (fst r) /\ match more, snd r with Some s', Some y => edges_part w s' y | None, None => True | _, _ => False end.
Lemma read_told_later s more a w w' : ext w w' -> read_told s more a w -> read_told s more a w'.
Proof.
  intros Hx [H1 H2]. split.
  - eapply part_mono; [| | |exact H1]; intros; eauto using was_node_later, no_node_later.
  - destruct more, (snd a); auto. eapply part_mono; [| | |exact H2]; intros; eauto using was_edge_later, no_edge_later.
Qed.
Lemma rg_reader cuts ecuts s more w : rg (read_told s more) (reader cuts ecuts s more) w.
Proof.
  unfold reader. apply rg_bind.
  eapply rg_mono; [exact ext_refl|exact ext_trans| |apply (rg_loop_from s_now ext ext_refl ext_trans F fn node_out)].
  - cbv beta. intros x w1 H1 Hx. apply nodes_joined in Hx.
    assert (nodes_part w1 s x) as Hn.
    { destruct Hx as [Hx|(ns & En & A1 & A2 & A3 & A4)]; [left; exact Hx|right; exists ns; auto]. }
    destruct more as [s'|]; [|cbn [SledRely.rg]; split; [exact Hn|exact Logic.I]]. apply rg_bind.
    eapply rg_mono; [exact ext_refl|exact ext_trans| |apply (rg_loop_from s_now ext ext_refl ext_trans F fe (edge_out SPO))].
    + cbv beta. intros y w2 H2 Hy. apply edges_joined in Hy. cbn [SledRely.rg]. split; cbn [fst snd].
      * eapply part_mono; [| | |exact Hn]; intros; eauto using was_node_later, no_node_later.
      * destruct Hy as [Hy|(es & Ee & B1 & B2 & B3 & B4)]; [left; exact Hy|right; exists es; auto].
    + intros; eapply edge_out_later; eauto.
    + intros w'. exact (sn_order _ _ _ _ _ (s_sane _ _ _ w') (tab SPO)).
    + intros [key b] w2 w3 _ Hin Hx'. exact (rg_edge_item cn ce keep F SPO key b w2 w3 Hin Hx').
  - intros; eapply node_out_later; eauto.
  - intros w'. exact (sn_order _ _ _ _ _ (s_sane _ _ _ w') TNode).
  - intros [key b] w1 w2 _ Hin Hx. exact (rg_node_item cn ce keep F key b w1 w2 Hin Hx).
Qed.
End World.

Context {E : Type} (mn : NP -> NP -> NP) (me : EP -> EP -> EP).
Definition unlucky (met : SE -> Prop) (cs : list (handle k * list (op k NP EP E))) (x : err) : Prop :=
  (exists y, met y /\ x = SledError y) \/ (x = MissingPropertyData /\ exists t, rewritten cs t).
Lemma reader_beside (ls : list (life (k := k) (NP := NP) (EP := EP) (SE := SE) (E := E)))
    (cs : list (handle k * list (op k NP EP E))) (wcuts : nat -> nat -> cutting) cuts ecuts schedule s more r (seen : db -> Prop) (met' : SE -> Prop) :
  codec_ok cn -> codec_ok ce -> NoDup (life_keys ls ++ session_keys cs) ->
  let d := lives cn ce mn me ls db_new in
  let ps := beside (reader cuts ecuts s more) (l_callers cn ce mn me wcuts 0 cs) in
  has_read r (fst (interleave schedule ps d)) -> (forall d1, during schedule ps d d1 -> seen d1) -> (forall y, met schedule y -> met' y) ->
  part id_lt (had_node (SE := SE) cn seen) (lacked_node (SE := SE) cn seen) (unlucky met' cs) fn s (fst r) /\
  match more, snd r with
  | Some s', Some y => part (edge_lt SPO) (had_edge (SE := SE) ce seen) (lacked_edge (SE := SE) ce seen) (unlucky met' cs) fe s' y
  | None, None => True
  | _, _ => False
  end.
Proof.
  intros Hn He Hd d ps Hx Hs Hm. set (keep := fun t : T => ~ rewritten cs t).
  destruct (beside_reads (k := k) cn ce keep Hn He mn me (reader cuts ecuts s more)
    (fun F => read_told keep F s more) ls cs wcuts schedule Hd (adds_spared _)
    (fun F a w1 w2 => read_told_later keep F s more a w1 w2) (fun F w => rg_reader keep F cuts ecuts s more w) r Hx) as (w & [H1 H2] & Hpast).
  fold d ps in Hpast. assert (forall x, fault (met schedule) x -> unlucky met' cs x) as Hf by (intros x (y & Hy & ->); left; exists y; auto).
  split.
  - eapply part_mono; [| | |exact H1]; [| |exact Hf]; cbv beta.
    + intros i p (d1 & D1 & L1). exists d1. auto.
    + intros i (d1 & D1 & L1). exists d1. auto.
  - destruct more as [s'|], (snd r) as [y|]; auto. eapply part_mono; [| | |exact H2]; cbv beta.
    + intros i p (d1 & D1 & L1). exists d1. auto.
    + intros i (d1 & D1 & L1). exists d1. auto.
    + intros x [Hx'|[-> [t Ht]]]; auto. right. split; auto. exists t. now apply rewritten_not.
Qed.
End Reader.

(** ** The second database wrapped *)
Section Wrap.
Context {DA DB SE X YA YB Y : Type} (g : YB -> Y).
Notation wrap := (fun q : prog DB SE YB => bind q (fun b => Ret (g b))).
Lemma interleave2_wrap' schedule : forall (p : prog (DA * DB) SE X) (psA : list (prog DA SE YA)) psB d,
  interleave2 schedule p psA (map wrap psB) d =
  let '(p', psA', psB', d') := interleave2 schedule p psA psB d in (p', psA', map wrap psB', d').
Proof.
  induction schedule as [|[[|i|i] f] schedule IH]; intros p psA psB d; cbn [interleave2].
  - reflexivity.
  - destruct (step1 f p d). apply IH.
  - destruct (nth_error psA i) as [q|]; [|apply IH]. destruct (step1 f q (fst d)). apply IH.
  - rewrite nth_error_map. destruct (nth_error psB i) as [q|]; cbn [option_map]; [|apply IH].
    rewrite step1_wrap. destruct (step1 f q (snd d)) as [q' a]. cbn [fst snd]. rewrite (replace_map wrap). apply IH.
Qed.
Context {Y' : Type} (g' : YA -> Y').
Notation wrap' := (fun q : prog DA SE YA => bind q (fun b => Ret (g' b))).
Lemma interleave2_wraps schedule (p : prog (DA * DB) SE X) psA psB d :
  interleave2 schedule p (map wrap' psA) (map wrap psB) d =
  let '(p', psA', psB', d') := interleave2 schedule p psA psB d in (p', map wrap' psA', map wrap psB', d').
Proof. rewrite interleave2_wrap, interleave2_wrap'. destruct (interleave2 schedule p psA psB d) as [[[p' a] b] d']. reflexivity. Qed.
Lemma during2_wraps schedule (p : prog (DA * DB) SE X) psA psB d d1 :
  during2 schedule p (map wrap' psA) (map wrap psB) d d1 -> during2 schedule p psA psB d d1.
Proof.
  intros (s1 & s2 & E & ->). exists s1, s2. split; auto. rewrite interleave2_wraps. now destruct (interleave2 s1 p psA psB d) as [[[p' a] b] d'].
Qed.
Lemma during2_second_wraps schedule (p : prog (DA * DB) SE X) psA psB d d1 :
  during2_second schedule p (map wrap' psA) (map wrap psB) d d1 -> during2_second schedule p psA psB d d1.
Proof.
  intros (s1 & s2 & E & ->). exists s1, s2. split; auto. rewrite interleave2_wraps. now destruct (interleave2 s1 p psA psB d) as [[[p' a] b] d'].
Qed.
End Wrap.

(** ** Two sled databases *)
Lemma eq_two : forall k NP EP SE BE BE' E E' (cn : codec BE NP) (ce : codec BE EP) (cn' : codec BE' NP) (ce' : codec BE' EP) mn me mn' me'
    (neqb : NP -> NP -> bool) (eeqb : EP -> EP -> bool)
    (ls : list (life (k := k) (NP := NP) (EP := EP) (SE := SE) (E := E))) (cs : list (handle k * list (op k NP EP E))) (wcuts : nat -> nat -> cutting)
    (ls' : list (life (k := k) (NP := NP) (EP := EP) (SE := SE) (E := E'))) (cs' : list (handle k * list (op k NP EP E'))) (wcuts' : nat -> nat -> cutting)
    (cuts ecuts cuts' ecuts' : list bytes) (schedule : list (who * option SE)) a psA' psB' d',
  codec_ok cn -> codec_ok ce -> codec_ok cn' -> codec_ok ce' ->
  NoDup (life_keys ls ++ session_keys cs) -> NoDup (life_keys ls' ++ session_keys cs') ->
  let d := (lives cn ce mn me ls db_new, lives cn' ce' mn' me' ls' db_new) in
  let p := eq_both (k := k) cn ce cn' ce' neqb eeqb cuts ecuts cuts' ecuts' in
  let ws := l_callers cn ce mn me wcuts 0 cs in
  let ws' := l_callers cn' ce' mn' me' wcuts' 0 cs' in
  interleave2 schedule p ws ws' d = (Ret a, psA', psB', d') ->
  let seen := during2 schedule p ws ws' d in
  let seen' := during2_second schedule p ws ws' d in
  (exists x, (a = Err (LeftE x) \/ a = Ok false) /\
     ((exists y, In (Mine, Some y) schedule /\ x = SledError y) \/ (x = MissingPropertyData /\ exists t, rewritten cs t))) \/
  (exists x, (a = Err (RightE x) \/ a = Ok false) /\
     ((exists y, In (Mine, Some y) schedule /\ x = SledError y) \/ (x = MissingPropertyData /\ exists t, rewritten cs' t))) \/
  (a = Ok true /\
    (forall i, agree_at neqb (had_node (k := k) (SE := SE) cn seen) (had_node (k := k) (SE := SE) cn' seen') (lacked_node (k := k) (SE := SE) cn seen) (lacked_node (k := k) (SE := SE) cn' seen') i) /\
    (forall t, agree_at eeqb (had_edge (k := k) (SE := SE) ce seen) (had_edge (k := k) (SE := SE) ce' seen') (lacked_edge (k := k) (SE := SE) ce seen) (lacked_edge (k := k) (SE := SE) ce' seen') t)) \/
  (a = Ok false /\
    ((exists i, differ_at neqb (had_node (k := k) (SE := SE) cn seen) (had_node (k := k) (SE := SE) cn' seen') (lacked_node (k := k) (SE := SE) cn seen) (lacked_node (k := k) (SE := SE) cn' seen') i) \/
     (exists t, differ_at eeqb (had_edge (k := k) (SE := SE) ce seen) (had_edge (k := k) (SE := SE) ce' seen') (lacked_edge (k := k) (SE := SE) ce seen) (lacked_edge (k := k) (SE := SE) ce' seen') t))).
Proof.
  intros k NP EP SE BE BE' E E' cn ce cn' ce' mn me mn' me' neqb eeqb ls cs wcuts ls' cs' wcuts' cuts ecuts cuts' ecuts' schedule a psA' psB' d'
    Hn He Hn' He' Hd Hd' d p ws ws' Hi seen seen'.
  set (nodeq := pair_eqb (id_eqb (k := k)) neqb). set (edgeq := pair_eqb (triple_eqb (id_eqb (k := k))) eeqb).
  set (zn := zipped nodeq t_node (fun kv => next (node_read (SE := SE) cn kv)) t_node (fun kv => next (node_read (SE := SE) cn' kv)) cuts cuts').
  set (ze := zipped edgeq t_spo (fun kv => next (edge_read (SE := SE) ce kv)) t_spo (fun kv => next (edge_read (SE := SE) ce' kv)) ecuts ecuts').
  assert (acct p (fun m a => exists m1 m2 r, m = m1 ++ m2 /\ zn m1 r /\ ((r = Ok true /\ ze m2 a) \/ (r <> Ok true /\ m2 = [] /\ a = r)))) as Hacct.
  { unfold p, eq_both. apply acct_bind. eapply acct_mono; [|apply acct_zip]. intros m1 r Hr. destruct r as [[|]|e].
    - eapply acct_mono; [|apply acct_zip]. intros m2 b Hb. exists m1, m2, (Ok true). auto.
    - cbn [acct]. exists m1, [], (Ok false). split; auto. split; auto. right. split; [discriminate|auto].
    - cbn [acct]. exists m1, [], (Err e). split; auto. split; auto. right. split; [discriminate|auto]. }
  assert (Hnodeq : forall x y : Id k * NP, nodeq x y = true <-> fst x = fst y /\ neqb (snd x) (snd y) = true).
  { intros x y. apply (pair_eqb_item id_eqb neqb id_eqb_eq). }
  assert (Hedgeq : forall x y : triple (Id k) * EP, edgeq x y = true <-> fst x = fst y /\ eeqb (snd x) (snd y) = true).
  { intros x y. apply (pair_eqb_item _ eeqb triple_eqb_eq). }
  pose (LO := (result (lr_error (result (lr_error (sled_error SE BE) (sled_error SE BE')) bool) (sled_error SE BE)) unit *
    option (cursor * list (ev (SE := SE) db) * Prop))%type).
  pose (RO := fun A : Type => (result (lr_error unit (sled_error SE BE')) unit * list A)%type).
  pose (wa := @inr (LO * option LO) (list (outcome (SE := SE) (BE := BE) (E := E)) * handle k)).
  pose (wb := @inr (RO (Id k * NP)%type * option (RO (triple (Id k) * EP)%type)) (list (outcome (SE := SE) (BE := BE') (E := E')) * handle k)).
  pose proof (interleave2_wraps wb wa schedule p ws ws' d) as Hw. rewrite Hi in Hw.
  destruct (run2_second schedule p _ _ d _ _ _ _ _ Hacct Hw) as (m & sA & sB & (m1 & m2 & r & -> & Hzn & Hze) & HA & HB & H1 & H2).
  rewrite lefts_app in HA. rewrite rights_app in HB.
  assert (Hmet : forall y, met sA y -> In (Mine, Some y) schedule) by (intros y Hy; exact (H1 0 (Some y) Hy)).
  assert (Hmet' : forall y, met sB y -> In (Mine, Some y) schedule) by (intros y Hy; exact (H2 0 (Some y) Hy)).
  (* what a reader of one database that does these steps has read *)
  assert (HfirstDB : forall fn fe s more (x : LO * option LO), follows (reader (SE := SE) cn ce fn fe cuts ecuts s more) (lefts m1 ++ lefts m2) x ->
    part id_lt (had_node (k := k) (SE := SE) cn seen) (lacked_node (k := k) (SE := SE) cn seen) (unlucky (fun y => In (Mine, Some y) schedule) cs) fn s (fst x) /\
    match more, snd x with
    | Some s', Some y => part (edge_lt SPO) (had_edge (k := k) (SE := SE) ce seen) (lacked_edge (k := k) (SE := SE) ce seen) (unlucky (fun y => In (Mine, Some y) schedule) cs) fe s' y
    | None, None => True | _, _ => False end).
  { intros fn fe s more x Hf.
    assert (Hq : follows (bind (reader (SE := SE) cn ce fn fe cuts ecuts s more) (fun x => Ret (inl x))) (lefts m1 ++ lefts m2)
      (inl x : _ + (list (outcome (SE := SE) (BE := BE) (E := E)) * handle k))).
    { rewrite <- (app_nil_r (lefts m1 ++ lefts m2)). eapply follows_bind; [exact Hf|]. reflexivity. }
    destruct (HA _ _ Hq) as [Er Es].
    apply (reader_beside cn ce fn fe mn me ls cs wcuts cuts ecuts sA s more x seen _ Hn He Hd); [| |exact Hmet].
    - unfold has_read, beside. fold ws. change (lives cn ce mn me ls db_new) with (fst d).
      match goal with |- nth_error (fst ?x) _ = _ => match type of Er with _ = ?y => assert (Ex : x = y) by exact Er; rewrite Ex end end. reflexivity.
    - intros d1 D1. eapply during2_wraps. apply (Es d1). exact D1. }
  assert (HsecondDB : forall s more (x : RO (Id k * NP)%type * option (RO (triple (Id k) * EP)%type)),
    follows (reader (SE := SE) cn' ce' (same_item nodeq) (same_item edgeq) cuts' ecuts' s more) (rights m1 ++ rights m2) x ->
    part id_lt (had_node (k := k) (SE := SE) cn' seen') (lacked_node (k := k) (SE := SE) cn' seen') (unlucky (fun y => In (Mine, Some y) schedule) cs') (same_item nodeq) s (fst x) /\
    match more, snd x with
    | Some s', Some y => part (edge_lt SPO) (had_edge (k := k) (SE := SE) ce' seen') (lacked_edge (k := k) (SE := SE) ce' seen') (unlucky (fun y => In (Mine, Some y) schedule) cs') (same_item edgeq) s' y
    | None, None => True | _, _ => False end).
  { intros s more x Hf.
    assert (Hq : follows (bind (reader (SE := SE) cn' ce' (same_item nodeq) (same_item edgeq) cuts' ecuts' s more) (fun x => Ret (inl x))) (rights m1 ++ rights m2)
      (inl x : _ + (list (outcome (SE := SE) (BE := BE') (E := E')) * handle k))).
    { rewrite <- (app_nil_r (rights m1 ++ rights m2)). eapply follows_bind; [exact Hf|]. reflexivity. }
    destruct (HB _ _ Hq) as [Er Es].
    apply (reader_beside cn' ce' (same_item nodeq) (same_item edgeq) mn' me' ls' cs' wcuts' cuts' ecuts' sB s more x seen' _ Hn' He' Hd'); [| |exact Hmet'].
    - unfold has_read, beside. fold ws'. change (lives cn' ce' mn' me' ls' db_new) with (snd d).
      match goal with |- nth_error (fst ?x) _ = _ => match type of Er with _ = ?y => assert (Ex : x = y) by exact Er; rewrite Ex end end. reflexivity.
    - intros d1 D1. eapply during2_second_wraps. apply (Es d1). exact D1. }
  pose (fnb := by_list (EL := result (lr_error (sled_error SE BE) (sled_error SE BE')) bool) (same_next (EA := sled_error SE BE) nodeq t_node (fun kv => next (node_read (SE := SE) cn' kv)))).
  pose (feb := by_list (EL := result (lr_error (sled_error SE BE) (sled_error SE BE')) bool) (same_next (EA := sled_error SE BE) edgeq t_spo (fun kv => next (edge_read (SE := SE) ce' kv)))).
  destruct (zipped_loops _ _ _ _ _ _ _ _ _ Hzn) as (stN & rN & stN' & FN & LN & RN).
  set (Qn := fun ns out => follows (loop_from t_node (fun kv => next (node_read (SE := SE) cn' kv)) (fun l st => Ret (same_item nodeq l st)) None cuts' ns) (rights m1) out) in *.
  destruct Hze as [[-> Hze]|(Hr & -> & ->)].
  - destruct (zipped_loops _ _ _ _ _ _ _ _ _ Hze) as (stE & rE & stE' & FE & LE & RE).
    set (Qe := fun ns out => follows (loop_from t_spo (fun kv => next (edge_read (SE := SE) ce' kv)) (fun l st => Ret (same_item edgeq l st)) None ecuts' ns) (rights m2) out) in *.
    destruct (HfirstDB fnb feb stN (Some stE) ((rN, stN'), Some (rE, stE'))) as [PN PE].
    { unfold reader. eapply follows_bind; [exact FN|]. rewrite <- (app_nil_r (lefts m2)). eapply follows_bind; [exact FE|]. reflexivity. }
    cbn [fst snd] in PN, PE.
    destruct (judge id_lt id_lt_irr id_lt_tr id_dec nodeq neqb Hnodeq _ (had_node (k := k) (SE := SE) cn' seen') _ (lacked_node (k := k) (SE := SE) cn' seen') _
      (unlucky (fun y => In (Mine, Some y) schedule) cs') _ _ _ _ _ Qn PN LN RN) as [(x & [Hx|Hx] & _)|(ns & outN & FN' & JN)]; [discriminate|discriminate|].
    destruct (judge (edge_lt SPO) (edge_lt_irr SPO) (edge_lt_tr SPO) tr_dec edgeq eeqb Hedgeq _ (had_edge (k := k) (SE := SE) ce' seen') _ (lacked_edge (k := k) (SE := SE) ce' seen') _
      (unlucky (fun y => In (Mine, Some y) schedule) cs') _ _ _ _ _ Qe PE LE RE) as [Hf|(es & outE & FE' & JE)]; [left; exact Hf|right].
    destruct (HsecondDB ns (Some es) (outN, Some outE)) as [PN' PE'].
    { unfold reader. eapply follows_bind; [exact FN'|]. rewrite <- (app_nil_r (rights m2)). eapply follows_bind; [exact FE'|]. reflexivity. }
    cbn [fst snd] in PN', PE'.
    destruct (JN PN') as [(x & [Hx|Hx] & _)|[[_ GN]|[Hx _]]]; try discriminate.
    destruct (JE PE') as [Hf|[[-> GE]|[-> GE]]]; [left; exact Hf|right; left; auto|right; right; auto].
  - destruct (HfirstDB fnb feb stN None ((rN, stN'), None)) as [PN _].
    { unfold reader. eapply follows_bind; [exact FN|]. reflexivity. }
    cbn [fst snd] in PN.
    destruct (judge id_lt id_lt_irr id_lt_tr id_dec nodeq neqb Hnodeq _ (had_node (k := k) (SE := SE) cn' seen') _ (lacked_node (k := k) (SE := SE) cn' seen') _
      (unlucky (fun y => In (Mine, Some y) schedule) cs') _ _ _ _ _ Qn PN LN RN) as [Hf|(ns & outN & FN' & JN)]; [left; exact Hf|right].
    destruct (HsecondDB ns None (outN, None)) as [PN' _].
    { unfold reader. eapply follows_bind; [exact FN'|]. reflexivity. }
    cbn [fst snd] in PN'.
    destruct (JN PN') as [Hf|[[-> GN]|[-> GN]]]; [left; exact Hf|congruence|right; right; auto].
Qed.
