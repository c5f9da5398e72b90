(** What a copy between two sled stores does when both are in use. *)
From Coq Require Import Arith NArith List Bool Sorted.
From Verif Require Import Bytes OMap Core IdType Store Mem Spec History Prog Sled SledHistory SledTables SledTop
  SledLeaf SledLazy SledBeside SledCopy SledCopyFacts SledTwo SledTwoFacts.
From Verif Require Import SledSched SledRun SledCrash SledConcTop SledTornSpec SledMixSpec SledMixMain SledBeside.
Import ListNotations.

(** ** The steps on the second database, taken from a list.  The proposition says that what was written is what
    the program writes. *)
Section Replay.
Context {D SE : Type}.
Notation ev := (ev (SE := SE)).
Fixpoint replay {X} (p : prog D SE X) (m : list (ev D)) (P : Prop) : option (X * list (ev D) * Prop) :=
  match p with
  | Ret x => Some (x, m, P)
  | Look k => match m with ELook _ d :: m' => replay (k d) m' P | _ => None end
  | Act u k e =>
      match m with
      | EOk _ d d' :: m' => replay (k d) m' (P /\ d' = u d)
      | EErr _ y :: m' => replay (e y) m' P
      | _ => None
      end
  end.
Lemma replay_bind {X Y} (p : prog D SE X) (f : X -> prog D SE Y) : forall m P,
  replay (bind p f) m P = match replay p m P with Some (x, m', P') => replay (f x) m' P' | None => None end.
Proof. induction p as [a|k IH|u k IH e IHe]; intros [|[d|d d'|z] m] P; simpl; auto. Qed.
Lemma follows_replay {X} (p : prog D SE X) : forall m x tail (P : Prop), follows p m x ->
  exists P' : Prop, (P -> P') /\ replay p (m ++ tail) P = Some (x, tail, P').
Proof.
  induction p as [a|k IH|u k IH e IHe]; intros [|[d|d d'|z] m] x tail P; simpl; try contradiction.
  - intros ->. exists P. auto.
  - apply IH.
  - intros [E H]. destruct (IH d m x tail (P /\ d' = u d) H) as (P' & H1 & H2). exists P'. auto.
  - apply IHe.
Qed.
Lemma replay_follows {X} (p : prog D SE X) : forall m x m' (P P' : Prop), replay p m P = Some (x, m', P') -> P' ->
  P /\ exists m0, m = m0 ++ m' /\ follows p m0 x.
Proof.
  induction p as [a|k IH|u k IH e IHe]; intros m x m' P P' E HP.
  - injection E as -> -> ->. split; auto. exists []. split; reflexivity.
  - destruct m as [|[d|d d'|z] m]; simpl in E; try discriminate. destruct (IH _ _ _ _ _ _ E HP) as (H0 & m0 & -> & Hf).
    split; auto. exists (ELook _ d :: m0). split; auto.
  - destruct m as [|[d|d d'|z] m]; simpl in E; try discriminate.
    + destruct (IH _ _ _ _ _ _ E HP) as ([H0 Hu] & m0 & -> & Hf). split; auto. exists (EOk _ d d' :: m0). split; simpl; auto.
    + destruct (IHe _ _ _ _ _ _ E HP) as (H0 & m0 & -> & Hf). split; auto. exists (EErr _ z :: m0). split; simpl; auto.
Qed.

Context {H EL : Type}.
Notation st := (option (H * list (ev D) * Prop)).
Definition by_list {A} (body : A -> H -> prog D SE (result EL unit * H)) (a : A) (x : st) : result EL unit * st :=
  match x with
  | None => (Ok tt, None)
  | Some (h, m, P) =>
      match replay (body a h) m P with Some (rh, m', P') => (fst rh, Some (snd rh, m', P')) | None => (Ok tt, None) end
  end.
End Replay.

(** ** The loops *)
Section Loops.
Context {DA DB SE EL ER H A : Type}.
Notation ev := (ev (SE := SE)).
Context (entries : DA -> list (bytes * bytes)) (item : bytes * bytes -> prog DA SE (result ER A))
  (body : A -> H -> prog DB SE (result EL unit * H)).
(** The steps on the first database are those of a loop that does with each item what the steps on the second one say. *)
Definition alone {X} (q : option (H * list (ev DB) * Prop) -> prog DA SE (X * option (H * list (ev DB) * Prop))) (h : H)
    (m : list (ev DA + ev DB)) (x : X * H) : Prop :=
  forall tail (P : Prop), exists P' : Prop, (P -> P') /\
    follows (q (Some (h, rights m ++ tail, P))) (lefts m) (fst x, Some (snd x, tail, P')).
Notation first := (on_first (DB := DB)).
Notation second := (on_second (DA := DA)).
Notation own := (fun a st => Ret (by_list body a st)).
Lemma alone_leaf rest rest' : (forall h, acct (rest h) (alone rest' h)) -> forall kvs h,
  acct (leaf_loop (EL := EL) (fun kv => first (item kv)) (fun a h => second (body a h)) rest kvs h)
    (alone (leaf_loop item own rest' kvs) h).
Proof.
  intros Hr. induction kvs as [|kv kvs IH]; intros h; cbn [leaf_loop]; [apply Hr|].
  apply acct_bind, acct_first. intros m1 [a|e] F1.
  - apply acct_bind, acct_second. intros m2 [r h1] F2. cbn [fst snd]. destruct r as [[]|e].
    + eapply acct_mono; [|apply IH]. intros m3 [x h'] HG tail P. rewrite !rights_app, rights_inl, rights_inr, !lefts_app, lefts_inl, lefts_inr.
      cbn [app]. rewrite <- app_assoc. destruct (follows_replay _ _ _ (rights m3 ++ tail) P F2) as (P1 & HP1 & Er).
      destruct (HG tail P1) as (P2 & HP2 & Hf). exists P2. split; [auto|]. eapply follows_bind; [exact F1|]. cbn [bind by_list fst snd].
      rewrite Er. cbn [fst snd]. exact Hf.
    + intros tail P. rewrite !rights_app, rights_inl, rights_inr, !lefts_app, lefts_inl, lefts_inr.
      cbn [app rights lefts flat_map]. rewrite <- app_assoc. cbn [app]. destruct (follows_replay _ _ _ tail P F2) as (P1 & HP1 & Er).
      exists P1. split; [auto|]. eapply follows_bind; [exact F1|]. cbn [bind by_list fst snd]. rewrite Er. reflexivity.
  - intros tail P. rewrite rights_app, rights_inl, lefts_app, lefts_inl. exists P. split; [auto|]. eapply follows_bind; [exact F1|]. reflexivity.
Qed.
Lemma alone_loop cuts : forall lo h,
  acct (loop_from (EL := EL) (fun d => entries (fst d)) (fun kv => first (item kv)) (fun a h => second (body a h)) lo cuts h)
    (alone (loop_from entries item own lo cuts) h).
Proof.
  induction cuts as [|c cuts IH]; intros lo h; cbn [loop_from acct]; left; intros d.
  - eapply acct_mono; [|apply (alone_leaf (fun h => Ret (Ok tt, h)) (fun h => Ret (Ok tt, h)))].
    + intros m x HG tail P. destruct (HG tail P) as (P' & HP & Hf). exists P'. split; [exact HP|exact Hf].
    + intros h0 tail P. exists P. split; [auto|reflexivity].
  - eapply acct_mono; [|apply (alone_leaf _ (loop_from entries item own (Some (later lo c)) cuts)); apply IH].
    intros m x HG tail P. destruct (HG tail P) as (P' & HP & Hf). exists P'. split; [exact HP|exact Hf].
Qed.
End Loops.
Lemma alone_both {DA DB SE EL ER H A1 A2 : Type} nodes edges read_node read_edge
    (fn : A1 -> H -> prog DB SE (result EL unit * H)) (fe : A2 -> H -> prog DB SE (result EL unit * H)) cuts cuts' h :
  acct (over_both (DA := DA) (ER := ER) nodes edges read_node read_edge fn fe cuts cuts' h)
    (alone (fun st => bind (loop_from nodes read_node (fun a st => Ret (by_list fn a st)) None cuts st) (fun rh =>
       match fst rh with
       | Err e => Ret (Err e, snd rh)
       | Ok _ => loop_from edges read_edge (fun a st => Ret (by_list fe a st)) None cuts' (snd rh)
       end)) h).
Proof.
  unfold over_both. apply acct_bind. eapply acct_mono; [|apply alone_loop]. intros m1 [[[]|e] h1] H1; cbn [fst snd].
  - eapply acct_mono; [|apply alone_loop]. intros m2 [x h'] H2 tail P. rewrite rights_app, lefts_app, <- app_assoc.
    destruct (H1 (rights m2 ++ tail) P) as (P1 & HP1 & F1). destruct (H2 tail P1) as (P2 & HP2 & F2).
    exists P2. split; [auto|]. eapply follows_bind; [exact F1|]. exact F2.
  - intros tail P. rewrite app_nil_r. destruct (H1 tail P) as (P1 & HP1 & F1). exists P1. split; auto.
    rewrite <- (app_nil_r (lefts m1)). eapply follows_bind; [exact F1|]. reflexivity.
Qed.

(** ** Loops over a source *)
Section Source.
Context {k : idkind} {NP EP SE BE ER : Type}.
Notation err := (sled_error SE BE).
Notation H := (handle k).
Lemma feed_none {A} (body : A -> H -> prog db SE (result err unit * H)) (xs : list (result ER A)) : forall a x,
  feed (by_list body) xs None = (a, x) -> x = None.
Proof. induction xs as [|[a|e] xs IH]; simpl; intros b x E; [now injection E|eauto|now injection E]. Qed.
Lemma feed_list {A} (body : A -> H -> prog db SE (result err unit * H)) (xs : list (result ER A)) : forall h m P a h' m' P',
  feed (by_list body) xs (Some (h, m, P)) = (a, Some (h', m', P')) -> replay (for_source body xs h) m P = Some ((a, h'), m', P').
Proof.
  induction xs as [|[a|e] xs IH]; intros h m P b h' m' P' E.
  - simpl in *. now injection E as <- <- <- <-.
  - cbn [feed for_source by_list] in *. rewrite replay_bind. destruct (replay (body a h) m P) as [[[[[[]|e] h1] m1] P1]|]; cbn [fst snd] in *.
    + now apply IH.
    + injection E as <- <- <- <-. reflexivity.
    + exfalso. apply feed_none in E. discriminate.
  - simpl in *. now injection E as <- <- <- <-.
Qed.
Lemma feed_both_list (fn : Id k * NP -> H -> prog db SE (result err unit * H)) fe (s : source k NP EP ER) h m P a h' m' P' :
  feed_both (by_list fn) (by_list fe) s (Some (h, m, P)) = (a, Some (h', m', P')) ->
  replay (for_nodes_edges fn fe s h) m P = Some ((a, h'), m', P').
Proof.
  unfold feed_both, for_nodes_edges. intros E. rewrite replay_bind.
  destruct (feed (by_list fn) (src_nodes s) (Some (h, m, P))) as [[[]|e] [[[h1 m1] P1]|]] eqn:E1.
  - rewrite (feed_list _ _ _ _ _ _ _ _ _ E1). cbn [fst snd]. now apply feed_list.
  - exfalso. apply feed_none in E. discriminate.
  - injection E as <- <- <- <-. rewrite (feed_list _ _ _ _ _ _ _ _ _ E1). reflexivity.
  - discriminate.
Qed.
End Source.

(** ** Answers wrapped *)
Section Wrap.
Context {DA DB SE X YA YB Y : Type} (g : YA -> Y).
Notation wrap := (fun q : prog DA SE YA => bind q (fun b => Ret (g b))).
Lemma step1_wrap f q (d : DA) : step1 f (wrap q) d = (wrap (fst (step1 f q d)), snd (step1 f q d)).
Proof. destruct q as [a|k|u k e]; destruct f; reflexivity. Qed.
Lemma replace_map {U V} (w : U -> V) i x l : replace_nth i (w x) (map w l) = map w (replace_nth i x l).
Proof. revert i. induction l as [|y l IH]; intros [|i]; simpl; auto. now rewrite IH. Qed.
Lemma interleave2_wrap schedule : forall (p : prog (DA * DB) SE X) psA (psB : list (prog DB SE YB)) d,
  interleave2 schedule p (map wrap psA) psB d =
  let '(p', psA', psB', d') := interleave2 schedule p psA psB d in (p', map wrap psA', psB', d').
Proof.
  induction schedule as [|[[|i|i] f] schedule IH]; intros p psA psB d; cbn [interleave2].
  - reflexivity.
  - destruct (step1 f p d). apply IH.
  - rewrite nth_error_map. destruct (nth_error psA i) as [q|]; cbn [option_map]; [|apply IH].
    rewrite step1_wrap. destruct (step1 f q (fst d)) as [q' a]. cbn [fst snd]. rewrite (replace_map wrap). apply IH.
  - destruct (nth_error psB i) as [q|]; [|apply IH]. destruct (step1 f q (snd d)). apply IH.
Qed.
Lemma during2_wrap schedule (p : prog (DA * DB) SE X) psA (psB : list (prog DB SE YB)) d d1 :
  during2 schedule p (map wrap psA) psB d d1 <-> during2 schedule p psA psB d d1.
Proof.
  split; intros (s1 & s2 & E & ->); exists s1, s2; split; auto; rewrite interleave2_wrap;
    destruct (interleave2 s1 p psA psB d) as [[[p' a] b] d']; reflexivity.
Qed.
End Wrap.

(** ** Two sled databases *)
Lemma both_beside : forall k NP EP SE BE BE' E (cn : codec BE NP) (ce : codec BE EP) mn me
    (fn : Id k * NP -> handle k -> prog db SE (result (sled_error SE BE') unit * handle k))
    (fe : triple (Id k) * EP -> handle k -> prog db SE (result (sled_error SE BE') unit * handle k))
    (ls : list (life (k := k) (NP := NP) (EP := EP) (SE := SE) (E := E)))
    (cs : list (handle k * list (op k NP EP E))) (wcuts : nat -> nat -> cutting) (cuts cuts' : list bytes)
    Y (others : list (prog db SE Y)) (dB : db)
    (schedule : list (who * option SE)) (h : handle k) a h' psA' psB' d',
  codec_ok cn -> codec_ok ce -> NoDup (life_keys ls ++ session_keys cs) ->
  let d := (lives cn ce mn me ls db_new, dB) in
  let p := over_both t_node t_spo (fun kv => next (node_read cn kv)) (fun kv => next (edge_read ce kv)) fn fe cuts cuts' h in
  let writers := l_callers cn ce mn me wcuts 0 cs in
  interleave2 schedule p writers others d = (Ret (a, h'), psA', psB', d') ->
  let seen := during2 schedule p writers others d in
  exists s, handed2 cn ce seen (fun y => In (Mine, Some y) schedule) cs s /\ (a = Ok tt -> complete2 cn ce seen s) /\
  exists sB, (forall i f, In (i, f) sB -> In (second_of i, f) schedule) /\
    forall f : _ -> Y, interleave sB (bind (for_nodes_edges fn fe s h) (fun x => Ret (f x)) :: others) dB = (Ret (f (a, h')) :: psB', snd d').
Proof.
  intros k NP EP SE BE BE' E cn ce mn me fn fe ls cs wcuts cuts cuts' Y others dB schedule h a h' psA' psB' d' Hn He Hd d p writers Hi seen.
  pose (wr := @inr (result (lr_error (sled_error SE BE') (sled_error SE BE)) unit * option (handle k * list (ev (SE := SE) db) * Prop))
    (list (outcome (SE := SE) (BE := BE) (E := E)) * handle k)).
  pose proof (interleave2_wrap wr schedule p writers others d) as Hw. rewrite Hi in Hw.
  destruct (run2 schedule p _ others d _ _ _ _ _ (alone_both t_node t_spo (fun kv => next (node_read cn kv)) (fun kv => next (edge_read ce kv)) fn fe cuts cuts' h) Hw)
    as (m & sA & sB & HG & HA & HB & H1 & H2).
  destruct (HG [] True) as (P' & HP & Hf). rewrite app_nil_r in Hf. cbn [fst snd] in Hf.
  pose (reader := take_over (SE := SE) cn ce (by_list fn) (by_list fe) cuts cuts' (Some (h, rights m, True))).
  assert (Hq : follows (bind reader (fun x => Ret (inl x))) (lefts m) (inl (a, Some (h', [], P')) : _ + (list (outcome (SE := SE) (BE := BE) (E := E)) * handle k))).
  { rewrite <- (app_nil_r (lefts m)). eapply follows_bind; [exact Hf|]. reflexivity. }
  destruct (HA _ _ Hq) as [Er Es].
  destruct (taken_beside k NP EP SE BE E _ _ cn ce mn me (by_list fn) (by_list fe) ls cs wcuts cuts cuts' sA
    (Some (h, rights m, True)) a (Some (h', [], P')) Hn He Hd) as (s & Ef & Hh & Hc).
  { unfold has_read. unfold beside. fold reader. fold writers. change (lives cn ce mn me ls db_new) with (fst d).
    match goal with |- nth_error (fst ?x) _ = _ => assert (Ex : x = (Ret (inl (a, Some (h', [], P'))) :: map (fun q => bind q (fun b => Ret (wr b))) psA', fst d')) by exact Er; rewrite Ex end.
    reflexivity. }
  assert (Hseen : forall d1, during sA (beside reader writers) (lives cn ce mn me ls db_new) d1 <-> seen d1).
  { intros d1. unfold seen. rewrite <- (during2_wrap wr). apply (Es d1). }
  assert (Hmet : forall y, met sA y -> In (Mine, Some y) schedule).
  { intros y Hy. exact (H1 0 (Some y) Hy). }
  exists s. split; [|split].
  - destruct Hh as (A1 & A2 & A3 & A4 & A5 & A6). split; [|split; [|split; [|split; [|split]]]]; auto.
    + intros i q Hin. destruct (A1 i q Hin) as (d1 & D1 & L1). exists d1. split; [now apply Hseen|exact L1].
    + intros t e Hin. destruct (A2 t e Hin) as (d1 & D1 & L1). exists d1. split; [now apply Hseen|exact L1].
    + intros x Hin. destruct (A5 x Hin) as (y & Hy & ->). exists y. auto.
    + intros x Hin. destruct (A6 x Hin) as [(y & Hy & ->)|Hr]; [left; exists y; auto|right; exact Hr].
  - intros Ea. destruct (Hc Ea) as [C1 C2]. split.
    + intros i Hall. apply C1. intros d1 D1. now apply Hall, Hseen.
    + intros t Hall. apply C2. intros d1 D1. now apply Hall, Hseen.
  - exists sB. split; [exact H2|]. intros f. apply (HB (bind (for_nodes_edges fn fe s h) (fun x => Ret (f x)))). symmetry in Ef. apply feed_both_list in Ef.
    destruct (replay_follows _ _ _ _ _ _ Ef (HP Logic.I)) as (_ & m0 & -> & Hf0). rewrite app_nil_r. rewrite <- (app_nil_r m0).
    eapply follows_bind; [exact Hf0|]. reflexivity.
Qed.

Lemma two_extend : forall k NP EP SE BE BE' E (cn : codec BE NP) (ce : codec BE EP) (cn' : codec BE' NP) (ce' : codec BE' EP) mn me mn' me'
    (ls : list (life (k := k) (NP := NP) (EP := EP) (SE := SE) (E := E)))
    (cs : list (handle k * list (op k NP EP E))) (cs' : list (handle k * list (op k NP EP (sled_error SE BE))))
    (wcuts wcuts' : nat -> nat -> cutting) (cuts cuts' : list bytes)
    (schedule : list (who * option SE)) (h h' : handle k) (x : db) a psA psB d',
  codec_ok cn -> codec_ok ce -> NoDup (life_keys ls ++ session_keys cs) ->
  let d := (lives cn ce mn me ls db_new, x) in
  let p := s_extend_both cn ce cn' ce' cuts cuts' h in
  let writers := l_callers cn ce mn me wcuts 0 cs in
  let others := l_callers cn' ce' mn' me' wcuts' 1 cs' in
  interleave2 schedule p writers others d = (Ret (a, h'), psA, psB, d') ->
  let seen := during2 schedule p writers others d in
  exists s, handed2 cn ce seen (fun y => In (Mine, Some y) schedule) cs s /\ (a = Ok tt -> complete2 cn ce seen s) /\
  exists schedule', (forall i f, In (i, f) schedule' -> In (second_of i, f) schedule) /\
    interleave schedule' (l_callers cn' ce' mn' me' wcuts' 0 ((h, [OExtend s]) :: cs')) x = (Ret ([a], h') :: psB, snd d').
Proof.
  intros k NP EP SE BE BE' E cn ce cn' ce' mn me mn' me' ls cs cs' wcuts wcuts' cuts cuts' schedule h h' x a psA psB d' Hn He Hd d p writers others Hi seen.
  destruct (both_beside _ _ _ _ _ _ _ cn ce mn me _ _ ls cs wcuts cuts cuts' _ others x schedule h a h' psA psB d' Hn He Hd Hi) as (s & H1 & H2 & sB & H3 & H4).
  exists s. split; [exact H1|]. split; [exact H2|]. exists sB. split; [exact H3|].
  exact (H4 (fun y => ([fst y], snd y))).
Qed.

Lemma two_merge : forall k NP EP SE BE BE' E (cn : codec BE NP) (ce : codec BE EP) (cn' : codec BE' NP) (ce' : codec BE' EP) mn me mn' me'
    (ls : list (life (k := k) (NP := NP) (EP := EP) (SE := SE) (E := E)))
    (cs : list (handle k * list (op k NP EP E))) (cs' : list (handle k * list (op k NP EP (sled_error SE BE))))
    (wcuts wcuts' : nat -> nat -> cutting) (cuts cuts' : list bytes)
    (schedule : list (who * option SE)) (h h' : handle k) (x : db) a psA psB d',
  codec_ok cn -> codec_ok ce -> NoDup (life_keys ls ++ session_keys cs) ->
  let d := (lives cn ce mn me ls db_new, x) in
  let p := s_merge_both cn ce cn' ce' mn' me' cuts cuts' h in
  let writers := l_callers cn ce mn me wcuts 0 cs in
  let others := l_callers cn' ce' mn' me' wcuts' 1 cs' in
  interleave2 schedule p writers others d = (Ret (a, h'), psA, psB, d') ->
  let seen := during2 schedule p writers others d in
  exists s, handed2 cn ce seen (fun y => In (Mine, Some y) schedule) cs s /\ (a = Ok tt -> complete2 cn ce seen s) /\
  exists schedule', (forall i f, In (i, f) schedule' -> In (second_of i, f) schedule) /\
    interleave schedule' (l_callers cn' ce' mn' me' wcuts' 0 ((h, [OMerge s]) :: cs')) x = (Ret ([a], h') :: psB, snd d').
Proof.
  intros k NP EP SE BE BE' E cn ce cn' ce' mn me mn' me' ls cs cs' wcuts wcuts' cuts cuts' schedule h h' x a psA psB d' Hn He Hd d p writers others Hi seen.
  destruct (both_beside _ _ _ _ _ _ _ cn ce mn me _ _ ls cs wcuts cuts cuts' _ others x schedule h a h' psA psB d' Hn He Hd Hi) as (s & H1 & H2 & sB & H3 & H4).
  exists s. split; [exact H1|]. split; [exact H2|]. exists sB. split; [exact H3|].
  exact (H4 (fun y => ([fst y], snd y))).
Qed.

(** A merge, next to callers of the written store that neither extend nor remove. *)
Lemma two_merge_end : forall k NP EP SE BE BE' E (cn : codec BE NP) (ce : codec BE EP) (cn' : codec BE' NP) (ce' : codec BE' EP) mn me mn' me'
    (ls : list (life (k := k) (NP := NP) (EP := EP) (SE := SE) (E := E)))
    (ls' : list (life (k := k) (NP := NP) (EP := EP) (SE := SE) (E := sled_error SE BE)))
    (cs : list (handle k * list (op k NP EP E))) (cs' : list (handle k * list (op k NP EP (sled_error SE BE))))
    (wcuts wcuts' : nat -> nat -> cutting) (cuts cuts' : list bytes)
    (schedule : list (who * option SE)) (h h' : handle k) a psA psB d',
  codec_ok cn -> codec_ok ce -> codec_ok cn' -> codec_ok ce' -> NoDup (life_keys ls ++ session_keys cs) ->
  extends_done cn' ce' mn' me' ls' db_new ->
  (forall h l o, In (h, l) cs' -> In o l -> match o with ORemoveNode _ | ORemoveEdge _ | OExtend _ => False | _ => True end) ->
  let d := (lives cn ce mn me ls db_new, lives cn' ce' mn' me' ls' db_new) in
  let p := s_merge_both cn ce cn' ce' mn' me' cuts cuts' h in
  let writers := l_callers cn ce mn me wcuts 0 cs in
  let others := l_callers cn' ce' mn' me' wcuts' 1 cs' in
  interleave2 schedule p writers others d = (Ret (a, h'), psA, psB, d') -> (forall q, In q psB -> exists r, q = Ret r) ->
  let seen := during2 schedule p writers others d in
  exists s, handed2 cn ce seen (fun y => In (Mine, Some y) schedule) cs s /\ (a = Ok tt -> complete2 cn ce seen s) /\
  let calls := (h, [OMerge s]) :: cs' in
  (NoDup (life_keys ls' ++ session_keys calls) ->
   exists g g' lgs l, sled_shows SE cn' ce' (snd d) g /\ Forall2 accounts (logs calls (Ret ([a], h') :: psB)) lgs /\ shuffle lgs l /\
     moves mn' me' l g g' /\ sled_shows SE cn' ce' (snd d') g').
Proof.
  intros k NP EP SE BE BE' E cn ce cn' ce' mn me mn' me' ls ls' cs cs' wcuts wcuts' cuts cuts' schedule h h' a psA psB d'
    Hn He Hn' He' Hd Hx Hc d p writers others Hi Hq seen.
  destruct (two_merge _ _ _ _ _ _ _ cn ce cn' ce' mn me mn' me' ls cs cs' wcuts wcuts' cuts cuts' schedule h h' _ a psA psB d' Hn He Hd Hi)
    as (s & H1 & H2 & sB & H3 & H4).
  exists s. split; [exact H1|]. split; [exact H2|]. intros calls Hk.
  pose proof (mix_merge cn' ce' mn' me' ls' calls wcuts' sB Hn' He' Hk Hx) as Hm. cbv zeta in Hm.
  unfold calls in Hm. rewrite H4 in Hm. apply Hm.
  - intros h0 l o [[= <- <-]|Hin] Ho; [|eapply Hc; eauto]. destruct Ho as [<-|[]]. exact Logic.I.
  - intros q [<-|Hin]; [eexists; reflexivity|]. auto.
Qed.
