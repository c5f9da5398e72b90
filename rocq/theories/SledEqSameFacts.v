(** try_eq of two handles of one database: the database is read twice, as two databases that change in step would be. *)
From Coq Require Import Arith NArith List Bool Sorted.
From Verif Require Import Bytes OMap OMapFacts Core IdType IdTypeFacts Store Mem MemIndex Spec GenSpec History MemTop Prog ProgFacts Sled SledHistory SledTables SledTop SledLeaf SledLeafFacts SledLazy
  SledIndex Rdf RdfSpec RdfSled RdfSledSpec RdfSledExactTop SledCopy SledTwo SledTwoTop SledEqTwo SledEqTwoTop SledEqTwoAlone RdfSledTwo RdfSledEqTwo RdfSledEqTwoFacts RdfSledEqTwoTop
  SledEqSame SledBeside RdfSledLeaf.
Import ListNotations.

(** ** One program on a pair of equal databases and one on the database *)
Section Fused.
Context {D SE : Type}.
Inductive fused {A} : prog (D * D) SE A -> prog D SE A -> Prop :=
| fused_ret a : fused (Ret a) (Ret a)
| fused_look k k' : (forall d, fused (k (d, d)) (k' d)) -> fused (Look k) (Look k')
| fused_act u k e u' k' e' : (forall d, u (d, d) = (d, d)) -> (forall d, u' d = d) -> (forall d, fused (k (d, d)) (k' d)) ->
    (forall x, fused (e x) (e' x)) -> fused (Act u k e) (Act u' k' e').
Lemma fused_bind {A B} (p : prog (D * D) SE A) q (f : A -> prog (D * D) SE B) g : fused p q -> (forall a, fused (f a) (g a)) -> fused (bind p f) (bind q g).
Proof. intros H Hf. induction H; cbn [bind]; auto; constructor; auto. Qed.
Lemma fused_first {A} (p : prog D SE A) : readonly p -> fused (on_first p) p.
Proof. induction 1 as [a|k _ IH|u k e Hu _ IHk _ IHe]; cbn [on_first]; constructor; auto. intros d. cbn [fst snd]. now rewrite Hu. Qed.
Lemma fused_second {A} (p : prog D SE A) : readonly p -> fused (on_second p) p.
Proof. induction 1 as [a|k _ IH|u k e Hu _ IHk _ IHe]; cbn [on_second]; constructor; auto. intros d. cbn [fst snd]. now rewrite Hu. Qed.
Lemma fused_step {A} f (p : prog (D * D) SE A) q d : fused p q ->
  fused (fst (step1 f p (d, d))) (fst (step1 f q d)) /\ snd (step1 f p (d, d)) = (d, d) /\ snd (step1 f q d) = d.
Proof. intros [a|k k' H|u k e u' k' e' Hu Hu' Hk He]; cbn [step1 fst snd]; [|auto|destruct f; cbn [fst snd]; auto]. split; [constructor|auto]. Qed.
Lemma fused_exec {A} (p : prog (D * D) SE A) q : fused p q -> forall fs d, exec p fs (d, d) = let '(a, d', fs') := exec q fs d in (a, (d', d'), fs').
Proof.
  induction 1 as [a|k k' _ IH|u k e u' k' e' Hu Hu' _ IHk _ IHe]; intros fs d; cbn [exec]; auto.
  destruct fs as [|[x|] fs]; rewrite ?Hu, ?Hu'; auto.
Qed.
Lemma fused_ret_of {A} (p : prog (D * D) SE A) q d : fused p q -> ret_of q [] d = ret_of p [] (d, d).
Proof. intros H. unfold ret_of. rewrite (fused_exec p q H). now destruct (exec q [] d) as [[a d'] fs]. Qed.

(** Each step of another caller is made on both. *)
Fixpoint twice (schedule : list (nat * option SE)) : list (who * option SE) :=
  match schedule with
  | [] => []
  | (O, f) :: schedule' => (Mine, f) :: twice schedule'
  | (Datatypes.S i, f) :: schedule' => (First i, f) :: (Second i, f) :: twice schedule'
  end.
Lemma twice_met schedule y : In (Mine, Some y) (twice schedule) -> met schedule y.
Proof.
  unfold met. induction schedule as [|[[|i] f] schedule IH]; simpl; auto.
  - intros [[= ->]|H]; auto.
  - intros [H|[H|H]]; try discriminate. auto.
Qed.
Lemma twice_app s1 s2 : twice (s1 ++ s2) = twice s1 ++ twice s2.
Proof. induction s1 as [|[[|i] f] s1 IH]; simpl; now rewrite ?IH. Qed.
Lemma twice_split schedule : forall s1 s2, twice schedule = s1 ++ s2 ->
  exists t1 t2, schedule = t1 ++ t2 /\ (s1 = twice t1 \/ exists i f t2', t2 = (Datatypes.S i, f) :: t2' /\ s1 = twice t1 ++ [(First i, f)]).
Proof.
  induction schedule as [|[[|i] f] schedule IH]; simpl; intros s1 s2 E.
  - exists [], []. split; auto. left. destruct s1; [reflexivity|discriminate].
  - destruct s1 as [|x s1]; [exists [], ((O, f) :: schedule); split; auto|]. injection E as <- E.
    destruct (IH s1 s2 E) as (t1 & t2 & -> & Ht). exists ((O, f) :: t1), t2. split; auto. destruct Ht as [->|(j & g & t2' & -> & ->)]; [left; reflexivity|].
    right. exists j, g, t2'. auto.
  - destruct s1 as [|x s1]; [exists [], ((Datatypes.S i, f) :: schedule); split; auto|]. injection E as <- E.
    destruct s1 as [|x s1]; [exists [], ((Datatypes.S i, f) :: schedule); split; auto; right; exists i, f, schedule; auto|]. injection E as <- E.
    destruct (IH s1 s2 E) as (t1 & t2 & -> & Ht). exists ((Datatypes.S i, f) :: t1), t2. split; auto. destruct Ht as [->|(j & g & t2' & -> & ->)]; [left; reflexivity|].
    right. exists j, g, t2'. auto.
Qed.

Lemma interleave_app {X} s1 s2 : forall (ps : list (prog D SE X)) d, interleave (s1 ++ s2) ps d = interleave s2 (fst (interleave s1 ps d)) (snd (interleave s1 ps d)).
Proof.
  induction s1 as [|[i f] s1 IH]; intros ps d; cbn [app interleave]; auto. destruct (nth_error ps i) as [p|]; [|apply IH]. destruct (step1 f p d). apply IH.
Qed.

Context {A B : Type}.
Notation left_in := (fun q : prog D SE A => bind q (fun a => Ret (inl a : A + B))).
Notation right_in := (fun q : prog D SE B => bind q (fun b => Ret (inr b : A + B))).
Lemma fused_run schedule : forall p q (ws : list (prog D SE B)) d, fused p q ->
  exists p1 q1 ws1 d1, fused p1 q1 /\ interleave schedule (left_in q :: map right_in ws) d = (left_in q1 :: map right_in ws1, d1) /\
    interleave2 (twice schedule) p ws ws (d, d) = (p1, ws1, ws1, (d1, d1)).
Proof.
  induction schedule as [|[[|i] f] schedule IH]; intros p q ws d H; cbn [interleave twice interleave2 nth_error].
  - exists p, q, ws, d. auto.
  - rewrite step1_wrap. destruct (fused_step f p q d H) as (H1 & E1 & E2).
    destruct (step1 f p (d, d)) as [p' x]. destruct (step1 f q d) as [q' y]. cbn [fst snd replace_nth] in *. subst x y. apply IH. exact H1.
  - rewrite nth_error_map. destruct (nth_error ws i) as [w|] eqn:En; cbn [option_map].
    + rewrite step1_wrap. cbn [fst snd]. destruct (step1 f w d) as [w' x]. cbn [fst snd replace_nth]. rewrite (replace_map right_in). apply IH. exact H.
    + apply IH. exact H.
Qed.
Section Run.
Context (p : prog (D * D) SE A) (q : prog D SE A) (ws : list (prog D SE B)) (d : D) (schedule : list (nat * option SE)).
Lemma fused_during d1 : fused p q -> during2 (twice schedule) p ws ws (d, d) d1 \/ during2_second (twice schedule) p ws ws (d, d) d1 -> during schedule (beside q ws) d d1.
Proof.
  intros H Hd. assert (exists s1 s2, twice schedule = s1 ++ s2 /\
    (d1 = fst (snd (interleave2 s1 p ws ws (d, d))) \/ d1 = snd (snd (interleave2 s1 p ws ws (d, d))))) as (s1 & s2 & E & Ed).
  { destruct Hd as [(s1 & s2 & E & Ed)|(s1 & s2 & E & Ed)]; exists s1, s2; auto. }
  destruct (twice_split _ _ _ E) as (t1 & t2 & -> & [->|(i & f & t2' & -> & ->)]).
  - exists t1, t2. split; auto. destruct (fused_run t1 p q ws d H) as (p1 & q1 & ws1 & d2 & _ & E1 & E2). unfold beside. rewrite E1. rewrite E2 in Ed.
    cbn [fst snd] in *. destruct Ed; auto.
  - destruct (fused_run t1 p q ws d H) as (p1 & q1 & ws1 & d2 & _ & E1 & E2).
    assert (interleave2 (twice t1 ++ [(First i, f)]) p ws ws (d, d) = interleave2 [(First i, f)] p1 ws1 ws1 (d2, d2)) as E3.
    { clear - E2. revert E2. generalize (twice t1) as s. generalize (d, d) as x. generalize ws at 2 4 as wsB. generalize ws as wsA. clear. generalize p as p0.
      intros p0 wsA wsB x s. revert p0 wsA wsB x. induction s as [|[[|j|j] g] s IH]; intros p0 wsA wsB x; cbn [interleave2 app].
      - intros [= -> -> -> ->]. reflexivity.
      - destruct (step1 g p0 x). apply IH.
      - destruct (nth_error wsA j) as [w|]; [|apply IH]. destruct (step1 g w (fst x)). apply IH.
      - destruct (nth_error wsB j) as [w|]; [|apply IH]. destruct (step1 g w (snd x)). apply IH. }
    rewrite E3 in Ed. cbn [interleave2] in Ed. destruct (nth_error ws1 i) as [w|] eqn:En.
    + destruct (step1 f w (fst (d2, d2))) as [w' y] eqn:Ew. cbn [fst snd] in *. destruct Ed as [->| ->].
      * exists (t1 ++ [(Datatypes.S i, f)]), t2'. split; [now rewrite <- app_assoc|]. unfold beside. rewrite interleave_app, E1. cbn [interleave nth_error fst snd].
        rewrite nth_error_map, En. cbn [option_map]. rewrite step1_wrap, Ew. reflexivity.
      * exists t1, ((Datatypes.S i, f) :: t2'). split; auto. unfold beside. now rewrite E1.
    + cbn [fst snd] in *. exists t1, ((Datatypes.S i, f) :: t2'). split; auto. unfold beside. rewrite E1. destruct Ed; auto.
Qed.
Lemma fused_read a : fused p q -> has_read a (fst (interleave schedule (beside q ws) d)) ->
  exists ws1, interleave2 (twice schedule) p ws ws (d, d) = (Ret a, ws1, ws1, (snd (interleave schedule (beside q ws) d), snd (interleave schedule (beside q ws) d))).
Proof.
  intros H Ha. destruct (fused_run schedule p q ws d H) as (p1 & q1 & ws1 & d1 & H1 & E1 & E2). unfold has_read, beside in *. rewrite E1 in *. cbn [fst snd nth_error] in *.
  exists ws1. rewrite E2. inversion H1; subst; cbn [bind] in Ha; try discriminate. congruence.
Qed.
End Run.
End Fused.

(** ** The loop *)
Section Zip.
Context {D SE ER A : Type} (eqb : A -> A -> bool) (entries : D -> list (bytes * bytes)) (item : bytes * bytes -> prog D SE (result ER A)).
Context (Hi : forall kv, readonly (item kv)).
Lemma ro_next_leaf cuts : forall lo, readonly (next_leaf (SE := SE) entries lo cuts).
Proof.
  induction cuts as [|c cuts IH]; intros lo; cbn [next_leaf]; constructor; intros d.
  - destruct (piece lo None (entries d)); constructor.
  - destruct (piece lo (Some c) (entries d)); [apply IH|constructor].
Qed.
Lemma ro_ask c : readonly (ask entries item c).
Proof.
  apply readonly_bind.
  - unfold next_entry. destruct (c_have c); [|constructor]. destruct (c_next c) as [[lo cuts]|]; [apply ro_next_leaf|constructor].
  - intros [[kv|] c']; cbn [fst snd]; [|constructor]. apply readonly_bind; auto. intros. constructor.
Qed.
Lemma fused_leaf {EL H} (body : A -> H -> prog D SE (result EL unit * H)) rest rest' : (forall a h, readonly (body a h)) -> (forall h, fused (rest h) (rest' h)) ->
  forall kvs h, fused (leaf_loop (fun kv => on_first (item kv)) (fun a h => on_second (body a h)) rest kvs h) (leaf_loop item body rest' kvs h).
Proof.
  intros Hb Hr. induction kvs as [|kv kvs IH]; intros h; cbn [leaf_loop]; [apply Hr|]. apply fused_bind; [now apply fused_first|]. intros [a|e]; [|constructor].
  apply fused_bind; [now apply fused_second|]. intros [[u|e] h']; cbn [fst snd]; [apply IH|constructor].
Qed.
Lemma fused_loop {EL H} (body : A -> H -> prog D SE (result EL unit * H)) cuts : (forall a h, readonly (body a h)) -> forall lo h,
  fused (loop_from (fun d => entries (fst d)) (fun kv => on_first (item kv)) (fun a h => on_second (body a h)) lo cuts h) (loop_from entries item body lo cuts h).
Proof.
  intros Hb. induction cuts as [|c cuts IH]; intros lo h; cbn [loop_from]; constructor; intros d; cbn [fst]; apply fused_leaf; auto. intros; constructor.
Qed.
Lemma fused_zip cuts cuts' : fused (zip_both eqb entries item entries item cuts cuts') (zip_same eqb entries item cuts cuts').
Proof.
  apply fused_bind.
  - apply fused_loop. intros a c. apply readonly_bind; [apply ro_ask|]. intros. constructor.
  - intros [[u|[r|e]] c]; cbn [fst snd]; [|constructor|]; (apply fused_bind; [apply fused_second, ro_ask|]; intros; constructor).
Qed.
End Zip.
Lemma ro_node_next {k NP SE BE} (cn : codec BE NP) kv : readonly (next (node_read (k := k) (SE := SE) cn kv)).
Proof.
  apply readonly_next. unfold node_read. apply readonly_bind_ok; [constructor|]. intros i. apply readonly_bind_ok; [|intros v; constructor].
  unfold bincode. destruct (de cn (snd kv)); constructor.
Qed.
Lemma ro_edge_next {k EP SE BE} (ce : codec BE EP) kv : readonly (next (edge_read (k := k) (SE := SE) ce kv)).
Proof.
  apply readonly_next. unfold edge_read. apply readonly_bind_ok; [constructor|]. intros t. apply readonly_bind_ok.
  - constructor; auto; intros; constructor.
  - intros data. apply readonly_bind_ok; [|intros [p|]; constructor]. unfold opt_de, bincode. destruct data as [b|]; [destruct (de ce b)|]; repeat constructor.
Qed.
Lemma ro_shown {S SE BE A B} (item : bytes * bytes -> prog db SE (result (sled_error SE BE) A))
    (show : A -> prog rdb SE (result (rdf_error S (sled_index_error S (Id KUlid) SE BE) (sled_error SE BE)) B)) kv :
  (forall kv, readonly (item kv)) -> (forall a, readonly (show a)) -> readonly (shown_item item show kv).
Proof. intros Hi Hs. apply readonly_bind; [now apply ro_graph, ro_next|]. intros [a|e]; [apply Hs|constructor]. Qed.
Lemma fused_eq {k NP EP SE BE} (cn : codec BE NP) (ce : codec BE EP) neqb eeqb cuts ecuts cuts' ecuts' :
  fused (eq_both (k := k) (SE := SE) cn ce cn ce neqb eeqb cuts ecuts cuts' ecuts') (eq_same (k := k) cn ce neqb eeqb cuts ecuts cuts' ecuts').
Proof.
  apply fused_bind; [apply fused_zip, ro_node_next|]. intros [[|]|e]; [apply fused_zip, ro_edge_next|constructor|constructor].
Qed.
Lemma fused_req {S NP EP SE BE} seqb neqb eeqb (cs : codec BE S) cu (cn : codec BE NP) (ce : codec BE EP) cuts ecuts cuts' ecuts' :
  fused (req_both (SE := SE) seqb neqb eeqb cs cu cn ce cs cu cn ce cuts ecuts cuts' ecuts') (req_same seqb neqb eeqb cs cu cn ce cuts ecuts cuts' ecuts').
Proof.
  apply fused_bind.
  - apply fused_zip. intros kv. apply ro_shown; [apply ro_node_item|apply ro_show_pair].
  - intros [[|]|e]; [|constructor|constructor]. apply fused_zip. intros kv. apply ro_shown; [apply ro_edge_entry|apply ro_show_edge].
Qed.
