(** The calls of an RdfTripleStore over sled, seen as lookups of names and calls on the graph. *)
From Coq Require Import Arith NArith List Bool Sorted Lia.
From Verif Require Import Bytes BytesFacts OMap OMapFacts Core IdType IdTypeFacts Store Mem Spec GenSpec
  CodecFacts ListFacts MemSim History Prog ProgFacts Sled SledHistory SledSched SledLeaf SledDb SledOps SledBulk
  SledRun SledRead SledTop SledMain SledCrash SledConc SledIndex SledIndexFacts Rdf RdfSpec RdfTop RdfSled RdfSledSpec
  RdfSledLeaf RdfSledSafe RdfSledConc RdfSledTop RdfSledMixSpec RdfSledMixSim.
Import ListNotations.

Section Okay.
Context {S NP EP SE BE E : Type} (seqb : S -> S -> bool) (seqb_eq : forall a b, seqb a b = true <-> a = b).
Context (cs : codec BE S) (cu : codec BE (Id KUlid)) (cn : codec BE NP) (ce : codec BE EP).
Context (Hcs : codec_ok cs) (Hcu : codec_ok cu).
Context (mn : NP -> NP -> NP) (me : EP -> EP -> EP).
Notation I := (Id KUlid).
Notation ent := (entity S).
Notation P A := (prog rdb SE A).
Notation rop := (rop S NP EP E).
Notation op := (op KUlid NP EP E).
Notation gerr := (sled_error SE BE).
Notation err := (rdf_error S (sled_index_error S (Id KUlid) SE BE) (sled_error SE BE)).
Notation PH A := (prog rdb SE (result (rdf_error S (sled_index_error S (Id KUlid) SE BE) (sled_error SE BE)) A * rhandle)).
Notation answer := (routcome (S := S) (SE := SE) (BE := BE) (E := E)).
Notation nu := (name_now (SE := SE) cs cu).
Notation idx_ok := (index_ok cs cu).
Notation ids := (S -> option I).
Notation rawc := (raw (SE := SE) (E := E) cn ce mn me).
Implicit Types d : rdb.
Implicit Types M : S -> option I.
Implicit Types h : rhandle.
Implicit Types g : handle KUlid.
Implicit Types R : list (rop * bool) -> ids -> Prop.

(** ** Names.  [T] holds of the names at every moment; the names in [N] are the only ones that
    may be new; [kn] lists them. *)
Context (N : list S) (T : ids -> Prop) (kn : ids -> list S).
Context (HT : forall M M', T M -> below M M' -> (forall n, M' n <> None -> M n <> None \/ In n N) -> T M').
Context (Hkn : forall M n, T M -> In n (kn M) <-> M n <> None).

(** ** The calls on the graph that a caller has made *)
Record call : Type := Call { c_rop : rop; c_cut : cutting; c_op : op; c_res : result gerr unit }.
Definition fine {A B} (r : result A B) : bool := match r with Ok _ => true | Err _ => false end.
Definition flag (x : call) : rop * bool := (c_rop x, fine (c_res x)).
Definition flags (s : list call) : list (rop * bool) := map flag s.
Lemma flags_app a b : flags (a ++ b) = flags a ++ flags b.
Proof. apply map_app. Qed.

Inductive okay {A} (Q : A -> list call -> ids -> handle KUlid -> nat -> Prop) (R : list (rop * bool) -> ids -> Prop)
    : P A -> list call -> ids -> handle KUlid -> nat -> Prop :=
| Ok_ret p a s M g n : peq p (Ret a) -> R (flags s) M -> Q a s M g n -> okay Q R p s M g n
| Ok_name p u k e s M g n : peq p (Act u k e) -> R (flags s) M -> (forall x, okay Q R (e x) s M g n) ->
    (forall d, idx_ok (r_names d) -> T (nu d) -> below M (nu d) ->
       r_trees (u d) = r_trees d /\ idx_ok (r_names (u d)) /\ T (nu (u d)) /\ below (nu d) (nu (u d))) ->
    (forall d, idx_ok (r_names d) -> T (nu d) -> below M (nu d) -> okay Q R (k d) s (nu (u d)) g n) ->
    okay Q R p s M g n
| Ok_call p ro c o F s M g n : peq p (bind (on_graph (rawc c o g)) F) -> R (flags s) M -> stands M ro o -> draws o <= n ->
    (forall rh, okay Q R (F rh) (s ++ [Call ro c o (fst rh)]) M (snd rh) (n - draws o)) ->
    okay Q R p s M g n.

Lemma okay_peq {A} Q R (p p' : P A) s M g n : peq p' p -> okay Q R p s M g n -> okay Q R p' s M g n.
Proof.
  intros H. destruct 1 as [p a s M g n H1|p u k e s M g n H1|p ro c o F s M g n H1].
  - eapply Ok_ret; eauto. eapply peq_trans; eauto.
  - eapply Ok_name; eauto. eapply peq_trans; eauto.
  - eapply Ok_call; eauto. eapply peq_trans; eauto.
Qed.
Lemma okay_R {A} Q R (p : P A) s M g n : okay Q R p s M g n -> R (flags s) M.
Proof. now destruct 1. Qed.

Lemma okay_mono {A} (Q Q' : A -> list call -> ids -> handle KUlid -> nat -> Prop) (R R' : list (rop * bool) -> ids -> Prop) p s M g n :
  (forall a s M g n, R (flags s) M -> Q a s M g n -> Q' a s M g n) -> (forall f M, R f M -> R' f M) ->
  okay Q R p s M g n -> okay Q' R' p s M g n.
Proof.
  intros HQ HR. induction 1 as [p a s M g n H1 H2 H3|p u k e s M g n H1 H2 _ IHe H3 _ IHk|p ro c o F s M g n H1 H2 H3 H4 _ IH].
  - eapply Ok_ret; eauto.
  - eapply Ok_name; eauto.
  - eapply Ok_call; eauto.
Qed.

Lemma okay_bind {A B} (Q : A -> list call -> ids -> handle KUlid -> nat -> Prop) (Q2 : B -> list call -> ids -> handle KUlid -> nat -> Prop) R
    (p : P A) (f : A -> P B) s M g n :
  okay Q R p s M g n -> (forall a s M g n, R (flags s) M -> Q a s M g n -> okay Q2 R (f a) s M g n) ->
  okay Q2 R (bind p f) s M g n.
Proof.
  intros H Hf. induction H as [p a s M g n H1 H2 H3|p u k e s M g n H1 H2 _ IHe H3 _ IHk|p ro c o F s M g n H1 H2 H3 H4 _ IH].
  - eapply okay_peq; [|apply (Hf a _ _ _ _ H2 H3)]. apply (peq_bind p (Ret a) f f H1). intros x. apply peq_refl.
  - eapply Ok_name; [apply (peq_bind p (Act u k e) f f H1); intros x; apply peq_refl| | | |]; cbn beta; eauto.
  - eapply Ok_call; [eapply peq_trans; [apply (peq_bind _ _ f f H1); intros x; apply peq_refl|]; apply bind_assoc| | | |]; eauto.
Qed.

(** Names only grow. *)
Lemma okay_grows {A} (Q : A -> list call -> ids -> handle KUlid -> nat -> Prop) R (p : P A) s M g n : T M -> okay Q R p s M g n ->
  okay (fun a s' M' g' n' => below M M' /\ T M' /\ Q a s' M' g' n') R p s M g n.
Proof.
  intros HM H. assert (forall M0, below M0 M -> okay (fun a s' M' g' n' => below M0 M' /\ T M' /\ Q a s' M' g' n') R p s M g n) as H0.
  { induction H as [p a s M g n H1 H2 H3|p u k e s M g n H1 H2 _ IHe H3 _ IHk|p ro c o F s M g n H1 H2 H3 H4 _ IH]; intros M0 HB.
    - eapply Ok_ret; eauto.
    - eapply Ok_name; eauto. intros d D1 D2 D3. destruct (H3 d D1 D2 D3) as (X1 & X2 & X3 & X4). apply IHk; auto.
      eapply below_trans; [exact HB|]. eapply below_trans; eauto.
    - eapply Ok_call; eauto. }
  apply H0, below_refl.
Qed.

Lemma okay_R_grows {A} (Q : A -> list call -> ids -> handle KUlid -> nat -> Prop) R (p : P A) s M g n : okay Q R p s M g n ->
  okay Q (fun f M' => below M M' /\ R f M') p s M g n.
Proof.
  intros H. assert (forall M0, below M0 M -> okay Q (fun f M' => below M0 M' /\ R f M') p s M g n) as H0.
  { induction H as [p a s M g n H1 H2 H3|p u k e s M g n H1 H2 _ IHe H3 _ IHk|p ro c o F s M g n H1 H2 H3 H4 _ IH]; intros M0 HB.
    - eapply Ok_ret; eauto.
    - eapply Ok_name; eauto. intros d D1 D2 D3. destruct (H3 d D1 D2 D3) as (X1 & X2 & X3 & X4). apply IHk; auto.
      eapply below_trans; [exact HB|]. eapply below_trans; eauto.
    - eapply Ok_call; eauto. }
  apply H0, below_refl.
Qed.

(** ** Looking up names *)
Lemma okay_names_read {A} (Q : A -> list call -> ids -> handle KUlid -> nat -> Prop) R
    (k : idb -> prog idb SE A) (e : SE -> prog idb SE A) s M g n :
  R (flags s) M -> (forall x, okay Q R (on_names (e x)) s M g n) ->
  (forall d, idx_ok (r_names d) -> T (nu d) -> below M (nu d) -> okay Q R (on_names (k (r_names d))) s (nu d) g n) ->
  okay Q R (on_names (Act (fun x => x) k e)) s M g n.
Proof.
  intros HR He Hk. cbn [on_names]. eapply Ok_name; [apply peq_refl| | | |]; auto.
  - intros d D1 D2 D3. replace (RDb (r_names d) (r_trees d)) with d by (destruct d; reflexivity).
    split; auto. split; auto. split; auto. apply below_refl.
Qed.

Definition found {A} (good : ids -> A -> Prop) (bad : ids -> err -> Prop) h s n :
    result err A * rhandle -> list call -> ids -> handle KUlid -> nat -> Prop :=
  fun rh s' M' g' n' => s' = s /\ n' = n /\ g' = rh_graph h /\ rh_graph (snd rh) = rh_graph h /\
    match fst rh with Ok a => good M' a | Err x => bad M' x end.
Definition index_failed (M : ids) (x : err) : Prop := exists y, x = NameIndexStorageError y.

(** [R] holds from now on, whatever names come. *)
Definition steady (R : list (rop * bool) -> ids -> Prop) (f : list (rop * bool)) M : Prop := forall M', below M M' -> R f M'.
Lemma steady_now R f M : steady R f M -> R f M.
Proof. intros H. apply H, below_refl. Qed.
Lemma steady_below R f M M' : below M M' -> steady R f M -> steady R f M'.
Proof. intros H H1 M2 H2. apply H1. eapply below_trans; eauto. Qed.

Lemma okay_lookup R e h s M n : incl (name_of e) N -> steady R (flags s) M ->
  okay (found (fun M i => den M e i) index_failed h s n) R (rs_lookup_or_create cs cu e h) s M (rh_graph h) n.
Proof.
  intros HN HR. destruct e as [nm|i]; cbn [rs_lookup_or_create].
  2: { eapply Ok_ret; [apply peq_refl|now apply steady_now|]. repeat split. }
  assert (forall M' y h', below M M' -> rh_graph h' = rh_graph h ->
    okay (found (fun M i => den M (EString nm) i) index_failed h s n) R (Ret (Err (NameIndexStorageError y), h')) s M' (rh_graph h) n) as Herr.
  { intros M' y h' HM Hh. eapply Ok_ret; [apply peq_refl|now apply HR|]. repeat split; auto. simpl. now exists y. }
  unfold si_left_to_right. destruct (ser cs nm) as [lb|b] eqn:Hl.
  2: { cbn [on_names bind]. apply Herr; auto. apply below_refl. }
  eapply okay_bind with (Q := fun r s' M' g' n' => s' = s /\ n' = n /\ g' = rh_graph h /\ below M M' /\
    match r with Ok (Some i) => M' nm = Some i | _ => True end).
  - apply okay_names_read.
    + now apply steady_now.
    + intros x. cbn [on_names]. eapply Ok_ret; [apply peq_refl|now apply steady_now|]. repeat split. apply below_refl.
    + intros d D1 D2 D3. cbn [on_names]. rewrite (de_left cs cu d nm lb) by auto. eapply Ok_ret; [apply peq_refl|now apply HR|].
      repeat split; auto. destruct (left_now cs cu (r_names d) nm) as [[i|]|x] eqn:Hn; auto. now apply nu_some.
  - intros r s' M' g' n' _ (-> & -> & -> & HM & Hr). destruct r as [[i|]|x]; [| |now apply Herr].
    + eapply Ok_ret; [apply peq_refl|now apply HR|]. repeat split. exact Hr.
    + unfold fresh, si_set. rewrite Hl. set (i := g_seq (rh_ulids h) (g_pos (rh_ulids h))) in *.
      destruct (ser cu i) as [rb|b] eqn:Hru.
      2: { cbn [on_names bind]. now apply Herr. }
      cbn [on_names bind]. eapply Ok_name; [apply peq_refl|now apply HR| | |].
      * intros x. now apply Herr.
      * intros d D1 D2 D3. cbn beta. pose proof (set_grows (SE := SE) cs cu Hcs Hcu nm i lb rb (r_names d) Hl Hru) as Hg.
        destruct (set_body cs cu nm i lb rb (r_names d)) as [x'|x'].
        -- destruct Hg as (Hg & Hn' & Hother). split; auto. split; [eapply ok_grows; eauto|].
           assert (below (nu d) (nu (RDb x' (r_trees d)))) as HB by (eapply grows_below; eauto).
           split; auto. apply (HT (nu d)); auto. intros m Hm.
           destruct (nu d m) eqn:E1; [left; discriminate|]. right. apply HN. simpl. left.
           destruct (seqb nm m) eqn:Q; [now apply seqb_eq|].
           exfalso. apply Hm. destruct (nu (RDb x' (r_trees d)) m) as [j|] eqn:F; auto. apply nu_some in F. simpl in F.
           rewrite Hother in F by (intros ->; rewrite (proj2 (seqb_eq nm nm) eq_refl) in Q; discriminate).
           apply nu_some in F. congruence.
        -- replace (RDb (r_names d) (r_trees d)) with d by (destruct d; reflexivity).
           split; auto. split; auto. split; auto. apply below_refl.
      * intros d D1 D2 D3. cbn beta. pose proof (set_grows (SE := SE) cs cu Hcs Hcu nm i lb rb (r_names d) Hl Hru) as Hg.
        destruct (set_body cs cu nm i lb rb (r_names d)) as [x'|x'].
        -- destruct Hg as (Hg & Hn' & Hother). eapply Ok_ret; [apply peq_refl| |].
           ++ apply HR. eapply below_trans; [exact HM|]. eapply below_trans; [exact D3|]. eapply grows_below; eauto.
           ++ repeat split. simpl. apply nu_some. exact Hn'.
        -- replace (RDb (r_names d) (r_trees d)) with d by (destruct d; reflexivity). apply Herr; auto. eapply below_trans; eauto.
Qed.

(** What remove_node and remove_edge look up *)
Definition missed (names : list S) M (x : err) : Prop :=
  match x with
  | NameIndexStorageError _ => True
  | NameNotFound m => first_unknown seqb (kn M) names = Some m
  | GraphStorageError _ => False
  end.
Lemma kn_first M nm : T M -> first_unknown seqb (kn M) [nm] = match M nm with Some _ => None | None => Some nm end.
Proof.
  intros HM. unfold first_unknown. simpl. destruct (existsb (seqb nm) (kn M)) eqn:Q; simpl.
  - apply existsb_exists in Q. destruct Q as (x & Hx & Q). apply seqb_eq in Q. subst x. apply Hkn in Hx; auto. now destruct (M nm).
  - destruct (M nm) as [i|] eqn:Q1; auto. exfalso. assert (In nm (kn M)) as Hx by (apply Hkn; auto; congruence).
    assert (existsb (seqb nm) (kn M) = true); [|congruence]. apply existsb_exists. exists nm. split; auto. now apply seqb_eq.
Qed.
Lemma kn_below M M' names : T M -> T M' -> below M M' -> first_unknown seqb (kn M) names = None -> first_unknown seqb (kn M') names = None.
Proof.
  intros HM HM' HB. induction names as [|x names IH]; auto. change (x :: names) with ([x] ++ names). rewrite !first_unknown_app.
  rewrite !kn_first by auto. destruct (M x) as [i|] eqn:Q; [|discriminate]. now rewrite (HB _ _ Q).
Qed.

Definition looked {A} (good : ids -> A -> Prop) (names : list S) h s n : result err A -> list call -> ids -> handle KUlid -> nat -> Prop :=
  fun r s' M' g' n' => s' = s /\ n' = n /\ g' = rh_graph h /\
    match r with
    | Ok a => good M' a /\ first_unknown seqb (kn M') names = None
    | Err x => missed names M' x
    end.

Lemma okay_entity R e h s M n : T M -> steady R (flags s) M ->
  okay (looked (fun M i => den M e i) (name_of e) h s n) R (rs_lookup_entity cs cu e) s M (rh_graph h) n.
Proof.
  intros HM HR. destruct e as [nm|i]; cbn [rs_lookup_entity bind].
  2: { eapply Ok_ret; [apply peq_refl|now apply steady_now|]. repeat split. }
  unfold si_left_to_right. destruct (ser cs nm) as [lb|b] eqn:Hl.
  2: { cbn [on_names bind]. eapply Ok_ret; [apply peq_refl|now apply steady_now|]. repeat split; auto. }
  eapply okay_bind with (Q := fun r s' M' g' n' => s' = s /\ n' = n /\ g' = rh_graph h /\ below M M' /\ T M' /\
    match r with Ok oi => M' nm = oi | _ => True end).
  - apply okay_names_read.
    + now apply steady_now.
    + intros x. cbn [on_names]. eapply Ok_ret; [apply peq_refl|now apply steady_now|]. repeat split; auto. apply below_refl.
    + intros d D1 D2 D3. cbn [on_names]. rewrite (de_left cs cu d nm lb) by auto. eapply Ok_ret; [apply peq_refl|now apply HR|].
      repeat split; auto. destruct (left_now cs cu (r_names d) nm) as [[i|]|x] eqn:Hn; auto; [now apply nu_some|].
      unfold name_now. now rewrite Hn.
  - intros r s' M' g' n' HR' (-> & -> & -> & HB & HM' & Hr). eapply Ok_ret; [apply peq_refl|exact HR'|].
    split; auto. split; auto. split; auto. destruct r as [[i|]|x]; cbn [missed name_of]; rewrite ?kn_first, ?Hr by auto; auto.
Qed.

Lemma okay_entities R t h s M n : T M -> steady R (flags s) M ->
  okay (looked (fun M u => den3 M t u) (names_of t) h s n) R (try_map_prog (rs_lookup_entity cs cu) t) s M (rh_graph h) n.
Proof.
  intros HM HR. unfold try_map_prog, bind_ok, names_of.
  eapply okay_bind; [apply (okay_grows _ _ _ _ _ _ _ HM (okay_entity R (sub t) h s M n HM HR))|].
  intros r s' M1 g' n' R1 (B1 & T1 & -> & -> & -> & H1). destruct r as [i|x].
  2: { eapply Ok_ret; [apply peq_refl|exact R1|]. repeat split. unfold missed in *. destruct x; auto. now rewrite first_unknown_app, H1. }
  destruct H1 as [D1 F1].
  eapply okay_bind; [apply (okay_grows _ _ _ _ _ _ _ T1 (okay_entity R (pred t) h s M1 n T1 (steady_below _ _ _ _ B1 HR)))|].
  intros r s' M2 g' n' R2 (B2 & T2 & -> & -> & -> & H2). pose proof (kn_below _ _ _ T1 T2 B2 F1) as F1'. destruct r as [j|x].
  2: { eapply Ok_ret; [apply peq_refl|exact R2|]. repeat split. unfold missed in *. destruct x; auto.
       now rewrite first_unknown_app, F1', first_unknown_app, H2. }
  destruct H2 as [D2 F2].
  eapply okay_bind; [apply (okay_grows _ _ _ _ _ _ _ T2 (okay_entity R (obj t) h s M2 n T2 (steady_below _ _ _ _ (below_trans _ _ _ B1 B2) HR)))|].
  intros r s' M3 g' n' R3 (B3 & T3 & -> & -> & -> & H3). pose proof (kn_below _ _ _ T2 T3 B3 F1') as F1''. pose proof (kn_below _ _ _ T2 T3 B3 F2) as F2'.
  destruct r as [l|x].
  2: { eapply Ok_ret; [apply peq_refl|exact R3|]. repeat split. unfold missed in *. destruct x; auto.
       now rewrite first_unknown_app, F1'', first_unknown_app, F2', H3. }
  destruct H3 as [D3 F3]. eapply Ok_ret; [apply peq_refl|exact R3|]. split; auto. split; auto. split; auto.
  split; [|now rewrite first_unknown_app, F1'', first_unknown_app, F2'].
  split; [exact (den_below _ _ _ _ (below_trans _ _ _ B2 B3) D1)|]. split; [exact (den_below _ _ _ _ B3 D2)|exact D3].
Qed.

Lemma okay_create3 R t h s M n : T M -> incl (names_of t) N -> steady R (flags s) M ->
  okay (found (fun M u => den3 M t u) index_failed h s n) R (rs_create3 cs cu t h) s M (rh_graph h) n.
Proof.
  intros HM HN HR.
  assert (incl (name_of (sub t)) N /\ incl (name_of (pred t)) N /\ incl (name_of (obj t)) N) as (N1 & N2 & N3).
  { repeat split; intros x Hx; apply HN; unfold names_of; rewrite !in_app_iff; auto. }
  unfold rs_create3, bind_h.
  eapply okay_bind; [apply (okay_grows _ _ _ _ _ _ _ HM (okay_lookup R (sub t) h s M n N1 HR))|].
  intros [r h1] s' M1 g' n' R1 (B1 & T1 & -> & -> & -> & G1 & H1). cbn [fst snd] in *. destruct r as [i|x].
  2: { eapply Ok_ret; [apply peq_refl|exact R1|]. repeat split; auto. }
  rewrite <- G1.
  eapply okay_bind; [apply (okay_grows _ _ _ _ _ _ _ T1 (okay_lookup R (pred t) h1 s M1 n N2 (steady_below _ _ _ _ B1 HR)))|].
  intros [r h2] s' M2 g' n' R2 (B2 & T2 & -> & -> & -> & G2 & H2). cbn [fst snd] in *. destruct r as [j|x].
  2: { eapply Ok_ret; [apply peq_refl|exact R2|]. repeat split; auto; cbn [snd]; congruence. }
  rewrite <- G2.
  eapply okay_bind; [apply (okay_grows _ _ _ _ _ _ _ T2 (okay_lookup R (obj t) h2 s M2 n N3 (steady_below _ _ _ _ (below_trans _ _ _ B1 B2) HR)))|].
  intros [r h3] s' M3 g' n' R3 (B3 & T3 & -> & -> & -> & G3 & H3). cbn [fst snd] in *. destruct r as [l|x].
  2: { eapply Ok_ret; [apply peq_refl|exact R3|]. repeat split; auto; cbn [snd]; congruence. }
  eapply Ok_ret; [apply peq_refl|exact R3|]. split; auto. split; auto. split; [congruence|]. split; [cbn [snd]; congruence|].
  split; [exact (den_below _ _ _ _ (below_trans _ _ _ B2 B3) H1)|]. split; [exact (den_below _ _ _ _ B3 H2)|exact H3].
Qed.

(** ** Calls on the graph *)
Definition single (c : cutting) (o : rop) h : PH unit :=
  match o with
  | RInsertNode e p => rs_insert_node cs cu cn e p h
  | RInsertEdge t p => rs_insert_edge cs cu ce t p h
  | RRemoveNode e => rl_remove_node cs cu c e h
  | RRemoveEdge t => rs_remove_edge cs cu t h
  | RMergeNode e p => rs_merge_node cs cu cn mn e p h
  | RMergeEdge t p => rs_merge_edge cs cu ce me t p h
  | _ => Ret (Ok tt, h)
  end.
Definition is_single (o : rop) : Prop := match o with RExtend _ | RMerge _ => False | _ => True end.
Definition trues (l : list rop) : list (rop * bool) := map (fun o => (o, true)) l.

Definition said (r : result err unit) : answer := match r with Ok _ => Ok tt | Err e => Err (LeftE e) end.
Definition did (o : rop) (n : nat) s : result err unit * rhandle -> list call -> ids -> handle KUlid -> nat -> Prop :=
  fun rh s' M' g' n' => g' = rh_graph (snd rh) /\ n <= n' /\
    match fst rh with
    | Ok _ => flags s' = flags s ++ [(o, true)] /\ said (fst rh) = r_answer seqb (kn M') o
    | Err (NameIndexStorageError _) => flags s' = flags s
    | Err (NameNotFound _) => flags s' = flags s /\ said (fst rh) = r_answer seqb (kn M') o
    | Err (GraphStorageError _) => flags s' = flags s ++ [(o, false)]
    end.

Lemma okay_graph R ro c o h s M n : stands M ro o -> steady R (flags s) M -> (forall b, steady R (flags s ++ [(ro, b)]) M) ->
  Ok tt = r_answer (SE := SE) (BE := BE) seqb (kn M) ro ->
  okay (did ro n s) R (graph_call (rawc c o) h) s M (rh_graph h) (draws o + n).
Proof.
  intros Hst R0 R1 Ha. unfold graph_call. eapply Ok_call; [apply peq_refl|now apply steady_now|exact Hst|lia|].
  intros [r g']. cbn [fst snd]. eapply Ok_ret; [apply peq_refl|rewrite flags_app; apply (steady_now _ _ _ (R1 _))|].
  unfold did. cbn [fst snd rh_graph]. split; auto. split; [lia|]. rewrite flags_app. destruct r as [[]|y]; simpl; auto.
Qed.

Lemma okay_single R c o h s M n : is_single o -> T M -> incl (given o) N -> steady R (flags s) M -> (forall b, steady R (flags s ++ [(o, b)]) M) ->
  okay (did o n s) R (single c o h) s M (rh_graph h) (r_draws o + n).
Proof.
  intros Ho HM HN R0 R1.
  assert (forall A (p : PH A) (good : ids -> A -> Prop) (o1 : A -> op),
    (forall n, okay (found good index_failed h s n) R p s M (rh_graph h) n) ->
    (forall M a, good M a -> stands M o (o1 a)) -> (forall a, draws (o1 a) = r_draws o) ->
    (forall M, Ok tt = r_answer (SE := SE) (BE := BE) seqb (kn M) o) ->
    okay (did o n s) R (bind_h p (fun a => graph_call (rawc c (o1 a)))) s M (rh_graph h) (r_draws o + n)) as Hadd.
  { intros A p good o1 Hp Hs Hd Ha. unfold bind_h.
    eapply okay_bind; [apply (okay_grows _ _ _ _ _ _ _ HM (Hp (r_draws o + n)))|].
    intros [r h1] s' M1 g' n' R' (B1 & T1 & -> & -> & -> & G1 & H1). cbn [fst snd] in *. destruct r as [a|x].
    - rewrite <- G1, <- (Hd a). apply okay_graph; auto; [eapply steady_below; eauto|intros b; eapply steady_below; eauto].
    - eapply Ok_ret; [apply peq_refl|exact R'|]. unfold did. cbn [fst snd]. split; auto. split; [lia|].
      destruct H1 as [y ->]. reflexivity. }
  assert (forall A (p : prog rdb SE (result err A)) (good : ids -> A -> Prop) (o1 : A -> op) names,
    (forall n, okay (looked good names h s n) R p s M (rh_graph h) n) ->
    (forall M a, good M a -> stands M o (o1 a)) -> (forall a, draws (o1 a) = r_draws o) ->
    (forall M, r_answer (SE := SE) (BE := BE) seqb (kn M) o = match first_unknown seqb (kn M) names with Some x => Err (LeftE (NameNotFound x)) | None => Ok tt end) ->
    okay (did o n s) R (bind_h (bind p (fun r => Ret (r, h))) (fun a => graph_call (rawc c (o1 a)))) s M (rh_graph h) (r_draws o + n)) as Hrem.
  { intros A p good o1 names Hp Hs Hd Ha. unfold bind_h.
    eapply okay_peq; [apply bind_assoc|].
    eapply okay_bind; [apply (okay_grows _ _ _ _ _ _ _ HM (Hp (r_draws o + n)))|].
    intros r s' M1 g' n' R' (B1 & T1 & -> & -> & -> & H1). cbn [bind fst snd] in *. destruct r as [a|x].
    - destruct H1 as [H1 H2]. rewrite <- (Hd a). apply okay_graph; auto; [eapply steady_below; eauto|intros b; eapply steady_below; eauto|].
      now rewrite Ha, H2.
    - eapply Ok_ret; [apply peq_refl|exact R'|]. unfold did. cbn [fst snd]. split; auto. split; [lia|].
      destruct x as [y|y|y]; simpl in *; auto; try contradiction. split; auto. now rewrite Ha, H1. }
  destruct o as [e p|t p|e|t|e p|t p|q|q]; try contradiction; cbn [single given] in *.
  - apply (Hadd I (rs_lookup_or_create cs cu e h) (fun M i => den M e i) (fun i => OInsertNode i p)); auto.
    + intros m. now apply okay_lookup.
    + intros M1 a H. simpl. eauto.
  - apply (Hadd (triple I) (rs_create3 cs cu t h) (fun M i => den3 M t i) (fun i => OInsertEdge i p)); auto.
    + intros m. now apply okay_create3.
    + intros M1 a H. simpl. eauto.
  - apply (Hrem I (rs_lookup_entity cs cu e) (fun M i => den M e i) (fun i => ORemoveNode i) (name_of e)); auto.
    + intros m. now apply okay_entity.
    + intros M1 a H. simpl. eauto.
  - apply (Hrem (triple I) (try_map_prog (rs_lookup_entity cs cu) t) (fun M i => den3 M t i) (fun i => ORemoveEdge i) (names_of t)); auto.
    + intros m. now apply okay_entities.
    + intros M1 a H. simpl. eauto.
  - apply (Hadd I (rs_lookup_or_create cs cu e h) (fun M i => den M e i) (fun i => OMergeNode i p)); auto.
    + intros m. now apply okay_lookup.
    + intros M1 a H. simpl. eauto.
  - apply (Hadd (triple I) (rs_create3 cs cu t h) (fun M i => den3 M t i) (fun i => OMergeEdge i p)); auto.
    + intros m. now apply okay_create3.
    + intros M1 a H. simpl. eauto.
Qed.

(** ** Loops *)
Definition cut_at (l : list rop) (j : nat) (fl : list (rop * bool)) : Prop :=
  fl = trues (firstn j l) \/ exists o, nth_error l j = Some o /\ fl = trues (firstn j l) ++ [(o, false)].
Lemma cut_none l : cut_at l 0 [].
Proof. now left. Qed.
Lemma cut_all l : cut_at l (length l) (trues l).
Proof. left. now rewrite firstn_all. Qed.
Lemma cut_cons o l j fl : cut_at l j fl -> cut_at (o :: l) (Datatypes.S j) ((o, true) :: fl).
Proof. intros [->|(x & H1 & ->)]; [now left|]. right. exists x. auto. Qed.
Lemma cut_app a l j fl : cut_at l j fl -> cut_at (a ++ l) (length a + j) (trues a ++ fl).
Proof. intros H. induction a as [|o a IH]; simpl; auto. now apply cut_cons. Qed.
Lemma cut_front a b j fl : j < length a -> cut_at a j fl -> cut_at (a ++ b) j fl.
Proof.
  intros Hj [->|(x & H1 & ->)]; [left|right].
  - rewrite firstn_app. replace (j - length a) with 0 by lia. simpl. now rewrite app_nil_r.
  - exists x. rewrite nth_error_app1 by auto. split; auto. rewrite firstn_app. replace (j - length a) with 0 by lia. simpl. now rewrite app_nil_r.
Qed.

Definition looped (e0 : option E) (l : list rop) (n : nat) s : answer * rhandle -> list call -> ids -> handle KUlid -> nat -> Prop :=
  fun rh s' M' g' n' => g' = rh_graph (snd rh) /\ n <= n' /\ exists fl, flags s' = flags s ++ fl /\
    match fst rh with
    | Ok _ => e0 = None /\ fl = trues l
    | Err (RightE e) => e0 = Some e /\ fl = trues l
    | Err (LeftE e) => storage e /\ exists j, j < length l /\ cut_at l j fl
    end.

Lemma okay_more {A} R (Q : A -> list call -> ids -> handle KUlid -> nat -> Prop) p s M g m m' : m <= m' ->
  (forall a s M g m m', m <= m' -> Q a s M g m -> Q a s M g m') -> okay Q R p s M g m -> okay Q R p s M g m'.
Proof.
  intros Hm HQ H. revert m' Hm.
  induction H as [p a s M g n H1 H2 H3|p u k e s M g n H1 H2 _ IHe H3 _ IHk|p ro c o F s M g n H1 H2 H3 H4 _ IH]; intros m' Hm.
  - eapply Ok_ret; eauto.
  - eapply Ok_name; eauto.
  - eapply Ok_call; eauto; [lia|]. intros rh. apply IH. lia.
Qed.

Lemma okay_for_each {A} R (mk : A -> rop) (step : A -> rhandle -> PH unit) n (l : list (result E A)) :
  (forall a, single_add (mk a)) -> (forall a h, step a h = single ([], []) (mk a) h) ->
  forall h s M, T M -> incl (flat_map given (map mk (before_error l))) N ->
  (forall j fl, cut_at (map mk (before_error l)) j fl -> steady R (flags s ++ fl) M) ->
  okay (looped (first_error l) (map mk (before_error l)) n s) R (rs_for_each step l h) s M (rh_graph h)
    (sum (map r_draws (map mk (before_error l))) + n).
Proof.
  intros Hmk Hstep. induction l as [|[a|e] l IH]; intros h s M HM HN HR.
  - simpl. eapply Ok_ret; [apply peq_refl| |].
    + specialize (HR 0 [] (cut_none _)). rewrite app_nil_r in HR. now apply steady_now.
    + split; auto. split; auto. exists []. now rewrite app_nil_r.
  - cbn [rs_for_each before_error map first_error]. rewrite Hstep. cbn [before_error map flat_map] in *.
    assert (incl (given (mk a)) N /\ incl (flat_map given (map mk (before_error l))) N) as [N1 N2].
    { split; intros x Hx; apply HN; simpl; apply in_app_iff; auto. }
    pose proof (HR 0 [] (cut_none _)) as R0. rewrite app_nil_r in R0.
    assert (forall b, steady R (flags s ++ [(mk a, b)]) M) as R1.
    { intros [|]; [apply (HR 1); now left|]. apply (HR 0). right. exists (mk a). auto. }
    cbn [sum fold_right]. change (fold_right Nat.add 0) with sum. rewrite <- Nat.add_assoc.
    assert (is_single (mk a)) as Hsi by (specialize (Hmk a); destruct (mk a); simpl in *; tauto).
    eapply okay_bind; [apply (okay_grows _ _ _ _ _ _ _ HM (okay_single R ([], []) (mk a) h s M _ Hsi HM N1 R0 R1))|].
    intros [r h'] s' M' g' n' HR' (B' & T' & -> & Hn & Hd). cbn [fst snd] in *. destruct r as [[]|y].
    + destruct Hd as [Hfl _].
      assert (forall j fl, cut_at (map mk (before_error l)) j fl -> steady R (flags s' ++ fl) M') as HR2.
      { intros j fl Hc. rewrite Hfl, <- app_assoc. eapply steady_below; [exact B'|]. apply (HR (Datatypes.S j)). now apply cut_cons. }
      specialize (IH h' s' M' T' N2 HR2).
      eapply okay_mono; [| |eapply okay_more; [exact Hn| |exact IH]]; [|auto|].
      * intros [r h2] s2 M2 g2 n2 _ (H1 & H2 & fl & H3 & H4). cbn [fst snd] in *. split; auto. split; auto.
        exists ((mk a, true) :: fl). split; [now rewrite H3, Hfl, <- app_assoc|]. cbn [fst].
        destruct r as [[]|[e|e]].
        -- destruct H4 as [H4 ->]. auto.
        -- destruct H4 as (H4 & j & Hj & Hc). split; auto. exists (Datatypes.S j). split; [simpl; lia|]. now apply cut_cons.
        -- destruct H4 as [H4 ->]. auto.
      * intros rh s2 M2 g2 m m' Hm (H1 & H2 & H3). split; auto. split; auto. lia.
    + eapply Ok_ret; [apply peq_refl|exact HR'|]. split; auto. cbn [fst snd]. split; [lia|].
      destruct y as [y|y|y].
      * exists []. rewrite app_nil_r. split; auto. split; [exact Logic.I|]. exists 0. split; [simpl; lia|]. apply cut_none.
      * exists [(mk a, false)]. split; auto. split; [exact Logic.I|]. exists 0. split; [simpl; lia|]. right. exists (mk a). auto.
      * destruct Hd as [_ Hd]. exfalso. specialize (Hmk a). destruct (mk a); simpl in *; try contradiction; discriminate.
  - simpl. eapply Ok_ret; [apply peq_refl| |].
    + specialize (HR 0 [] (cut_none _)). rewrite app_nil_r in HR. now apply steady_now.
    + split; auto. split; auto. exists []. now rewrite app_nil_r.
Qed.

Lemma looped_more e0 l n s : forall a s' M g m m', m <= m' -> looped e0 l n s a s' M g m -> looped e0 l n s a s' M g m'.
Proof. intros a s' M g m m' Hm (H1 & H2 & H3). split; auto. split; auto. lia. Qed.

Lemma okay_bulk R (mkn : ent * NP -> rop) (mke : triple ent * EP -> rop)
    (fn : ent -> NP -> rhandle -> PH unit) (fe : triple ent -> EP -> rhandle -> PH unit) n (q : rdf_source S NP EP E) h s M :
  (forall a, single_add (mkn a)) -> (forall a, single_add (mke a)) ->
  (forall a h, fn (fst a) (snd a) h = single ([], []) (mkn a) h) -> (forall a h, fe (fst a) (snd a) h = single ([], []) (mke a) h) ->
  let l := map mkn (used_nodes q) ++ map mke (used_edges q) in
  T M -> incl (flat_map given l) N -> (forall j fl, cut_at l j fl -> steady R (flags s ++ fl) M) ->
  okay (looped (rdf_source_error q) l n s) R (rs_bulk fn fe q h) s M (rh_graph h) (sum (map r_draws l) + n).
Proof.
  intros Hn He Hfn Hfe. cbv zeta. unfold used_nodes, used_edges, rdf_source_error. intros HM HN HR.
  set (l1 := map mkn (before_error (rs_nodes q))) in *.
  rewrite map_app, sum_app, <- Nat.add_assoc. rewrite flat_map_app in HN. unfold rs_bulk.
  set (l2 := map mke match first_error (rs_nodes q) with Some _ => [] | None => before_error (rs_edges q) end) in *.
  assert (incl (flat_map given l1) N /\ incl (flat_map given l2) N) as [N1 N2].
  { split; intros x Hx; apply HN, in_app_iff; auto. }
  assert (forall j fl, cut_at l1 j fl -> steady R (flags s ++ fl) M) as HR1.
  { intros j fl Hc. destruct (Nat.lt_ge_cases j (length l1)) as [Hj|Hj].
    - apply (HR j). now apply cut_front.
    - assert (fl = trues l1) as ->.
      { destruct Hc as [->|(x & Hx & _)]; [now rewrite firstn_all2|]. assert (nth_error l1 j <> None) as Hx' by congruence. apply nth_error_Some in Hx'. lia. }
      apply (HR (length l1 + 0)). rewrite <- (app_nil_r (trues l1)). apply cut_app, cut_none. }
  eapply okay_bind.
  { apply (okay_grows _ _ _ _ _ _ _ HM (okay_for_each R mkn (fun ip => fn (fst ip) (snd ip)) (sum (map r_draws l2) + n) (rs_nodes q) Hn Hfn h s M HM N1 HR1)). }
  intros [r h'] s' M' g' n' HR' (B' & T' & -> & Hn' & fl & Hfl & Hr). cbn [fst snd] in *. destruct r as [[]|[e|e]].
  - destruct Hr as [Hnone ->]. fold l1 in Hfl.
    assert (l2 = map mke (before_error (rs_edges q))) as Hl2 by (unfold l2; now rewrite Hnone). clearbody l2. subst l2. rewrite Hnone.
    assert (forall j fl, cut_at (map mke (before_error (rs_edges q))) j fl -> steady R (flags s' ++ fl) M') as HR2.
    { intros j fl Hc. rewrite Hfl, <- app_assoc. eapply steady_below; [exact B'|]. apply (HR (length l1 + j)). now apply cut_app. }
    pose proof (okay_for_each R mke (fun te => fe (fst te) (snd te)) n (rs_edges q) He Hfe h' s' M' T' N2 HR2) as H2.
    eapply okay_mono; [| |eapply okay_more; [exact Hn'| |exact H2]]; [|auto|apply looped_more].
    intros [r h2] s2 M2 g2 n2 _ (H3 & H4 & fl & H5 & H6). cbn [fst snd] in *. split; auto. split; auto.
    exists (trues l1 ++ fl). split; [now rewrite H5, Hfl, <- app_assoc|]. cbn [fst].
    assert (forall l2, trues (l1 ++ l2) = trues l1 ++ trues l2) as Ha by (intros l2; apply map_app). rewrite Ha.
    destruct r as [[]|[e|e]].
    + destruct H6 as [H6 ->]. auto.
    + destruct H6 as (H6 & j & Hj & Hc). split; auto. exists (length l1 + j). split; [rewrite app_length; lia|]. now apply cut_app.
    + destruct H6 as [H6 ->]. auto.
  - destruct Hr as (Hst & j & Hj & Hc). eapply Ok_ret; [apply peq_refl|exact HR'|]. split; auto. cbn [fst snd]. split; [lia|].
    exists fl. split; auto. split; auto. exists j. fold l1 in Hj, Hc. split; [rewrite app_length; lia|]. now apply cut_front.
  - destruct Hr as [Hsome ->]. eapply Ok_ret; [apply peq_refl|exact HR'|]. split; auto. cbn [fst snd]. split; [lia|].
    exists (trues l1). split; auto. unfold l2. rewrite Hsome. simpl. now rewrite app_nil_r.
Qed.

(** ** Calls *)
Definition called M (o : rop) (r : answer) (fl : list (rop * bool)) : Prop :=
  if r_failed r then exists j, j < length (parts o) /\ cut_at (parts o) j fl
  else exists M0, T M0 /\ below M0 M /\ r = r_answer seqb (kn M0) o /\
       fl = match r with Err (LeftE _) => [] | _ => trues (parts o) end.
Lemma called_below M M' o r fl : below M M' -> called M o r fl -> called M' o r fl.
Proof.
  intros HB. unfold called. destruct (r_failed r); auto. intros (M0 & H1 & H2 & H3). exists M0. split; auto. split; auto. eapply below_trans; eauto.
Qed.
Definition ended (o : rop) n s : answer * rhandle -> list call -> ids -> handle KUlid -> nat -> Prop :=
  fun rh s' M' g' n' => g' = rh_graph (snd rh) /\ n <= n' /\ exists fl, flags s' = flags s ++ fl /\ called M' o (fst rh) fl.

Lemma okay_apply R c o h s M n : T M -> incl (given o) N -> (forall j fl, cut_at (parts o) j fl -> steady R (flags s ++ fl) M) ->
  okay (ended o n s) R (rl_apply cs cu cn ce mn me c o h) s M (rh_graph h) (r_draws o + n).
Proof.
  intros HM HN HR.
  assert (is_single o -> parts o = [o] -> rl_apply cs cu cn ce mn me c o h = left_out (single c o h) ->
    okay (ended o n s) R (rl_apply cs cu cn ce mn me c o h) s M (rh_graph h) (r_draws o + n)) as Hsingle.
  { intros Hs Hp ->. rewrite Hp in HR. pose proof (HR 0 [] (cut_none _)) as R0. rewrite app_nil_r in R0.
    assert (forall b, steady R (flags s ++ [(o, b)]) M) as R1.
    { intros [|]; [apply (HR 1); now left|]. apply (HR 0). right. exists o. auto. }
    unfold left_out. eapply okay_bind; [apply (okay_grows _ _ _ _ _ _ _ HM (okay_single R c o h s M n Hs HM HN R0 R1))|].
    intros [r h'] s' M' g' n' HR' (B' & T' & -> & Hn' & Hd). cbn [fst snd] in *. eapply Ok_ret; [apply peq_refl|exact HR'|].
    split; auto. cbn [fst snd]. split; auto. unfold called. destruct r as [[]|[y|y|y]]; cbn [r_failed].
    - destruct Hd as [Hf Ha]. exists [(o, true)]. split; auto. exists M'. split; auto. split; [apply below_refl|]. split; [exact Ha|].
      now rewrite Hp.
    - exists []. rewrite app_nil_r. split; auto. exists 0. rewrite Hp. split; [simpl; lia|]. apply cut_none.
    - exists [(o, false)]. split; auto. exists 0. rewrite Hp. split; [simpl; lia|]. right. exists o. auto.
    - destruct Hd as [Hf Ha]. exists []. rewrite app_nil_r. split; auto. exists M'. split; auto. split; [apply below_refl|]. split; auto. }
  assert (forall mkn mke fn fe (q : rdf_source S NP EP E), rl_apply cs cu cn ce mn me c o h = rs_bulk fn fe q h ->
    parts o = map mkn (used_nodes q) ++ map mke (used_edges q) ->
    (forall M, r_answer (SE := SE) (BE := BE) seqb (kn M) o = match rdf_source_error q with Some e => Err (RightE e) | None => Ok tt end) ->
    (forall a, single_add (mkn a)) -> (forall a, single_add (mke a)) ->
    (forall a h, fn (fst a) (snd a) h = single ([], []) (mkn a) h) -> (forall a h, fe (fst a) (snd a) h = single ([], []) (mke a) h) ->
    okay (ended o n s) R (rl_apply cs cu cn ce mn me c o h) s M (rh_graph h) (r_draws o + n)) as Hbulk.
  { intros mkn mke fn fe q -> Hp Ha H1 H2 H3 H4.
    pose proof (okay_bulk R mkn mke fn fe n q h s M H1 H2 H3 H4) as Hb. cbv zeta in Hb. rewrite <- Hp in Hb.
    rewrite given_parts, draws_parts in Hb. specialize (Hb HM HN HR). apply okay_grows in Hb; auto.
    eapply okay_mono; [| |exact Hb]; auto.
    intros [r h'] s' M' g' n' _ (B' & T' & Hg & Hn' & fl & Hf & Hr). cbn [fst snd] in *. split; auto. split; auto. exists fl. split; auto.
    unfold called. cbn [fst]. destruct r as [[]|[e|e]].
    - destruct Hr as [He ->]. cbn [r_failed]. exists M'. split; auto. split; [apply below_refl|]. rewrite Ha, He. auto.
    - destruct Hr as (Hst & Hr). destruct e; simpl in *; auto; contradiction.
    - destruct Hr as [He ->]. cbn [r_failed]. exists M'. split; auto. split; [apply below_refl|]. rewrite Ha, He. auto. }
  destruct o as [e p|t p|e|t|e p|t p|q|q].
  1-6: apply Hsingle; simpl; auto.
  - apply (Hbulk (fun ip => RInsertNode (fst ip) (snd ip)) (fun te => RInsertEdge (fst te) (snd te)) (rs_insert_node cs cu cn) (rs_insert_edge cs cu ce) q);
      simpl; auto.
  - apply (Hbulk (fun ip => RMergeNode (fst ip) (snd ip)) (fun te => RMergeEdge (fst te) (snd te)) (rs_merge_node cs cu cn mn) (rs_merge_edge cs cu ce me) q);
      simpl; auto.
Qed.

(** ** Callers *)
Fixpoint logged M (l : list rop) (rs : list answer) (fl : list (rop * bool)) : Prop :=
  match l, rs with
  | [], [] => fl = []
  | o :: l', r :: rs' => exists f1 f2, fl = f1 ++ f2 /\ logged M l' rs' f2 /\ called M o r f1
  | _, _ => False
  end.
Definition so_far M (l : list rop) (fl : list (rop * bool)) : Prop :=
  exists l1 l2 rs f1 f2, l = l1 ++ l2 /\ fl = f1 ++ f2 /\ logged M l1 rs f1 /\
    match l2 with [] => f2 = [] | o :: _ => exists j, cut_at (parts o) j f2 end.
Lemma logged_below M M' l : below M M' -> forall rs fl, logged M l rs fl -> logged M' l rs fl.
Proof.
  intros HB. induction l as [|o l IH]; intros [|r rs] fl; simpl; auto. intros (f1 & f2 & H1 & H2 & H3). exists f1, f2. split; auto. split; auto.
  eapply called_below; eauto.
Qed.
Lemma so_far_below M M' l fl : below M M' -> so_far M l fl -> so_far M' l fl.
Proof. intros HB (l1 & l2 & rs & f1 & f2 & H1 & H2 & H3 & H4). exists l1, l2, rs, f1, f2. split; auto. split; auto. split; auto. eapply logged_below; eauto. Qed.
Lemma so_far_now M o l j fl : cut_at (parts o) j fl -> so_far M (o :: l) fl.
Proof. intros H. exists [], (o :: l), [], [], fl. split; auto. split; auto. split; [reflexivity|]. eauto. Qed.
Lemma so_far_later M o l r f1 fl : called M o r f1 -> so_far M l fl -> so_far M (o :: l) (f1 ++ fl).
Proof.
  intros Hc (l1 & l2 & rs & f2 & f3 & -> & -> & H1 & H2). exists (o :: l1), l2, (r :: rs), (f1 ++ f2), f3. split; auto.
  split; [now rewrite app_assoc|]. split; [|exact H2]. simpl. exists f1, f2. auto.
Qed.
Lemma so_far_end M l rs fl : logged M l rs fl -> so_far M l fl.
Proof. intros H. exists l, [], rs, fl, []. rewrite !app_nil_r. auto. Qed.

Definition through (l : list rop) n s : list answer * rhandle -> list call -> ids -> handle KUlid -> nat -> Prop :=
  fun rsh s' M' g' n' => g' = rh_graph (snd rsh) /\ n <= n' /\ exists fl, flags s' = flags s ++ fl /\ logged M' l (fst rsh) fl.
Definition going (l : list rop) (f0 : list (rop * bool)) : list (rop * bool) -> ids -> Prop :=
  fun f M => exists fl, f = f0 ++ fl /\ so_far M l fl.

Lemma okay_history (cuts : nat -> cutting) n l : forall j h s M, T M -> incl (flat_map given l) N ->
  okay (through l n s) (going l (flags s)) (rl_history cs cu cn ce mn me cuts j l h) s M (rh_graph h) (sum (map r_draws l) + n).
Proof.
  induction l as [|o l IH]; intros j h s M HM HN.
  - simpl. eapply Ok_ret; [apply peq_refl| |].
    + exists []. rewrite app_nil_r. split; auto. now apply (so_far_end M [] []).
    + split; auto. split; auto. exists []. rewrite app_nil_r. split; auto. reflexivity.
  - cbn [rl_history sum map fold_right]. change (fold_right Nat.add 0) with sum. rewrite <- Nat.add_assoc. simpl in HN.
    assert (incl (given o) N /\ incl (flat_map given l) N) as [N1 N2] by (split; intros x Hx; apply HN, in_app_iff; auto).
    assert (forall j fl, cut_at (parts o) j fl -> steady (going (o :: l) (flags s)) (flags s ++ fl) M) as HR.
    { intros i fl Hc M' _. exists fl. split; auto. eapply so_far_now; eauto. }
    eapply okay_bind; [apply (okay_grows _ _ _ _ _ _ _ HM (okay_apply _ (cuts j) o h s M _ HM N1 HR))|].
    intros [r h'] s' M' g' n' HR' (B' & T' & -> & Hn' & f1 & Hf1 & Hc). cbn [fst snd] in *.
    pose proof (IH (Datatypes.S j) h' s' M' T' N2) as H2. apply okay_grows in H2; auto.
    apply okay_R_grows in H2.
    eapply okay_bind with (Q := fun a s2 M2 g2 n2 => below M' M2 /\ through l n s' a s2 M2 g2 n2).
    + eapply okay_mono; [| |eapply okay_more; [exact Hn'| |exact H2]].
      * intros a s2 M2 g2 n2 _ (H3 & H4 & H5). auto.
      * intros f M2 (HB & fl & -> & H3). exists (f1 ++ fl). split; [now rewrite Hf1, app_assoc|]. eapply so_far_later; eauto.
        eapply called_below; eauto.
      * intros a s2 M2 g2 m m' Hm (H3 & H4 & H5 & H6 & H7). split; auto. split; auto. split; auto. split; auto. lia.
    + intros [rs h2] s2 M2 g2 n2 R2 (B2 & Hg2 & Hn2 & fl & Hfl & Hl). cbn [fst snd] in *. eapply Ok_ret; [apply peq_refl|exact R2|].
      split; auto. cbn [fst snd]. split; auto. exists (f1 ++ fl). split; [now rewrite Hfl, Hf1, app_assoc|].
      simpl. exists f1, fl. split; auto. split; auto. eapply called_below; eauto.
Qed.
End Okay.
