(** Calls that add to an RdfTripleStore over sled, among other callers. *)
From Coq Require Import Arith NArith List Bool Sorted Lia.
From Verif Require Import Bytes BytesFacts OMap OMapFacts Core IdType IdTypeFacts Store Mem Spec GenSpec
  CodecFacts ListFacts MemSim History Prog ProgFacts Sled SledHistory SledSched SledDb SledOps SledBulk
  SledRun SledRead SledTop SledMain SledCrash SledConc SledIndex SledIndexFacts Rdf RdfSpec RdfTop RdfSled RdfSledSpec.
Import ListNotations.

Section Safe.
Context {S NP EP SE BE E : Type} (seqb : S -> S -> bool) (seqb_eq : forall a b, seqb a b = true <-> a = b).
Context (cs : codec BE S) (cu : codec BE (Id KUlid)) (cn : codec BE NP) (ce : codec BE EP).
Context (Hcs : codec_ok cs) (Hcu : codec_ok cu) (Hcn : codec_ok cn) (Hce : codec_ok ce).
Context (mn : NP -> NP -> NP) (me : EP -> EP -> EP).
Notation I := (Id KUlid).
Notation ent := (entity S).
Notation P A := (prog rdb SE A).
Notation rop := (rop S NP EP E).
Notation op := (op KUlid NP EP E).
Notation G := (graph KUlid NP EP).
Notation EG := (egraph S NP EP).
Notation answer := (routcome (S := S) (SE := SE) (BE := BE) (E := E)).
Notation apply := (rs_apply (SE := SE) (E := E) cs cu cn ce mn me).
Notation hist := (rs_history (SE := SE) (E := E) cs cu cn ce mn me).
Notation gapply := (sled_apply (SE := SE) (E := E) cn ce mn me).
Notation nu := (name_now (SE := SE) cs cu).
Notation rho := (id_now (SE := SE) cs cu).
Notation sabs d := (sabs (k := KUlid) cn ce (r_trees d)).
Notation gfair := (fair (k := KUlid) cn ce).
Notation gagree := (indexes_agree (k := KUlid)).
Notation idx_ok := (index_ok cs cu).
Notation ids := (S -> option I).
Implicit Types d : rdb.
Implicit Types M : S -> option I.
Implicit Types s : list rop.
Implicit Types own : list bytes.
Implicit Types h : rhandle.

(** ** Names *)
Definition below M M' : Prop := forall n i, M n = Some i -> M' n = Some i.
Lemma below_refl M : below M M.
Proof. intros n i H. exact H. Qed.
Lemma below_trans M1 M2 M3 : below M1 M2 -> below M2 M3 -> below M1 M3.
Proof. intros H1 H2 n i H. auto. Qed.

Definition only_new (N : list S) d d' : Prop := forall n, nu d' n <> None -> nu d n <> None \/ In n N.
Lemma only_new_refl N d d' : r_names d' = r_names d -> only_new N d d'.
Proof. intros H n. unfold name_now. rewrite H. auto. Qed.
Lemma only_new_trans N d1 d2 d3 : only_new N d1 d2 -> only_new N d2 d3 -> only_new N d1 d3.
Proof. intros H1 H2 n H. destruct (H2 n H) as [H'|H']; auto. Qed.
Lemma only_new_incl N N' d d' : incl N N' -> only_new N d d' -> only_new N' d d'.
Proof. intros H H1 n Hn. destruct (H1 n Hn); auto. Qed.

Lemma nu_some d n i : nu d n = Some i <-> left_now (SE := SE) cs cu (r_names d) n = Ok (Some i).
Proof.
  unfold name_now. destruct (left_now cs cu (r_names d) n) as [[j|]|e]; split; congruence.
Qed.
Lemma rho_some d n i : rho d i = Some n <-> right_now (SE := SE) cs cu (r_names d) i = Ok (Some n).
Proof.
  unfold id_now. destruct (right_now cs cu (r_names d) i) as [[j|]|e]; split; congruence.
Qed.
Lemma one_now d : idx_ok (r_names d) -> one_to_one (nu d) (rho d).
Proof.
  intros Hok n i. rewrite nu_some, rho_some, (left_spec cs cu Hcu _ _ _ Hok), (right_spec cs cu Hcs _ _ _ Hok).
  split; intros (lb & rb & H1 & H2 & H3); exists lb, rb; split; auto; split; auto; now apply Hok.
Qed.

Lemma nu_names d d' : r_names d' = r_names d -> nu d' = nu d.
Proof. intros H. unfold name_now. now rewrite H. Qed.

(** ** The world *)
Definition world (U : bytes -> Prop) d : Prop :=
  idx_ok (r_names d) /\ gfair U (r_trees d) /\ gagree (r_trees d).
Lemma world_mono (U U' : bytes -> Prop) d : (forall x, U x -> U' x) -> world U d -> world U' d.
Proof. intros H (H1 & H2 & H3). split; auto. split; auto. eapply fair_mono; eauto. Qed.
Lemma world_new U : world U rdb_new.
Proof. split; [apply ok_new|]. destruct (SledDb.good_new (k := KUlid) cn ce U). split; auto. Qed.

Definition fresh_keys (U : bytes -> Prop) own : Prop := NoDup own /\ forall x, In x own -> ~ U x.

Lemma fresh_tail U used own : fresh_keys U (used ++ own) -> fresh_keys (plus_keys U used) own.
Proof.
  intros [H1 H2]. apply NoDup_app_iff in H1. destruct H1 as (H1 & H3 & H4). split; auto.
  intros x Hx [Hu|Hu]; [eapply H2; eauto; apply in_app_iff; auto|]. eapply H4; eauto.
Qed.

(** An identifier of an entity. *)
Definition den M (e : ent) (i : I) : Prop := match e with EString n => M n = Some i | EUlid j => i = j end.
Definition den3 M (t : triple ent) (u : triple I) : Prop :=
  den M (sub t) (sub u) /\ den M (pred t) (pred u) /\ den M (obj t) (obj u).
Lemma den_below M M' e i : below M M' -> den M e i -> den M' e i.
Proof. intros H. destruct e; simpl; auto. Qed.
Lemma den3_below M M' t u : below M M' -> den3 M t u -> den3 M' t u.
Proof. intros H (H1 & H2 & H3). repeat split; eapply den_below; eauto. Qed.

(** The call on the graph that a single call makes. *)
Definition stands M (o : rop) (x : op) : Prop :=
  match o with
  | RInsertNode e p => exists i, den M e i /\ x = OInsertNode i p
  | RInsertEdge t p => exists u, den3 M t u /\ x = OInsertEdge u p
  | RRemoveNode e => exists i, den M e i /\ x = ORemoveNode i
  | RRemoveEdge t => exists u, den3 M t u /\ x = ORemoveEdge u
  | RMergeNode e p => exists i, den M e i /\ x = OMergeNode i p
  | RMergeEdge t p => exists u, den3 M t u /\ x = OMergeEdge u p
  | _ => False
  end.
Lemma stands_below M M' o x : below M M' -> stands M o x -> stands M' o x.
Proof.
  intros H. destruct o; simpl; auto; intros (i & Hi & ->); exists i; split; auto;
    first [eapply den_below; eauto; fail | eapply den3_below; eauto; fail].
Qed.

Definition single_add (o : rop) : Prop :=
  match o with RInsertNode _ _ | RInsertEdge _ _ | RMergeNode _ _ | RMergeEdge _ _ => True | _ => False end.

Definition graph_moves (oo : option rop) d d' : Prop :=
  match oo with
  | None => g_equiv (sabs d') (sabs d)
  | Some o => single_add o /\ exists x, stands (nu d') o x /\ g_equiv (sabs d') (spec_apply mn me x (sabs d))
  end.
Definition olist (oo : option rop) : list rop := match oo with Some o => [o] | None => [] end.

(** ** What a program does, step by step, whatever others do to the database meanwhile.  [s]:
    the single calls performed so far; [M]: names seen; [own]: keys this program may still use. *)
Fixpoint safe {A} (N : list S) (Q : A -> list rop -> ids -> list bytes -> Prop) (R : list rop -> Prop)
    (p : P A) s M own {struct p} : Prop :=
  R s /\
  match p with
  | Ret a => Q a s M own
  | Look _ => False
  | Act u k e =>
      (forall x, safe N Q R (e x) s M own) /\
      forall U d, world U d -> fresh_keys U own -> below M (nu d) ->
        exists oo used own' post, own = used ++ own' ++ post /\ world (plus_keys U used) (u d) /\
          below (nu d) (nu (u d)) /\ only_new N d (u d) /\ graph_moves oo d (u d) /\
          safe N Q R (k d) (s ++ olist oo) (nu (u d)) own'
  end.

Lemma safe_R {A} N (Q : A -> _ -> _ -> _ -> Prop) R p s M own : safe N Q R p s M own -> R s.
Proof. destruct p; simpl; tauto. Qed.

Lemma safe_mono {A} N N' (Q Q' : A -> list rop -> ids -> list bytes -> Prop) (R R' : list rop -> Prop) (p : P A) :
  incl N N' -> (forall s, R s -> R' s) -> (forall a s M own, Q a s M own -> Q' a s M own) ->
  forall s M own, safe N Q R p s M own -> safe N' Q' R' p s M own.
Proof.
  intros HN HR HQ. induction p as [a|k IH|u k IHk e IHe]; intros s M own; simpl.
  - intros [H1 H2]. auto.
  - tauto.
  - intros (H0 & H1 & H2). split; auto. split; auto. intros U d Hw Hf Hb.
    destruct (H2 U d Hw Hf Hb) as (oo & used & own' & post & W1 & W2 & W3 & W4 & W5 & W6).
    exists oo, used, own', post. repeat (split; [solve [auto]|]). split; [eapply only_new_incl; eauto|]. split; auto.
Qed.

Lemma safe_bind {A B} N (Q : B -> list rop -> ids -> list bytes -> Prop) R (p : P A) (f : A -> P B) :
  forall s M own, safe N (fun a s M own => safe N Q R (f a) s M own) R p s M own -> safe N Q R (bind p f) s M own.
Proof.
  induction p as [a|k IH|u k IHk e IHe]; intros s M own; simpl.
  - tauto.
  - tauto.
  - intros (H0 & H1 & H2). split; auto. split; auto. intros U d Hw Hf Hb.
    destruct (H2 U d Hw Hf Hb) as (oo & used & own' & post & W1 & W2 & W3 & W4 & W5 & W6).
    exists oo, used, own', post. repeat (split; [solve [auto]|]). auto.
Qed.

(** Keys may be given up. *)
Lemma safe_drop {A} N (Q : A -> list rop -> ids -> list bytes -> Prop) R (p : P A) pre post :
  (forall a s M own, Q a s M own -> Q a s M (pre ++ own ++ post)) ->
  forall s M own, safe N Q R p s M own -> safe N Q R p s M (pre ++ own ++ post).
Proof.
  intros HQ. induction p as [a|k IH|u k IHk e IHe]; intros s M own; simpl.
  - intros [H1 H2]. auto.
  - tauto.
  - intros (H0 & H1 & H2). split; auto. split; auto. intros U d Hw Hf Hb.
    assert (fresh_keys U own) as Hf'.
    { destruct Hf as [F1 F2]. apply NoDup_app_iff in F1. destruct F1 as (_ & F1 & _). apply NoDup_app_iff in F1.
      split; [apply F1|]. intros x Hx. apply F2. rewrite !in_app_iff. auto. }
    destruct (H2 U d Hw Hf' Hb) as (oo & used & own' & post' & -> & W2 & W3 & W4 & W5 & W6).
    exists oo, (pre ++ used), own', (post' ++ post). split; [now rewrite !app_assoc|].
    split; [eapply world_mono; [|exact W2]; intros x [Hx|Hx]; [left; auto|right; apply in_app_iff; auto]|].
    auto.
Qed.

(** ** Looking up names *)
Notation PH A := (P (result (rdf_error S (sled_index_error S I SE BE) (sled_error SE BE)) A * rhandle)).

Definition found {A} (good : ids -> A -> Prop) h s own :
    result (rdf_error S (sled_index_error S I SE BE) (sled_error SE BE)) A * rhandle -> list rop -> ids -> list bytes -> Prop :=
  fun rh s' M' own' => s' = s /\ own' = own /\ rh_graph (snd rh) = rh_graph h /\
    match fst rh with Ok a => good M' a | Err x => exists y, x = NameIndexStorageError y end.

Lemma de_left d n lb : idx_ok (r_names d) -> ser cs n = Ok lb ->
  de_opt (L := S) (R := I) (SE := SE) cu (bget lb (i_l2r (r_names d))) = left_now cs cu (r_names d) n.
Proof. intros _ Hl. unfold left_now, si_left_to_right, ret_of. rewrite Hl. reflexivity. Qed.

Lemma grows_world U d x : world U d -> grows cs cu (r_names d) x -> world U (RDb x (r_trees d)).
Proof. intros (H1 & H2 & H3) Hg. split; [eapply ok_grows; eauto|]. split; auto. Qed.
Lemma grows_below d x : idx_ok (r_names d) -> grows cs cu (r_names d) x -> below (nu d) (nu (RDb x (r_trees d))).
Proof.
  intros Hok Hg n i. rewrite !nu_some. simpl. rewrite (left_spec cs cu Hcu _ _ _ Hok), (left_spec cs cu Hcu _ _ _ (ok_grows _ _ _ _ Hg Hok)).
  intros (lb & rb & A & B & C). exists lb, rb. repeat split; auto. now apply (grows_keeps cs cu _ _ lb rb Hg).
Qed.

Lemma safe_names_read {A} N (Q : A -> list rop -> ids -> list bytes -> Prop) (R : list rop -> Prop)
    (k : idb -> prog idb SE A) (e : SE -> prog idb SE A) s M own :
  R s -> (forall x, safe N Q R (on_names (e x)) s M own) ->
  (forall U d, world U d -> below M (nu d) -> safe N Q R (on_names (k (r_names d))) s (nu d) own) ->
  safe N Q R (on_names (Act (fun x => x) k e)) s M own.
Proof.
  intros HR He Hk. cbn [on_names safe]. split; auto. split; auto. intros U d Hw Hf Hb.
  exists None, [], own, []. split; [now rewrite app_nil_r|].
  replace (RDb (r_names d) (r_trees d)) with d by (destruct d; reflexivity).
  split; [eapply world_mono; [|exact Hw]; intros x Hx; left; auto|].
  split; [apply below_refl|]. split; [now apply only_new_refl|]. split; [apply g_equiv_refl|].
  simpl. rewrite app_nil_r. eauto.
Qed.

Lemma set_grows n i lb rb x : ser cs n = Ok lb -> ser cu i = Ok rb ->
  match set_body (L := S) (R := I) (SE := SE) cs cu n i lb rb x with
  | Ok x' => grows cs cu x x' /\ left_now (SE := SE) cs cu x' n = Ok (Some i) /\
      forall n', n' <> n -> left_now (SE := SE) cs cu x' n' = left_now (SE := SE) cs cu x n'
  | Err _ => True
  end.
Proof.
  intros Hl Hr. unfold set_body. destruct (bget lb (i_l2r x)) as [b|] eqn:E1.
  - now destruct (de cu b).
  - cbn [i_l2r i_r2l]. destruct (bget rb (i_r2l x)) as [b|] eqn:E2; [now destruct (de cs b)|].
    split; [right; exists n, i, lb, rb; auto|]. split.
    + now apply (left_insert cs cu Hcs Hcu x n i lb rb Hl Hr n).
    + intros n' Hn. now apply (left_insert cs cu Hcs Hcu x n i lb rb Hl Hr n').
Qed.

Lemma safe_error {A} (N : list S) (good : ids -> A -> Prop) (R : list rop -> Prop) h h' s M own y :
  R s -> rh_graph h' = rh_graph h ->
  safe N (found good h s own) R (Ret (Err (NameIndexStorageError y), h')) s M own.
Proof. intros HR Hh. simpl. split; auto. unfold found. simpl. eauto 6. Qed.
Lemma safe_found {A} (N : list S) (good : ids -> A -> Prop) (R : list rop -> Prop) h h' s M own a :
  R s -> rh_graph h' = rh_graph h -> good M a ->
  safe N (found good h s own) R (Ret (Ok a, h')) s M own.
Proof. intros HR Hh. simpl. split; auto. unfold found. simpl. auto. Qed.

Lemma safe_lookup (N : list S) (R : list rop -> Prop) e h s M own : incl (name_of e) N -> R s ->
  safe N (found (fun M i => den M e i) h s own) R (rs_lookup_or_create cs cu e h) s M own.
Proof.
  intros HN HR. destruct e as [n|i]; cbn [rs_lookup_or_create].
  2: { now apply safe_found. }
  apply safe_bind. unfold si_left_to_right. destruct (ser cs n) as [lb|b] eqn:Hl.
  2: { cbn [on_names safe]. split; auto. now apply safe_error. }
  apply safe_names_read; auto.
  { intros x. cbn [on_names safe]. split; auto. now apply safe_error. }
  intros U d Hw Hb. cbn [on_names]. split; auto. rewrite (de_left d n lb) by (apply Hw || auto).
  destruct (left_now cs cu (r_names d) n) as [[i|]|x] eqn:Hn.
  - apply safe_found; auto. now apply nu_some.
  - unfold fresh. apply safe_bind. unfold si_set. rewrite Hl.
    destruct (ser cu (g_seq (rh_ulids h) (g_pos (rh_ulids h)))) as [rb|b] eqn:Hr.
    2: { cbn [on_names]. split; auto. now apply safe_error. }
    set (i := g_seq (rh_ulids h) (g_pos (rh_ulids h))) in *.
    cbn [on_names]. split; auto. split.
    { intros x. split; auto. now apply safe_error. }
    intros U' d' Hw' Hf' Hb'. exists None, [], own, []. split; [now rewrite app_nil_r|].
    pose proof (set_grows n i lb rb (r_names d') Hl Hr) as Hg.
    destruct (set_body cs cu n i lb rb (r_names d')) as [x'|x'].
    + destruct Hg as (Hg & Hn' & Hother).
      split; [eapply world_mono; [|eapply grows_world; eauto]; intros x Hx; left; auto|].
      split; [apply grows_below; auto; apply Hw'|].
      split.
      { intros m Hm. destruct (nu d' m) eqn:E1; [left; discriminate|]. right. apply HN. simpl. left.
        destruct (seqb n m) eqn:Q; [now apply seqb_eq|].
        exfalso. apply Hm. destruct (nu (RDb x' (r_trees d')) m) as [j|] eqn:F; auto. apply nu_some in F. simpl in F.
        rewrite Hother in F by (intros ->; rewrite (proj2 (seqb_eq n n) eq_refl) in Q; discriminate).
        apply nu_some in F. congruence. }
      split; [apply g_equiv_refl|]. cbn [olist]. rewrite app_nil_r. split; auto. apply safe_found; auto.
      simpl. apply nu_some. exact Hn'.
    + replace (RDb (r_names d') (r_trees d')) with d' by (destruct d'; reflexivity).
      split; [eapply world_mono; [|exact Hw']; intros x Hx; left; auto|].
      split; [apply below_refl|]. split; [now apply only_new_refl|]. split; [apply g_equiv_refl|].
      cbn [olist]. rewrite app_nil_r. split; auto. now apply safe_error.
  - now apply safe_error.
Qed.

Lemma safe_below {A} N (Q : A -> list rop -> ids -> list bytes -> Prop) R (p : P A) :
  forall s M own, safe N Q R p s M own -> safe N (fun a s' M' own' => below M M' /\ Q a s' M' own') R p s M own.
Proof.
  assert (forall s M M0 own, below M0 M -> safe N Q R p s M own ->
    safe N (fun a s' M' own' => below M0 M' /\ Q a s' M' own') R p s M own) as H.
  { induction p as [a|k IH|u k IHk e IHe]; intros s M M0 own HM; simpl.
    - tauto.
    - tauto.
    - intros (H0 & H1 & H2). split; auto. split; auto. intros U d Hw Hf Hb.
      destruct (H2 U d Hw Hf Hb) as (oo & used & own' & post & W1 & W2 & W3 & W4 & W5 & W6).
      exists oo, used, own', post. repeat (split; [solve [auto]|]). apply IHk; auto.
      eapply below_trans; [exact HM|]. eapply below_trans; eauto. }
  intros s M own. apply H, below_refl.
Qed.

Lemma safe_bind_h {A B} N (good : ids -> A -> Prop) (Q : _ -> list rop -> ids -> list bytes -> Prop) R
    (p : PH A) (f : A -> rhandle -> PH B) h s M own :
  safe N (found good h s own) R p s M own ->
  (forall a h' M', rh_graph h' = rh_graph h -> below M M' -> good M' a -> safe N Q R (f a h') s M' own) ->
  (forall y h' M', rh_graph h' = rh_graph h -> below M M' -> Q (Err (NameIndexStorageError y), h') s M' own) ->
  safe N Q R (bind_h p f) s M own.
Proof.
  intros Hp Hf He. pose proof (safe_R _ _ _ _ _ _ _ Hp) as HR. unfold bind_h. apply safe_bind. apply safe_below in Hp.
  eapply safe_mono; [apply incl_refl| | |exact Hp]; auto.
  intros [[a|x] h'] s' M' own' (Hb & -> & -> & Hh & Hg); simpl in *; auto.
  destruct Hg as [y ->]. simpl. split; auto.
Qed.

Lemma safe_create3 (N : list S) (R : list rop -> Prop) t h s M own : incl (names_of t) N -> R s ->
  safe N (found (fun M u => den3 M t u) h s own) R (rs_create3 cs cu t h) s M own.
Proof.
  intros HN HR.
  assert (incl (name_of (sub t)) N /\ incl (name_of (pred t)) N /\ incl (name_of (obj t)) N) as (N1 & N2 & N3).
  { repeat split; intros x Hx; apply HN; unfold names_of; rewrite !in_app_iff; auto. }
  unfold rs_create3.
  eapply safe_bind_h with (h := h); [apply safe_lookup; auto| |intros; unfold found; simpl; eauto 6].
  intros a h1 M1 Hh1 Hb1 D1.
  eapply safe_bind_h with (h := h1); [apply safe_lookup; auto| |intros; unfold found; simpl; rewrite <- Hh1; eauto 6].
  intros b h2 M2 Hh2 Hb2 D2.
  eapply safe_bind_h with (h := h2); [apply safe_lookup; auto| |intros; unfold found; simpl; rewrite <- Hh1, <- Hh2; eauto 6].
  intros c h3 M3 Hh3 Hb3 D3. apply safe_found; auto; [congruence|].
  split; [exact (den_below _ _ _ _ (below_trans _ _ _ Hb2 Hb3) D1)|]. split; [eapply den_below; eauto|exact D3].
Qed.

(** ** Calls on the graph *)
Definition keysn h (n : nat) : list bytes := map to_be_bytes (next_ids (h_gen (rh_graph h)) n).
Definition adv h (n : nat) : rhandle := RHandle (advance (rh_graph h) n) (rh_ulids h).

Lemma keysn_split h a b : keysn h (a + b) = keysn h a ++ keysn (adv h a) b.
Proof. unfold keysn, next_ids. rewrite List.seq_app, !map_app. reflexivity. Qed.
Lemma keysn_graph h h' n : rh_graph h' = rh_graph h -> keysn h' n = keysn h n.
Proof. intros H. unfold keysn. now rewrite H. Qed.

Lemma on_graph_shape {A} (p : prog db SE A) : SledConc.single p ->
  match p with
  | Ret a => on_graph p = Ret a
  | Look _ => False
  | Act u k e => forall d x, (exists a, k (r_trees d) = Ret a /\ on_graph (k (r_trees d)) = Ret a) /\
                             (exists a, e x = Ret a /\ on_graph (e x) = Ret a)
  end.
Proof.
  destruct p as [a|k|u k e]; simpl; auto. intros [H1 H2] d x. split.
  - destruct (H1 (r_trees d)) as [a Ha]. exists a. now rewrite Ha.
  - destruct (H2 x) as [a Ha]. exists a. now rewrite Ha.
Qed.

Lemma single_lift (p : prog db SE (result (sled_error SE BE) unit * handle KUlid)) :
  SledConc.single (SledHistory.lift p : prog db SE (outcome (E := E) * handle KUlid)) -> SledConc.single p.
Proof.
  destruct p as [a|k|u k e]; simpl; auto. intros [H1 H2]. split.
  - intros d. destruct (H1 d) as [a Ha]. destruct (k d); simpl in Ha; try discriminate. eauto.
  - intros d. destruct (H2 d) as [a Ha]. destruct (e d); simpl in Ha; try discriminate. eauto.
Qed.

Lemma history_keys_one h (x : op) : one_call x -> history_keys (rh_graph h) [x] = keysn h (draws x).
Proof.
  intros Ho. unfold history_keys, keysn, sum. simpl. rewrite (one_call_ulids x Ho), Nat.add_0_r. simpl.
  unfold next_ids at 2. simpl. now rewrite app_nil_r.
Qed.

Lemma transactional_one (x : op) : transactional x -> one_call x.
Proof. destruct x; simpl; tauto. Qed.

Definition owns (n : nat) h own : Prop := exists pre post, own = pre ++ keysn h n ++ post.
Lemma owns_drop n h pre post own : owns n h own -> owns n h (pre ++ own ++ post).
Proof. intros (q & r & ->). exists (pre ++ q), (r ++ post). now rewrite !app_assoc. Qed.

Definition storage {X Y Z} (e : rdf_error X Y Z) : Prop := match e with NameNotFound _ => False | _ => True end.

Definition called (o : rop) (n : nat) s :
    result (rdf_error S (sled_index_error S I SE BE) (sled_error SE BE)) unit * rhandle -> list rop -> ids -> list bytes -> Prop :=
  fun rh s' M' own' => owns n (snd rh) own' /\
    match fst rh with Ok _ => s' = s ++ [o] | Err e => s' = s /\ storage e end.

Lemma safe_graph (N : list S) (R : list rop -> Prop) (o : rop) (x : op) f h s M own n :
  (forall gh, gapply x gh = SledHistory.lift (f gh)) -> transactional x -> stands M o x -> R s -> R (s ++ [o]) ->
  owns (draws x + n) h own ->
  safe N (called o n s) R (graph_call f h) s M own.
Proof.
  intros Hf Ht Hs R0 R1 (pre & post & ->). apply safe_drop.
  { intros a s' M' own' [H1 H2]. split; auto. now apply owns_drop. }
  pose proof (transactional_one x Ht) as Ho.
  pose proof (single_apply cn ce mn me (SE := SE) x (rh_graph h) Ht) as Hsg.
  assert (forall fs (d : db), snd (ret_of (gapply x (rh_graph h)) fs d) = advance (rh_graph h) (draws x)) as Hadv
    by (intros; now apply apply_handle).
  assert (forall U fs (d : db), gfair U d -> gagree d -> fresh_keys U (keysn h (draws x)) ->
    gfair (plus_keys U (keysn h (draws x))) (db_of (gapply x (rh_graph h)) fs d) /\
    gagree (db_of (gapply x (rh_graph h)) fs d) /\
    moved mn me x (fst (ret_of (gapply x (rh_graph h)) fs d)) (SledDb.sabs cn ce d) (SledDb.sabs cn ce (db_of (gapply x (rh_graph h)) fs d))) as Hm.
  { intros U fs d F A [K1 K2]. rewrite <- (history_keys_one h x Ho) in *. eapply call_moves; eauto. }
  rewrite Hf in Hsg, Hadv, Hm. apply single_lift in Hsg. pose proof (on_graph_shape _ Hsg) as Hshape.
  unfold graph_call. destruct (f (rh_graph h)) as [[r gh]|k|u k e] eqn:Ef; [|destruct Hsg|].
  - cbn [on_graph bind safe]. split; auto. unfold called. cbn [fst snd]. specialize (Hadv [] db_new). simpl in Hadv. subst gh.
    rewrite keysn_split. split; [exists (keysn h (draws x)), []; now rewrite app_nil_r|].
    destruct r as [[]|y]; simpl; auto.
    (* a call that needs no storage step has failed *)
    exfalso. clear - Ef Hf Ht. specialize (Hf (rh_graph h)). rewrite Ef in Hf.
    destruct x; simpl in *; try contradiction;
      unfold SledHistory.lift, and_handle, s_insert_node, s_insert_edge, s_merge_node, s_merge_edge, draw, fresh, transaction,
        bind_ok, bincode, tree_insert, bind_ok in Hf; simpl in Hf;
      repeat match type of Hf with context [match ?c with _ => _ end] => destruct c end; simpl in Hf; discriminate.
  - cbn [on_graph bind safe]. split; auto. split.
    + intros y. destruct (Hshape rdb_new y) as [_ ([r gh] & He & ->)]. cbn [bind safe]. split; auto. unfold called. cbn [fst snd].
      specialize (Hadv [Some y] db_new). unfold ret_of in Hadv. simpl in Hadv. rewrite He in Hadv. simpl in Hadv. subst gh.
      rewrite keysn_split. split; [exists (keysn h (draws x)), []; now rewrite app_nil_r|].
      destruct r as [[]|z]; simpl; auto.
      exfalso. clear - Ef Hf Ht He. specialize (Hf (rh_graph h)). rewrite Ef in Hf.
      assert (forall A (f : SE -> prog db SE A) u0 k0 v w g, Act u0 k0 f = Act v w g -> f y = g y) as Hinj by (intros; congruence).
      simpl in Hf. apply eq_sym in Hf.
      destruct x; simpl in *; try contradiction;
      unfold SledHistory.lift, and_handle, s_insert_node, s_insert_edge, s_merge_node, s_merge_edge, draw, fresh, transaction,
        bind_ok, bincode, tree_insert, bind_ok in Hf; simpl in Hf;
      repeat match type of Hf with context [match ?c with _ => _ end] => destruct c end; simpl in Hf; try discriminate;
      apply Hinj in Hf; rewrite He in Hf; simpl in Hf; discriminate.
    + intros U d Hw Hfr Hb. destruct Hw as (W1 & W2 & W3).
      rewrite keysn_split in Hfr |- *.
      assert (fresh_keys U (keysn h (draws x))) as Hfr'.
      { destruct Hfr as [F1 F2]. apply NoDup_app_iff in F1. split; [apply F1|]. intros z Hz. apply F2, in_app_iff. auto. }
      specialize (Hm U [] (r_trees d) W2 W3 Hfr'). specialize (Hadv [] (r_trees d)).
      assert (exists rg, k (r_trees d) = Ret rg) as [[r gh] Hk] by apply Hsg.
      unfold SledHistory.lift, ret_of, db_of in Hm, Hadv. simpl in Hm, Hadv. rewrite Hk in Hm, Hadv |- *. simpl in Hm, Hadv. subst gh.
      destruct Hm as (H1 & H2 & H3).
      exists (match r with Ok _ => Some o | Err _ => None end), (keysn h (draws x)), (keysn (adv h (draws x)) n), [].
      split; [now rewrite app_nil_r|]. split; [split; auto|]. split; [apply below_refl|]. split; [now apply only_new_refl|].
      split.
      * destruct r as [[]|y]; simpl in H3 |- *; unfold moved in H3; simpl in H3.
        -- destruct H3 as [_ H3]. split; [destruct o; simpl in Hs |- *; auto; destruct Hs as (i & _ & ->); exact Ht|]. exists x. split; [|exact H3]. eapply stands_below; [|exact Hs]. exact Hb.
        -- destruct H3 as [H3|[H3 _]]; auto. destruct x; simpl in *; contradiction.
      * cbn [on_graph bind safe]. destruct r as [[]|y]; cbn [olist]; rewrite ?app_nil_r; (split; [auto|]);
          (split; [exists [], []; now rewrite app_nil_r|]); simpl; auto.
Qed.

(** ** Single calls that add *)
Definition single_prog (o : rop) h : PH unit :=
  match o with
  | RInsertNode e p => rs_insert_node cs cu cn e p h
  | RInsertEdge t p => rs_insert_edge cs cu ce t p h
  | RMergeNode e p => rs_merge_node cs cu cn mn e p h
  | RMergeEdge t p => rs_merge_edge cs cu ce me t p h
  | _ => Ret (Ok tt, h)
  end.

Definition named_in (l : list S) M : Prop := forall n, In n l -> M n <> None.
Lemma named_below l M M' : below M M' -> named_in l M -> named_in l M'.
Proof. intros H H1 n Hn Q. apply (H1 n Hn). destruct (M n) as [i|] eqn:E1; auto. apply H in E1. congruence. Qed.
Lemma den_named M e i : den M e i -> named_in (name_of e) M.
Proof. destruct e; simpl; intros H n; [intros [<-|[]]; congruence|intros []]. Qed.
Lemma den3_named M t u : den3 M t u -> named_in (names_of t) M.
Proof.
  intros (H1 & H2 & H3) n. unfold names_of. rewrite !in_app_iff. intros [Hn|[Hn|Hn]].
  - exact (den_named _ _ _ H1 n Hn).
  - exact (den_named _ _ _ H2 n Hn).
  - exact (den_named _ _ _ H3 n Hn).
Qed.

Definition did (o : rop) (n : nat) s :
    result (rdf_error S (sled_index_error S I SE BE) (sled_error SE BE)) unit * rhandle -> list rop -> ids -> list bytes -> Prop :=
  fun rh s' M' own' => owns n (snd rh) own' /\
    match fst rh with Ok _ => s' = s ++ [o] /\ named_in (given o) M' | Err e => s' = s /\ storage e end.

Lemma owns_graph n h h' own : rh_graph h' = rh_graph h -> owns n h own -> owns n h' own.
Proof. intros Hh (pre & post & ->). exists pre, post. now rewrite (keysn_graph h h'). Qed.
Lemma owns_less n m h own : owns (m + n) h own -> owns n h own.
Proof.
  intros (pre & post & ->). rewrite Nat.add_comm, keysn_split. exists pre, (keysn (adv h n) m ++ post). now rewrite <- !app_assoc.
Qed.

Lemma safe_single (N : list S) (R : list rop -> Prop) o h s M own n :
  single_add o -> incl (given o) N -> R s -> R (s ++ [o]) ->
  owns (r_draws o + n) h own ->
  safe N (did o n s) R (single_prog o h) s M own.
Proof.
  intros Ho HN R0 R1 Hown.
  assert (forall A (good : ids -> A -> Prop) (p : PH A) (f : A -> handle KUlid -> prog db SE (result (sled_error SE BE) unit * handle KUlid)) (x : A -> op),
    (forall a gh, gapply (x a) gh = SledHistory.lift (f a gh)) -> (forall a, transactional (x a)) ->
    (forall a M, good M a -> stands M o (x a) /\ named_in (given o) M) -> (forall a, draws (x a) = r_draws o) ->
    safe N (found good h s own) R p s M own ->
    safe N (did o n s) R (bind_h p (fun a => graph_call (f a))) s M own) as Hgen.
  { intros A good p f x Hf Ht Hg Hd Hp. eapply safe_bind_h; [exact Hp| |].
    - intros a h' M' Hh Hb Ha. destruct (Hg a M' Ha) as [Hs Hn].
      pose proof (safe_graph N R o (x a) (f a) h' s M' own n (Hf a) (Ht a) Hs R0 R1) as Hsg.
      rewrite Hd in Hsg. specialize (Hsg (owns_graph _ _ _ _ Hh Hown)). apply safe_below in Hsg.
      eapply safe_mono; [apply incl_refl| | |exact Hsg]; auto.
      intros [r h2] s' M2 own' (Hb2 & Hc1 & Hc2). split; auto. destruct r; auto. split; auto.
      eapply named_below; eauto.
    - intros y h' M' Hh Hb. split; [|simpl; auto]. apply owns_graph with h; auto. eapply owns_less; eauto. }
  destruct o as [e p|t p|e|t|e p|t p|q|q]; try contradiction; simpl single_prog.
  - eapply (Hgen I (fun M i => den M e i) _ _ (fun i => OInsertNode i p)).
    + reflexivity.
    + simpl. auto.
    + intros a M0 H. split; [simpl; eauto|]. eapply den_named; eauto.
    + reflexivity.
    + now apply safe_lookup.
  - eapply (Hgen (triple I) (fun M u => den3 M t u) _ _ (fun i => OInsertEdge i p)).
    + reflexivity.
    + simpl. auto.
    + intros a M0 H. split; [simpl; eauto|]. eapply den3_named; eauto.
    + reflexivity.
    + now apply safe_create3.
  - eapply (Hgen I (fun M i => den M e i) _ _ (fun i => OMergeNode i p)).
    + reflexivity.
    + simpl. auto.
    + intros a M0 H. split; [simpl; eauto|]. eapply den_named; eauto.
    + reflexivity.
    + now apply safe_lookup.
  - eapply (Hgen (triple I) (fun M u => den3 M t u) _ _ (fun i => OMergeEdge i p)).
    + reflexivity.
    + simpl. auto.
    + intros a M0 H. split; [simpl; eauto|]. eapply den3_named; eauto.
    + reflexivity.
    + now apply safe_create3.
Qed.

(** ** Loops *)
Notation PE A := (P (result (lr_error (rdf_error S (sled_index_error S I SE BE) (sled_error SE BE)) E) A * rhandle)).

Definition looped (err : option E) (l : list rop) (n : nat) s : answer * rhandle -> list rop -> ids -> list bytes -> Prop :=
  fun rh s' M' own' => owns n (snd rh) own' /\
    match fst rh with
    | Ok _ => err = None /\ s' = s ++ l /\ named_in (flat_map given l) M'
    | Err (RightE e) => err = Some e /\ s' = s ++ l /\ named_in (flat_map given l) M'
    | Err (LeftE e) => storage e /\ exists j, j < length l /\ s' = s ++ firstn j l
    end.

Lemma safe_for_each {A} (N : list S) (R : list rop -> Prop) (mk : A -> rop) (step : A -> rhandle -> PH unit) n
    (l : list (result E A)) :
  (forall a, single_add (mk a)) -> (forall a h, step a h = single_prog (mk a) h) ->
  forall h s M own,
  incl (flat_map given (map mk (before_error l))) N ->
  (forall j, R (s ++ firstn j (map mk (before_error l)))) ->
  owns (sum (map r_draws (map mk (before_error l))) + n) h own ->
  safe N (looped (first_error l) (map mk (before_error l)) n s) R (rs_for_each step l h) s M own.
Proof.
  intros Hmk Hstep. induction l as [|[a|e] l IH]; intros h s M own HN HR Hown.
  - simpl. pose proof (HR 0) as R0. simpl in R0. rewrite app_nil_r in R0. split; auto. split; auto. simpl. rewrite app_nil_r.
    split; auto. split; auto. intros x [].
  - cbn [rs_for_each]. apply safe_bind. rewrite Hstep. simpl before_error in *. simpl map in *. cbn [sum fold_right] in Hown.
    change (fold_right Nat.add 0) with sum in Hown. rewrite <- Nat.add_assoc in Hown.
    assert (incl (given (mk a)) N /\ incl (flat_map given (map mk (before_error l))) N) as [N1 N2].
    { split; intros x Hx; apply HN; simpl; apply in_app_iff; auto. }
    pose proof (HR 0) as R0. pose proof (HR 1) as R1. simpl in R0, R1. rewrite app_nil_r in R0.
    pose proof (safe_single N R (mk a) h s M own _ (Hmk a) N1 R0 R1 Hown) as Hs.
    eapply safe_mono; [apply incl_refl| | |exact Hs]; auto.
    intros [[[]|y] h'] s' M' own' [Ho Hd]; cbn [fst snd] in *.
    + destruct Hd as [-> Hn]. specialize (IH h' (s ++ [mk a]) M' own' N2).
      assert (forall j, R (s ++ [mk a] ++ firstn j (map mk (before_error l)))) as HR' by (intros j; apply (HR (Datatypes.S j))).
      assert (forall j, R ((s ++ [mk a]) ++ firstn j (map mk (before_error l)))) as HR2 by (intros j; rewrite <- app_assoc; apply HR').
      specialize (IH HR2 Ho). apply safe_below in IH.
      eapply safe_mono; [apply incl_refl| | |exact IH]; auto.
      intros [r h2] s2 M2 own2 (Hb & Ho2 & H2). split; auto. cbn [fst] in *.
      assert (named_in (flat_map given (map mk (before_error l))) M2 -> named_in (given (mk a) ++ flat_map given (map mk (before_error l))) M2) as Hall.
      { intros H x Hx. apply in_app_iff in Hx. destruct Hx as [Hx|Hx]; [eapply named_below; eauto|now apply H]. }
      destruct r as [[]|[e|e]]; cbn [first_error].
      * destruct H2 as (H3 & -> & H5). split; [exact H3|]. rewrite <- app_assoc. split; [reflexivity|]. now apply Hall.
      * destruct H2 as (H3 & j & Hj & ->). split; auto. exists (Datatypes.S j). simpl. split; [lia|]. now rewrite <- app_assoc.
      * destruct H2 as (H3 & -> & H5). split; [exact H3|]. rewrite <- app_assoc. split; [reflexivity|]. now apply Hall.
    + destruct Hd as [-> Hst]. simpl. split; auto. split; [eapply owns_less; eauto|]. simpl. split; auto. exists 0. simpl.
      split; [lia|]. now rewrite app_nil_r.
  - simpl. pose proof (HR 0) as R0. simpl in R0. rewrite app_nil_r in R0. split; auto. split; auto. simpl. rewrite app_nil_r.
    split; auto. split; auto. intros x [].
Qed.

Lemma sum_app (a b : list nat) : sum (a ++ b) = sum a + sum b.
Proof. induction a as [|x a IH]; simpl; auto. rewrite IH. lia. Qed.

Lemma safe_bulk (N : list S) (R : list rop -> Prop) (mkn : ent * NP -> rop) (mke : triple ent * EP -> rop)
    (fn : ent -> NP -> rhandle -> PH unit) (fe : triple ent -> EP -> rhandle -> PH unit) n (q : rdf_source S NP EP E) h s M own :
  (forall a, single_add (mkn a)) -> (forall a, single_add (mke a)) ->
  (forall a h, fn (fst a) (snd a) h = single_prog (mkn a) h) -> (forall a h, fe (fst a) (snd a) h = single_prog (mke a) h) ->
  let l := map mkn (used_nodes q) ++ map mke (used_edges q) in
  incl (flat_map given l) N -> (forall j, R (s ++ firstn j l)) -> owns (sum (map r_draws l) + n) h own ->
  safe N (looped (rdf_source_error q) l n s) R (rs_bulk fn fe q h) s M own.
Proof.
  intros Hn He Hfn Hfe. cbv zeta. unfold used_nodes, used_edges, rdf_source_error. intros HN HR Hown.
  set (l1 := map mkn (before_error (rs_nodes q))) in *.
  rewrite map_app, sum_app, <- Nat.add_assoc in Hown. rewrite flat_map_app in HN.
  unfold rs_bulk. apply safe_bind.
  assert (safe N (looped (first_error (rs_nodes q)) l1
    (sum (map r_draws (map mke match first_error (rs_nodes q) with Some _ => [] | None => before_error (rs_edges q) end)) + n) s) R
    (rs_for_each (fun ip => fn (fst ip) (snd ip)) (rs_nodes q) h) s M own) as H1.
  { apply safe_for_each; auto.
    - intros x Hx. apply HN, in_app_iff. auto.
    - intros j. specialize (HR (Nat.min j (length l1))). rewrite firstn_app in HR.
      replace (Nat.min j (length l1) - length l1) with 0 in HR by lia. simpl in HR. rewrite app_nil_r in HR.
      fold l1. rewrite <- (firstn_firstn) in HR. now rewrite firstn_all in HR. }
  apply safe_below in H1. eapply safe_mono; [apply incl_refl| | |exact H1]; auto.
  intros [r h'] s' M' own' (Hb & Ho & Hr). cbn [fst snd] in *.
  destruct r as [[]|[e|e]].
  - destruct Hr as (Hnone & -> & Hnm). rewrite Hnone in *.
    assert (safe N (looped (first_error (rs_edges q)) (map mke (before_error (rs_edges q))) n (s ++ l1)) R
      (rs_for_each (fun te => fe (fst te) (snd te)) (rs_edges q) h') (s ++ l1) M' own') as H2.
    { apply safe_for_each; auto.
      - intros x Hx. apply HN, in_app_iff. auto.
      - intros j. specialize (HR (length l1 + j)). rewrite firstn_app_2 in HR. now rewrite <- app_assoc. }
    apply safe_below in H2. eapply safe_mono; [apply incl_refl| | |exact H2]; auto.
    intros [r h2] s2 M2 own2 (Hb2 & Ho2 & H3). split; auto. cbn [fst] in *.
    assert (named_in (flat_map given (map mke (before_error (rs_edges q)))) M2 ->
      named_in (flat_map given (l1 ++ map mke (before_error (rs_edges q)))) M2) as Hall.
    { intros H x Hx. rewrite flat_map_app in Hx. apply in_app_iff in Hx. destruct Hx as [Hx|Hx]; [eapply named_below; eauto|now apply H]. }
    destruct r as [[]|[e|e]].
    + destruct H3 as (H4 & -> & H5). split; [exact H4|]. rewrite <- app_assoc. split; [reflexivity|]. now apply Hall.
    + destruct H3 as (H4 & j & Hj & ->). split; auto. exists (length l1 + j). split; [rewrite app_length; lia|].
      rewrite firstn_app_2. now rewrite <- app_assoc.
    + destruct H3 as (H4 & -> & H5). split; [exact H4|]. rewrite <- app_assoc. split; [reflexivity|]. now apply Hall.
  - destruct Hr as (Hst & j & Hj & ->). simpl.
    assert (firstn j l1 = firstn j (l1 ++ map mke match first_error (rs_nodes q) with Some _ => [] | None => before_error (rs_edges q) end)) as Hfj.
    { rewrite firstn_app. replace (j - length l1) with 0 by lia. simpl. now rewrite app_nil_r. }
    rewrite Hfj. split; [apply HR|]. split; [eapply owns_less; eauto|]. simpl. split; auto. exists j.
    split; [rewrite app_length; lia|reflexivity].
  - destruct Hr as (Hsome & -> & Hnm). simpl.
    assert (R (s ++ l1)) as HRl by (rewrite Hsome in HR; simpl in HR; rewrite app_nil_r in HR; specialize (HR (length l1)); now rewrite firstn_all in HR).
    split; auto. split; [eapply owns_less; eauto|]. rewrite Hsome. simpl. rewrite app_nil_r. auto.
Qed.

(** ** Calls *)
Definition done (K : list S) (o : rop) (n : nat) s : answer * rhandle -> list rop -> ids -> list bytes -> Prop :=
  fun rh s' M' own' => owns n (snd rh) own' /\
    if r_failed (fst rh) then exists j, j < length (parts o) /\ s' = s ++ firstn j (parts o)
    else fst rh = r_answer seqb K o /\ s' = s ++ parts o /\ named_in (given o) M'.

Lemma given_parts (o : rop) : flat_map given (parts o) = given o.
Proof.
  destruct o as [e p|t p|e|t|e p|t p|q|q]; simpl; rewrite ?app_nil_r; auto;
    rewrite flat_map_app; f_equal; rewrite !flat_map_concat_map, map_map; reflexivity.
Qed.
Lemma draws_parts (o : rop) : sum (map r_draws (parts o)) = r_draws o.
Proof.
  assert (forall l : list nat, Forall (fun x => x = 0) l -> sum l = 0) as Z.
  { induction 1 as [|x l -> _ IH]; simpl; auto. }
  assert (forall l : list nat, Forall (fun x => x = 1) l -> sum l = length l) as O1.
  { induction 1 as [|x l -> _ IH]; simpl; auto. }
  destruct o as [e p|t p|e|t|e p|t p|q|q]; simpl; auto; rewrite map_app, sum_app, !map_map; simpl;
    rewrite Z by (apply Forall_forall; intros x Hx; apply in_map_iff in Hx; destruct Hx as (y & <- & _); reflexivity);
    rewrite O1 by (apply Forall_forall; intros x Hx; apply in_map_iff in Hx; destruct Hx as (y & <- & _); reflexivity);
    now rewrite map_length.
Qed.

Lemma safe_apply (N : list S) (R : list rop -> Prop) K o h s M own n :
  adding o -> incl (given o) N -> (forall j, R (s ++ firstn j (parts o))) -> owns (r_draws o + n) h own ->
  safe N (done K o n s) R (apply o h) s M own.
Proof.
  intros Ho HN HR Hown.
  assert (single_add o -> parts o = [o] -> r_answer (SE := SE) (BE := BE) seqb K o = Ok tt -> apply o h = left_out (single_prog o h) ->
    safe N (done K o n s) R (apply o h) s M own) as Hsingle.
  { intros Hs Hp Ha ->. rewrite Hp in HR. pose proof (HR 0) as R0. pose proof (HR 1) as R1. simpl in R0, R1.
    rewrite app_nil_r in R0. apply safe_bind.
    eapply safe_mono; [apply incl_refl| | |apply (safe_single N R o h s M own n); auto]; auto.
    intros [[[]|y] h'] s' M' own' [H1 H2]; cbn [fst snd] in *.
    - destruct H2 as [-> H2]. split; auto. split; auto. simpl. rewrite Hp, Ha. auto.
    - destruct H2 as [-> H2]. split; auto. split; auto. destruct y; simpl in *; try contradiction;
        (exists 0; rewrite Hp; simpl; rewrite app_nil_r; split; [lia|auto]). }
  assert (forall mkn mke fn fe (q : rdf_source S NP EP E), apply o h = rs_bulk fn fe q h ->
    parts o = map mkn (used_nodes q) ++ map mke (used_edges q) ->
    r_answer (SE := SE) (BE := BE) seqb K o = match rdf_source_error q with Some e => Err (RightE e) | None => Ok tt end ->
    (forall a, single_add (mkn a)) -> (forall a, single_add (mke a)) ->
    (forall a h, fn (fst a) (snd a) h = single_prog (mkn a) h) -> (forall a h, fe (fst a) (snd a) h = single_prog (mke a) h) ->
    safe N (done K o n s) R (apply o h) s M own) as Hbulk.
  { intros mkn mke fn fe q -> Hp Ha H1 H2 H3 H4.
    pose proof (safe_bulk N R mkn mke fn fe n q h s M own H1 H2 H3 H4) as Hb. cbv zeta in Hb. rewrite <- Hp in Hb.
    rewrite given_parts, draws_parts in Hb. specialize (Hb HN HR Hown).
    eapply safe_mono; [apply incl_refl| | |exact Hb]; auto.
    intros [r h'] s' M' own' [Hw Hr]. split; auto. cbn [fst] in *. rewrite Ha. rewrite given_parts in Hr.
    destruct r as [[]|[e|e]]; simpl.
    - destruct Hr as (-> & -> & Hr). auto.
    - destruct Hr as (Hst & Hr). destruct e; simpl in *; auto; contradiction.
    - destruct Hr as (-> & -> & Hr). auto. }
  destruct o as [e p|t p|e|t|e p|t p|q|q]; try contradiction.
  1-4: apply Hsingle; simpl; auto.
  - apply (Hbulk (fun ip => RInsertNode (fst ip) (snd ip)) (fun te => RInsertEdge (fst te) (snd te)) (rs_insert_node cs cu cn) (rs_insert_edge cs cu ce) q);
      simpl; auto.
  - apply (Hbulk (fun ip => RMergeNode (fst ip) (snd ip)) (fun te => RMergeEdge (fst te) (snd te)) (rs_merge_node cs cu cn mn) (rs_merge_edge cs cu ce me) q);
      simpl; auto.
Qed.

(** ** Callers *)
Definition so_far (l : list rop) s : list rop -> Prop :=
  fun s' => exists s1, s' = s ++ s1 /\ r_log_so_far (SE := SE) (BE := BE) seqb l s1.
Definition through (l : list rop) (n : nat) s : list answer * rhandle -> list rop -> ids -> list bytes -> Prop :=
  fun rsh s' _ own' => owns n (snd rsh) own' /\ exists s1, s' = s ++ s1 /\ r_log seqb l (fst rsh) s1.

Lemma log_now (o : rop) l j : r_log_so_far (SE := SE) (BE := BE) seqb (o :: l) (firstn j (parts o)).
Proof. exists [], (o :: l), [], []. split; auto. split; [reflexivity|]. exists j. reflexivity. Qed.
Lemma log_later (o : rop) l (r : answer) s1 s2 : 
  (if r_failed r then exists n, n < length (parts o) /\ s1 = firstn n (parts o) else r = r_answer seqb [] o /\ s1 = parts o) ->
  r_log_so_far (SE := SE) (BE := BE) seqb l s2 -> r_log_so_far (SE := SE) (BE := BE) seqb (o :: l) (s1 ++ s2).
Proof.
  intros Hr (l1 & l2 & rs & s3 & -> & H1 & H2). exists (o :: l1), l2, (r :: rs), (s1 ++ s3).
  split; auto. split; [simpl; exists s1, s3; auto|]. destruct l2 as [|o' l2]; [now subst|].
  destruct H2 as [n ->]. exists n. now rewrite app_assoc.
Qed.

Lemma safe_history (N : list S) n l : forall h s M own,
  Forall adding l -> incl (flat_map given l) N -> owns (sum (map r_draws l) + n) h own ->
  safe N (through l n s) (so_far l s) (hist l h) s M own.
Proof.
  induction l as [|o l IH]; intros h s M own Ha HN Hown.
  - simpl. split; [|split; [auto|exists []; now rewrite app_nil_r]].
    exists []. rewrite app_nil_r. split; auto. exists [], [], [], []. simpl. auto.
  - inversion_clear Ha as [|? ? Ho Hl]. cbn [rs_history]. cbn [sum map fold_right] in Hown. change (fold_right Nat.add 0) with sum in Hown.
    rewrite <- Nat.add_assoc in Hown. simpl in HN.
    assert (incl (given o) N /\ incl (flat_map given l) N) as [N1 N2] by (split; intros x Hx; apply HN, in_app_iff; auto).
    apply safe_bind.
    assert (forall j, so_far (o :: l) s (s ++ firstn j (parts o))) as HR.
    { intros j. exists (firstn j (parts o)). split; auto. apply log_now. }
    eapply safe_mono; [apply incl_refl| | |apply (safe_apply N _ [] o h s M own _ Ho N1 HR Hown)]; auto.
    intros [r h'] s' M' own' [H1 H2]. cbn [fst snd] in *. apply safe_bind.
    assert (exists s1, s' = s ++ s1 /\ (if r_failed r then exists n, n < length (parts o) /\ s1 = firstn n (parts o) else r = r_answer seqb [] o /\ s1 = parts o)) as (s1 & -> & Hr).
    { destruct (r_failed r); [destruct H2 as (j & Hj & ->); eauto|]. destruct H2 as (H2 & -> & _). eauto. }
    eapply safe_mono; [apply incl_refl| | |apply (IH h' (s ++ s1) M' own' Hl N2 H1)].
    + intros s2 (s3 & -> & H3). exists (s1 ++ s3). rewrite app_assoc. split; auto. eapply log_later; eauto.
    + intros [rs h2] s2 M2 own2 (Ho2 & s3 & -> & H3). cbn [fst snd] in *. simpl. split.
      * exists (s1 ++ s3). rewrite app_assoc. split; auto. eapply log_later; eauto.
        exists l, [], rs, s3. rewrite app_nil_r. auto.
      * split; auto. exists (s1 ++ s3). rewrite app_assoc. split; auto. simpl. exists s1, s3. auto.
Qed.

End Safe.
