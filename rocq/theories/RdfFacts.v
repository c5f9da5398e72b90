(** Lemmas about the RDF store: what a call does to the names and to the graph. *)
From Coq Require Import Arith NArith List Sorted Lia Bool.
From Verif Require Import Bytes BytesFacts OMap Core IdType IdTypeFacts Store Mem MemIndex Spec History
  GenSpec ListFacts IdGenFacts MemSim MemTop Rdf RdfSpec.
Import ListNotations.

Section Facts.
Context {S NP EP E : Type} (seqb : S -> S -> bool).
Context (seqb_eq : forall a b, seqb a b = true <-> a = b).
Context (mn : NP -> NP -> NP) (me : EP -> EP -> EP).
Notation I := (Id KUlid).
Notation ent := (entity S).
Notation R := (rdf S NP EP).
Notation rop := (rop S NP EP E).
Notation op := (op KUlid NP EP E).
Notation G := (graph KUlid NP EP).
Notation EG := (egraph S NP EP).
Notation err := (rdf_error S (index_error S I) unit).
Notation l2r r := (left_to_right seqb (name_index r)).
Notation r2l r := (right_to_left id_eqb (name_index r)).
Implicit Types r : R.
Implicit Types e : ent.

Notation set_spec := (set_spec seqb id_eqb).

Lemma seqb_refl s : seqb s s = true. Proof. now apply seqb_eq. Qed.

Definition later r r' : Prop :=
  g_seq (r_ulids r) = g_seq (r_ulids r') /\ g_pos (r_ulids r) <= g_pos (r_ulids r').
Definition ext r r' : Prop :=
  (forall s i, l2r r s = Some i -> l2r r' s = Some i) /\ (forall i s, r2l r i = Some s -> r2l r' i = Some s).
Notation denotes := (denotes seqb).

Record inv (known : list S) r : Prop := {
  iv_one : one_to_one (l2r r) (r2l r);
  iv_dom : forall s, l2r r s <> None <-> In s known
}.

(** Every identifier in the index was drawn by this store. *)
Definition drawn r : Prop :=
  forall i s, r2l r i = Some s -> exists n, n < g_pos (r_ulids r) /\ g_seq (r_ulids r) n = i.

Definition name_error {A} (x : result err A) : Prop := exists y, x = Err (NameIndexStorageError y).
Definition name_error_lr (x : result (lr_error err E) unit) : Prop :=
  exists y, x = Err (LeftE (NameIndexStorageError y)).

Lemma later_refl r : later r r. Proof. split; auto. Qed.
Lemma later_trans a b c : later a b -> later b c -> later a c.
Proof. intros [A1 A2] [B1 B2]. split; [congruence | lia]. Qed.
Lemma ext_refl r : ext r r. Proof. split; auto. Qed.
Lemma ext_trans a b c : ext a b -> ext b c -> ext a c.
Proof. intros [A1 A2] [B1 B2]. split; auto. Qed.
Lemma later_distinct r r' : later r r' -> drawn_distinct (r_ulids r') -> drawn_distinct (r_ulids r).
Proof. intros [A B] D i j Hi Hj. rewrite A. apply D; lia. Qed.
Lemma denotes_ext r r' e i : ext r r' -> denotes r e i -> denotes r' e i.
Proof. intros [X _]. destruct e; simpl; auto. Qed.

Lemma inv_new g u : inv [] (rdf_new g u).
Proof.
  split; simpl.
  - intros s i. split; discriminate.
  - intros s. unfold left_to_right. simpl. split; [congruence | tauto].
Qed.

Lemma inv_equiv known known' r : (forall s, In s known <-> In s known') -> inv known r -> inv known' r.
Proof. intros H [A B]. split; auto. intros s. rewrite B. apply H. Qed.

(** The naming does not depend on the graph. *)
Lemma inv_graph known r g : inv known r -> inv known (set_graph g r).
Proof. intros [A B]. split; auto. Qed.

(** ** One entity *)
Definition settled {A} (known names : list S) r r' (x : result err A) (want : Prop) : Prop :=
  later r r' /\ ext r r' /\ r_graph r' = r_graph r /\
  (drawn r -> drawn_distinct (r_ulids r') -> ~ name_error x /\ drawn r') /\
  (inv known r -> ~ name_error x -> want /\ inv (known ++ names) r').

Lemma create_spec known e r x r' :
  lookup_or_create_entity seqb e r = (x, r') ->
  settled known (name_of e) r r' x (exists i, x = Ok i /\ denotes r' e i).
Proof.
  destruct e as [s|i]; simpl; intros H.
  2: { inversion H; subst. split; [apply later_refl|]. split; [apply ext_refl|]. split; auto.
       split; [intros V D; split; auto; intros [? ?]; discriminate|].
       intros V D. simpl. rewrite app_nil_r. eauto. }
  destruct (l2r r s) as [i|] eqn:L.
  { inversion H; subst. split; [apply later_refl|]. split; [apply ext_refl|]. split; auto.
    split; [intros V D; split; auto; intros [? ?]; discriminate|].
    intros V D. split; [eauto|]. eapply inv_equiv; [|exact V]. intros s'. rewrite in_app_iff. simpl.
    split; [auto|]. intros [K|[<-|[]]]; auto. apply V. congruence. }
  unfold fresh in H. pose proof (set_spec s (g_seq (r_ulids r) (g_pos (r_ulids r))) (name_index r)) as P.
  set (id := g_seq (r_ulids r) (g_pos (r_ulids r))) in *.
  destruct (index_set seqb id_eqb s id (name_index r)) as [y ix] eqn:Y. simpl in P.
  assert (La : later r r' /\ r_graph r' = r_graph r /\ name_index r' = ix /\
               x = match y with Ok _ => Ok id | Err e => Err (NameIndexStorageError e) end /\
               r_ulids r' = Gen (g_seq (r_ulids r)) (1 + g_pos (r_ulids r))).
  { destruct y; inversion H; subst; unfold later; simpl; auto 10. }
  destruct La as (La & Gr & Nx & Ex & Ul).
  assert (Xt : ext r r').
  { unfold ext. rewrite Nx. destruct y as [[]|[l1 r1 r2|r1 l1 l2]].
    - destruct P as (P1 & P2 & P3 & P4). split; intros a b Hab; [rewrite P3 | rewrite P4].
      + destruct (seqb a s) eqn:Q; auto. apply seqb_eq in Q. congruence.
      + destruct (id_eqb a id) eqn:Q; auto. apply id_eqb_eq in Q. congruence.
    - destruct P as (_ & _ & P & _). congruence.
    - destruct P as (_ & _ & P1 & _ & P3 & P4). split; intros a b Hab; [rewrite P3 | now rewrite P4].
      destruct (seqb a s) eqn:Q; auto. apply seqb_eq in Q. congruence. }
  split; auto. split; auto. split; auto. split.
  { intros V3 D. destruct y as [[]|[l1 r1 r2|r1 l1 l2]].
    - destruct P as (P1 & P2 & P3 & P4). split; [rewrite Ex; intros [? ?]; discriminate|].
      intros i a. rewrite Nx, P4, Ul. simpl. destruct (id_eqb i id) eqn:Q.
      + apply id_eqb_eq in Q. intros _. exists (g_pos (r_ulids r)). split; [lia|]. now subst.
      + intros Q'. destruct (V3 _ _ Q') as (n & Hn & En). exists n. split; [lia | auto].
    - destruct P as (_ & _ & P & _). congruence.
    - destruct P as (-> & -> & P1 & P2 & _). exfalso. apply V3 in P2. destruct P2 as (n & Hn & En).
      rewrite Ul in D. unfold drawn_distinct in D. simpl in D.
      assert (n = g_pos (r_ulids r)) by (apply D; [lia | lia | exact En]). lia. }
  intros [V1 V2] D.
  destruct y as [[]|y]; [|exfalso; apply D; rewrite Ex; eexists; reflexivity].
  destruct P as (P1 & P2 & P3 & P4). split.
  - exists id. split; auto. simpl. now rewrite Nx, P3, seqb_refl.
  - split.
    + intros a b. rewrite Nx, P3, P4. destruct (seqb a s) eqn:Qa; destruct (id_eqb b id) eqn:Qb.
      * apply seqb_eq in Qa. apply id_eqb_eq in Qb. subst. tauto.
      * apply seqb_eq in Qa. subst a. split.
        -- intros [= <-]. assert (id_eqb id id = true) by now apply id_eqb_eq. congruence.
        -- intros Q. apply V1 in Q. congruence.
      * apply id_eqb_eq in Qb. subst b. split.
        -- intros Q. apply V1 in Q. congruence.
        -- intros [= <-]. rewrite seqb_refl in Qa. discriminate.
      * apply V1.
    + intros a. rewrite Nx, P3, in_app_iff. simpl. rewrite <- V2. destruct (seqb a s) eqn:Qa.
      * apply seqb_eq in Qa. subst. split; auto. discriminate.
      * split; [auto|]. intros [Q|[<-|[]]]; auto. now rewrite seqb_refl in Qa.
Qed.

Lemma name_error_err {A B} (x : err) : ~ name_error (Err x : result err A) -> ~ name_error (Err x : result err B).
Proof. intros H [e K]. apply H. exists e. congruence. Qed.
Lemma ok_no_error {A} (a : A) : ~ name_error (Ok a).
Proof. intros [e K]. discriminate. Qed.
Hint Resolve ok_no_error : core.

Lemma create3_spec known t r x r' :
  triple_try_map_st (lookup_or_create_entity seqb) t r = (x, r') ->
  settled known (names_of t) r r' x
    (exists a b c, x = Ok (Triple a b c) /\ denotes r' (sub t) a /\ denotes r' (pred t) b /\ denotes r' (obj t) c).
Proof.
  unfold triple_try_map_st. intros H.
  destruct (lookup_or_create_entity seqb (sub t) r) as [x1 r1] eqn:H1.
  destruct (create_spec known _ _ _ _ H1) as (L1 & X1 & G1 & D1 & V1).
  destruct x1 as [a|x1].
  2: { inversion H; subst x r'. split; auto. split; auto. split; auto. split.
       - intros Dr D. destruct (D1 Dr D) as [N Dr']. split; auto. eapply name_error_err; eauto.
       - intros V D. destruct (V1 V (name_error_err _ D)) as [(? & ? & _) _]. discriminate. }
  destruct (lookup_or_create_entity seqb (pred t) r1) as [x2 r2] eqn:H2.
  destruct (create_spec (known ++ name_of (sub t)) _ _ _ _ H2) as (L2 & X2 & G2 & D2 & V2).
  pose proof (later_trans _ _ _ L1 L2) as L12. pose proof (ext_trans _ _ _ X1 X2) as X12.
  assert (D12 : drawn r -> drawn_distinct (r_ulids r2) -> ~ name_error x2 /\ drawn r2).
  { intros Dr D. apply D2; auto. apply D1; auto. eapply later_distinct; eauto. }
  destruct x2 as [b|x2].
  2: { inversion H; subst x r'. split; auto. split; auto. split; [congruence|]. split.
       - intros Dr D. destruct (D12 Dr D) as [N Dr']. split; auto. eapply name_error_err; eauto.
       - intros V D. destruct (V1 V (ok_no_error _)) as [_ V'].
         destruct (V2 V' (name_error_err _ D)) as [(? & ? & _) _]. discriminate. }
  destruct (lookup_or_create_entity seqb (obj t) r2) as [x3 r3] eqn:H3.
  destruct (create_spec ((known ++ name_of (sub t)) ++ name_of (pred t)) _ _ _ _ H3) as (L3 & X3 & G3 & D3 & V3).
  pose proof (later_trans _ _ _ L12 L3) as L13. pose proof (ext_trans _ _ _ X12 X3) as X13.
  assert (E3 : r' = r3 /\ x = match x3 with Ok c => Ok (Triple a b c) | Err e => Err e end)
    by (destruct x3; inversion H; auto).
  destruct E3 as [-> ->]. split; auto. split; auto. split; [congruence|]. split.
  { intros Dr D. destruct (D3 (proj2 (D12 Dr (later_distinct _ _ L3 D))) D) as [N Dr']. split; auto.
    destruct x3; auto. eapply name_error_err; eauto. }
  intros V D.
  destruct (V1 V (ok_no_error _)) as [(a' & [= <-] & Da) Va].
  destruct (V2 Va (ok_no_error _)) as [(b' & [= <-] & Db) Vb].
  assert (D' : ~ name_error x3) by (destruct x3; auto; eapply name_error_err; eauto).
  destruct (V3 Vb D') as [(c & -> & Dc) Vc]. split.
  - exists a, b, c. split; auto. split; [|split]; auto.
    + eapply denotes_ext; [exact X3|]. eapply denotes_ext; [exact X2|]. exact Da.
    + eapply denotes_ext; [exact X3|]. exact Db.
  - eapply inv_equiv; [|exact Vc]. intros s. unfold names_of. rewrite !in_app_iff. tauto.
Qed.

Lemma unknown_spec known r names : inv known r ->
  match first_unknown seqb known names with
  | Some s => l2r r s = None
  | None => forall s, In s names -> exists i, l2r r s = Some i
  end.
Proof.
  intros V. unfold first_unknown.
  assert (K : forall s, existsb (seqb s) known = true <-> exists i, l2r r s = Some i).
  { intros s. rewrite existsb_exists. split.
    - intros (s' & H1 & H2). apply seqb_eq in H2. subst s'. apply V in H1.
      destruct (l2r r s); [eauto | congruence].
    - intros [i H]. exists s. split; [|apply seqb_refl]. apply V. congruence. }
  destruct (find _ names) as [s|] eqn:F.
  - apply find_some in F. destruct F as [_ F]. apply negb_true_iff in F.
    destruct (l2r r s) as [i|] eqn:L; auto. assert (existsb (seqb s) known = true) by (apply K; eauto). congruence.
  - intros s Hs. pose proof (find_none _ _ F s Hs) as Q. simpl in Q. apply negb_false_iff in Q. now apply K.
Qed.

Lemma lookup_spec known e r : inv known r ->
  match first_unknown seqb known (name_of e) with
  | Some s => lookup_entity seqb (name_index r) e = Err (NameNotFound s)
  | None => exists i, lookup_entity seqb (name_index r) e = Ok i /\ denotes r e i
  end.
Proof.
  intros V. pose proof (unknown_spec known r (name_of e) V) as U.
  destruct e as [s|i]; simpl in *; [|eauto].
  unfold first_unknown in *. simpl in *. destruct (negb _); simpl in *.
  - now rewrite U.
  - destruct (U s (or_introl eq_refl)) as [i Hi]. rewrite Hi. eauto.
Qed.

Lemma find_app {A} (f : A -> bool) l l' :
  find f (l ++ l') = match find f l with Some a => Some a | None => find f l' end.
Proof. induction l; simpl; auto. now destruct (f a). Qed.

Lemma lookup3_spec known t r : inv known r ->
  match first_unknown seqb known (names_of t) with
  | Some s => triple_try_map (lookup_entity seqb (name_index r)) t = Err (NameNotFound s)
  | None => exists a b c, triple_try_map (lookup_entity seqb (name_index r)) t = Ok (Triple a b c) /\
      denotes r (sub t) a /\ denotes r (pred t) b /\ denotes r (obj t) c
  end.
Proof.
  intros V. unfold names_of, first_unknown, triple_try_map. rewrite !find_app.
  pose proof (lookup_spec known (sub t) r V) as A. pose proof (lookup_spec known (pred t) r V) as B.
  pose proof (lookup_spec known (obj t) r V) as C. unfold first_unknown in *.
  destruct (find _ (name_of (sub t))); [now rewrite A|]. destruct A as (a & -> & Da).
  destruct (find _ (name_of (pred t))); [now rewrite B|]. destruct B as (b & -> & Db).
  destruct (find _ (name_of (obj t))); [now rewrite C|]. destruct C as (c & -> & Dc).
  exists a, b, c. auto.
Qed.

(** ** The graph of a call *)

(** The identifier of an entity; the default is never used for a name that has one. *)
Definition behind r e : I :=
  match e with
  | EString s => match l2r r s with Some i => i | None => uint_mk 16 0 end
  | EUlid i => i
  end.

Lemma denotes_behind r e i : denotes r e i -> i = behind r e.
Proof. destruct e as [s|j]; simpl; auto. now intros ->. Qed.

Definition id_ops (d : ent -> I) (known : list S) (o : rop) : list op :=
  match o with
  | RInsertNode e p => [OInsertNode (d e) p]
  | RInsertEdge t p => [OInsertEdge (triple_map d t) p]
  | RRemoveNode e =>
      match first_unknown seqb known (name_of e) with Some _ => [] | None => [ORemoveNode (d e)] end
  | RRemoveEdge t =>
      match first_unknown seqb known (names_of t) with Some _ => [] | None => [ORemoveEdge (triple_map d t)] end
  | RMergeNode e p => [OMergeNode (d e) p]
  | RMergeEdge t p => [OMergeEdge (triple_map d t) p]
  | RExtend s =>
      map (fun ip => OInsertNode (d (fst ip)) (snd ip)) (used_nodes s) ++
      map (fun te => OInsertEdge (triple_map d (fst te)) (snd te)) (used_edges s)
  | RMerge s =>
      map (fun ip => OMergeNode (d (fst ip)) (snd ip)) (used_nodes s) ++
      map (fun te => OMergeEdge (triple_map d (fst te)) (snd te)) (used_edges s)
  end.

(** [r'] follows [r] by a call that answered [x]; if that is not an error of the index ([ne]),
    the answer is as [want] says and the call did [l] to the graph. *)
Definition did {X} (ne : X -> Prop) (known names : list S) r r' (x want : X) (l : (ent -> I) -> list op) : Prop :=
  later r r' /\ ext r r' /\
  (drawn r -> drawn_distinct (r_ulids r') -> ~ ne x /\ drawn r') /\
  (inv known r -> ~ ne x ->
    x = want /\ inv (known ++ names) r' /\
    forall rf, ext r' rf -> r_graph r' = mem_history mn me (l (behind rf)) (r_graph r)).

Lemma did_node known e (f : I -> mem KUlid NP EP -> mem KUlid NP EP) (o : I -> op) r x r' :
  (forall i m, f i m = mem_apply mn me (o i) m) ->
  then_graph (lookup_or_create_entity seqb e r) f = (x, r') ->
  did name_error known (name_of e) r r' x (Ok tt) (fun d => [o (d e)]).
Proof.
  intros Hf H. unfold then_graph in H.
  destruct (lookup_or_create_entity seqb e r) as [y r1] eqn:Y.
  destruct (create_spec known _ _ _ _ Y) as (L & X & Gr & Dr & V).
  destruct y as [i|y].
  - inversion H; subst x r'. split; [exact L|]. split; [exact X|].
    split; [intros A B; split; auto; now apply Dr|]. intros Iv D.
    destruct (V Iv (ok_no_error _)) as [(i' & [= <-] & Di) V']. split; auto. split; [now apply inv_graph|].
    intros rf Xf. simpl. rewrite Hf, Gr. do 2 f_equal.
    apply denotes_behind. eapply denotes_ext; [|exact Di]. exact Xf.
  - inversion H; subst x r'. split; [exact L|]. split; [exact X|]. split.
    + intros A B. destruct (Dr A B). split; auto. eapply name_error_err; eauto.
    + intros Iv D. destruct (V Iv (name_error_err _ D)) as [(i' & ? & Di) V']. discriminate.
Qed.

Lemma did_edge known t (f : triple I -> mem KUlid NP EP -> mem KUlid NP EP) (o : triple I -> op) r x r' :
  (forall i m, f i m = mem_apply mn me (o i) m) ->
  then_graph (triple_try_map_st (lookup_or_create_entity seqb) t r) f = (x, r') ->
  did name_error known (names_of t) r r' x (Ok tt) (fun d => [o (triple_map d t)]).
Proof.
  intros Hf H. unfold then_graph in H.
  destruct (triple_try_map_st (lookup_or_create_entity seqb) t r) as [y r1] eqn:Y.
  destruct (create3_spec known _ _ _ _ Y) as (L & X & Gr & Dr & V).
  destruct y as [i|y].
  - inversion H; subst x r'. split; [exact L|]. split; [exact X|].
    split; [intros A B; split; auto; now apply Dr|]. intros Iv D.
    destruct (V Iv (ok_no_error _)) as [(a & b & c & [= ->] & Da & Db & Dc) V']. split; auto. split; [now apply inv_graph|].
    intros rf Xf. simpl. rewrite Hf, Gr. do 2 f_equal. unfold triple_map. f_equal;
    apply denotes_behind; (eapply denotes_ext; [exact Xf|]); assumption.
  - inversion H; subst x r'. split; [exact L|]. split; [exact X|]. split.
    + intros A B. destruct (Dr A B). split; auto. eapply name_error_err; eauto.
    + intros Iv D. destruct (V Iv (name_error_err _ D)) as [(a & b & c & ? & Di) V']. discriminate.
Qed.

Lemma mem_history_app l l' (m : mem KUlid NP EP) :
  mem_history mn me (l ++ l' : list op) m = mem_history mn me l' (mem_history mn me l m).
Proof. apply fold_left_app. Qed.

Lemma ok_no_error_lr u : ~ name_error_lr (Ok u).
Proof. intros [e K]. discriminate. Qed.
Lemma right_no_error_lr (e : E) : ~ name_error_lr (Err (RightE e)).
Proof. intros [e' K]. discriminate. Qed.
Lemma left_error_lr (x : err) : name_error_lr (Err (LeftE x)) <-> name_error (Err x : result err unit).
Proof. split; intros [e K]; exists e; congruence. Qed.
Hint Resolve ok_no_error_lr right_no_error_lr : core.

(** A loop over a source. *)
Lemma did_loop {A} (step : A -> R -> result err unit * R) (names : A -> list S) (o : (ent -> I) -> A -> op)
    (Hs : forall known a r x r', step a r = (x, r') ->
            did name_error known (names a) r r' x (Ok tt) (fun d => [o d a])) :
  forall (l : list (result E A)) known r x r',
    rdf_for_each step l r = (x, r') ->
    did name_error_lr known (flat_map names (before_error l)) r r' x
      (match first_error l with Some e => Err (RightE e) | None => Ok tt end)
      (fun d => map (o d) (before_error l)).
Proof.
  induction l as [|[a|e] l IH]; intros known r x r' H; simpl in *.
  - inversion H; subst. split; [apply later_refl|]. split; [apply ext_refl|]. rewrite app_nil_r. auto.
  - destruct (step a r) as [y r1] eqn:Y. destruct (Hs known _ _ _ _ Y) as (L1 & X1 & D1 & V1).
    destruct y as [[]|y].
    + destruct (IH (known ++ names a) _ _ _ H) as (L2 & X2 & D2 & V2).
      split; [eapply later_trans; eauto|]. split; [eapply ext_trans; eauto|]. split.
      { intros Dr D. apply D2; auto. apply D1; auto. eapply later_distinct; eauto. }
      intros Iv D.
      destruct (V1 Iv (ok_no_error _)) as (_ & I1 & G1).
      destruct (V2 I1 D) as (-> & I2 & G2). split; auto. split; [now rewrite app_assoc|].
      intros rf Xf. rewrite (G2 rf Xf). rewrite (G1 rf) by (eapply ext_trans; eauto). reflexivity.
    + inversion H; subst. split; auto. split; auto. split.
      { intros Dr D. rewrite left_error_lr. auto. }
      intros Iv D. rewrite left_error_lr in D. destruct (V1 Iv D) as (? & _). discriminate.
  - inversion H; subst. split; [apply later_refl|]. split; [apply ext_refl|]. rewrite app_nil_r. auto.
Qed.

Lemma did_bulk (fn : ent -> NP -> R -> result err unit * R) (fe : triple ent -> EP -> R -> result err unit * R)
    (on : I -> NP -> op) (oe : triple I -> EP -> op)
    (Hn : forall known e p r x r', fn e p r = (x, r') ->
            did name_error known (name_of e) r r' x (Ok tt) (fun d => [on (d e) p]))
    (He : forall known t p r x r', fe t p r = (x, r') ->
            did name_error known (names_of t) r r' x (Ok tt) (fun d => [oe (triple_map d t) p])) known s r x r' :
  rdf_bulk (E := E) fn fe s r = (x, r') ->
  did name_error_lr known (flat_map (fun ip => name_of (fst ip)) (used_nodes s) ++
             flat_map (fun te => names_of (fst te)) (used_edges s)) r r' x
    (match rdf_source_error s with Some e => Err (RightE e) | None => Ok tt end)
    (fun d => map (fun ip => on (d (fst ip)) (snd ip)) (used_nodes s) ++
              map (fun te => oe (triple_map d (fst te)) (snd te)) (used_edges s)).
Proof.
  unfold rdf_bulk. intros H.
  destruct (rdf_for_each _ (rs_nodes s) r) as [y r1] eqn:Y.
  pose proof (did_loop _ (fun ip => name_of (fst ip)) (fun d ip => on (d (fst ip)) (snd ip))
                (fun known a => Hn known (fst a) (snd a)) _ known _ _ _ Y) as (L1 & X1 & D1 & V1).
  unfold used_nodes, used_edges, rdf_source_error. destruct y as [[]|y].
  - pose proof (did_loop _ (fun ip => names_of (fst ip)) (fun d ip => oe (triple_map d (fst ip)) (snd ip))
                  (fun known a => He known (fst a) (snd a)) _
                  (known ++ flat_map (fun ip => name_of (fst ip)) (before_error (rs_nodes s))) _ _ _ H)
      as (L2 & X2 & D2 & V2).
    split; [eapply later_trans; eauto|]. split; [eapply ext_trans; eauto|]. split.
    { intros Dr D. apply D2; auto. apply D1; auto. eapply later_distinct; eauto. }
    intros Iv D.
    destruct (V1 Iv (ok_no_error_lr _)) as (E1 & I1 & G1).
    destruct (first_error (rs_nodes s)); [discriminate|].
    destruct (V2 I1 D) as (-> & I2 & G2). split; auto. split; [now rewrite app_assoc|].
    intros rf Xf. rewrite mem_history_app, (G2 rf Xf). now rewrite (G1 rf) by (eapply ext_trans; eauto).
  - inversion H; subst. split; auto. split; auto. split; auto. intros Iv D.
    destruct (V1 Iv D) as (E1 & I1 & G1). destruct (first_error (rs_nodes s)); [|discriminate].
    split; [exact E1|]. simpl. split; [now rewrite app_nil_r|]. intros rf Xf. rewrite app_nil_r. auto.
Qed.

Lemma did_apply known o r x r' :
  rdf_apply seqb mn me o r = (x, r') ->
  did name_error_lr known (given o) r r' x (e_answer seqb known o) (fun d => id_ops d known o).
Proof.
  assert (W : forall (y : result err unit * R) l names, as_left (E := E) y = (x, r') ->
            (forall y1, y = (y1, r') -> did name_error known names r r' y1 (Ok tt) l) ->
            did name_error_lr known names r r' x (Ok tt) l).
  { intros [y1 y2] l names H K. inversion H; subst. destruct (K _ eq_refl) as (L & X' & Dr & V).
    split; auto. split; auto.
    assert (Q : name_error_lr (match y1 with Ok u => Ok u | Err e => Err (LeftE e) end) <-> name_error y1).
    { destruct y1; [|apply left_error_lr]. split; intros [? ?]; discriminate. }
    simpl. split; [now rewrite Q|]. rewrite Q. intros Iv D. destruct (V Iv D) as (-> & I' & G'). auto. }
  destruct o as [e p|t p|e|t|e p|t p|s|s]; simpl; intros H.
  - eapply W; [exact H|]. intros y1. apply did_node with (o := fun i => OInsertNode i p). reflexivity.
  - eapply W; [exact H|]. intros y1. apply did_edge with (o := fun i => OInsertEdge i p). reflexivity.
  - unfold rdf_remove_node, then_graph, as_left in H.
    assert (N : name_index r' = name_index r /\ r_ulids r' = r_ulids r /\ ~ name_error_lr x).
    { destruct e as [s|i]; simpl in H; [destruct (l2r r s)|]; inversion H; repeat split; auto.
      simpl. intros [? ?]. discriminate. }
    destruct N as (N1 & N2 & N3). split; [unfold later; rewrite N2; auto|].
    split; [unfold ext; rewrite N1; auto|]. split; [unfold drawn; rewrite N1, N2; auto|].
    intros Iv D. rewrite app_nil_r.
    pose proof (lookup_spec known e r Iv) as K. destruct (first_unknown seqb known (name_of e)) as [s|].
    + rewrite K in H. inversion H; subst. auto.
    + destruct K as (i & K & Di). rewrite K in H. inversion H; subst. split; auto.
      split; [now apply inv_graph|]. intros rf Xf. simpl. f_equal. apply denotes_behind.
      eapply denotes_ext; [|exact Di]. exact Xf.
  - unfold rdf_remove_edge, then_graph, as_left in H.
    assert (N : name_index r' = name_index r /\ r_ulids r' = r_ulids r /\ ~ name_error_lr x).
    { assert (L : forall e, ~ name_error (lookup_entity seqb (name_index r) e : result err I)).
      { intros [s|i]; simpl; [destruct (l2r r s)|]; auto; intros [? ?]; discriminate. }
      unfold triple_try_map in H.
      destruct (lookup_entity seqb (name_index r) (sub t)) as [a|x1] eqn:Q1;
        [destruct (lookup_entity seqb (name_index r) (pred t)) as [b|x1] eqn:Q2;
        [destruct (lookup_entity seqb (name_index r) (obj t)) as [c|x1] eqn:Q3|]|];
      inversion H; repeat split; auto; simpl; rewrite left_error_lr; eapply name_error_err;
      first [rewrite <- Q3 | rewrite <- Q2 | rewrite <- Q1]; apply L. }
    destruct N as (N1 & N2 & N3). split; [unfold later; rewrite N2; auto|].
    split; [unfold ext; rewrite N1; auto|]. split; [unfold drawn; rewrite N1, N2; auto|].
    intros Iv D. rewrite app_nil_r.
    pose proof (lookup3_spec known t r Iv) as K. destruct (first_unknown seqb known (names_of t)) as [s|].
    + rewrite K in H. inversion H; subst. auto.
    + destruct K as (a & b & c & K & Da & Db & Dc). rewrite K in H. inversion H; subst. split; auto.
      split; [now apply inv_graph|]. intros rf Xf. simpl. f_equal. unfold triple_map.
      f_equal; apply denotes_behind; (eapply denotes_ext; [exact Xf|]); assumption.
  - eapply W; [exact H|]. intros y1. apply did_node with (o := fun i => OMergeNode i p). reflexivity.
  - eapply W; [exact H|]. intros y1. apply did_edge with (o := fun i => OMergeEdge i p). reflexivity.
  - eapply (did_bulk _ _ OInsertNode OInsertEdge); [| |exact H].
    + intros k1 e p r1 x1 r2. apply did_node with (o := fun i => OInsertNode i p). reflexivity.
    + intros k1 e p r1 x1 r2. apply did_edge with (o := fun i => OInsertEdge i p). reflexivity.
  - eapply (did_bulk _ _ OMergeNode OMergeEdge); [| |exact H].
    + intros k1 e p r1 x1 r2. apply did_node with (o := fun i => OMergeNode i p). reflexivity.
    + intros k1 e p r1 x1 r2. apply did_edge with (o := fun i => OMergeEdge i p). reflexivity.
Qed.

(** ** Histories *)
Definition all_given (l : list rop) : list S := flat_map given l.

Fixpoint history_ops (d : ent -> I) (known : list S) (l : list rop) : list op :=
  match l with
  | [] => []
  | o :: l' => id_ops d known o ++ history_ops d (known ++ given o) l'
  end.

Fixpoint answers_of (known : list S) (l : list rop) : list (result (lr_error err E) unit) :=
  match l with
  | [] => []
  | o :: l' => e_answer seqb known o :: answers_of (known ++ given o) l'
  end.

Lemma did_history l : forall known r x r',
  rdf_history seqb mn me l r = (x, r') ->
  did (Exists name_error_lr) known (all_given l) r r' x (answers_of known l) (fun d => history_ops d known l).
Proof.
  induction l as [|o l IH]; intros known r x r' H; simpl in *.
  - inversion H; subst. split; [apply later_refl|]. split; [apply ext_refl|]. rewrite app_nil_r.
    split; auto. intros Dr D. split; auto. intros K. inversion K.
  - destruct (rdf_apply seqb mn me o r) as [x1 r1] eqn:H1.
    destruct (rdf_history seqb mn me l r1) as [xs r2] eqn:H2. inversion H; subst x r'.
    destruct (did_apply known _ _ _ _ H1) as (L1 & X1 & D1 & V1).
    destruct (IH (known ++ given o) _ _ _ H2) as (L2 & X2 & D2 & V2).
    split; [eapply later_trans; eauto|]. split; [eapply ext_trans; eauto|]. rewrite Exists_cons. split.
    { intros Dr D. destruct (D1 Dr (later_distinct _ _ L2 D)) as [N1 Dr1]. destruct (D2 Dr1 D). tauto. }
    intros Iv D.
    destruct (V1 Iv ltac:(tauto)) as (-> & I1 & G1).
    destruct (V2 I1 ltac:(tauto)) as (-> & I2 & G2). split; auto. split; [now rewrite app_assoc|].
    intros rf Xf. rewrite mem_history_app, (G2 rf Xf). now rewrite (G1 rf) by (eapply ext_trans; eauto).
Qed.

End Facts.
