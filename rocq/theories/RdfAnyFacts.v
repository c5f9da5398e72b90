(** Calls on an RdfTripleStore over any name index and any graph that do what is required. *)
From Coq Require Import Arith NArith List Bool Sorted Lia.
From Verif Require Import Bytes OMap Core IdType Store Mem MemIndex Spec History GenSpec Prog Sled SledHistory Rdf RdfSpec RdfTop RdfSled RdfSledSpec
  RdfSledSafe RdfSledConc RdfAny RdfAnySpec.
Import ListNotations.

Section Facts.
Context {S NP EP X Y F IE GE E : Type} (seqb : S -> S -> bool) (seqb_eq : forall a b, seqb a b = true <-> a = b).
Context (ix : any_index S X F IE) (gr : any_graph NP EP Y F GE) (mn : NP -> NP -> NP) (me : EP -> EP -> EP).
Context (calm : F -> Prop) (goodx : X -> Prop) (l2r : X -> S -> option (Id KUlid)) (r2l : X -> Id KUlid -> option S).
Context (goody : nat -> Y -> Prop) (abs : Y -> graph KUlid NP EP).
Context (HI : names_ok ix calm goodx l2r r2l) (HG : graph_ok E gr mn me calm goody abs).
Notation I := (Id KUlid).
Notation ent := (entity S).
Notation R := (any_rdf X Y F).
Notation err := (rdf_error S IE GE).
Notation M A := (R -> result err A * R).
Notation rop := (rop S NP EP E).
Notation op := (op KUlid NP EP E).
Notation EG := (egraph S NP EP).
Notation answer := (result (lr_error err E) unit).
Notation nu w := (l2r (a_names w)).
Notation rho w := (r2l (a_names w)).
Notation G w := (abs (a_graph w)).
Notation view := (RdfTop.view (S := S) (NP := NP) (EP := EP)).
Notation run F := (e_run seqb mn me (by_name F)).
Notation apply := (a_apply (E := E) ix gr).
Notation history := (a_history (E := E) ix gr).
Notation stands := (stands (S := S) (NP := NP) (EP := EP) (E := E)).
Implicit Types w : R.
Implicit Types o : rop.
Implicit Types K : list S.

(** ** What is kept *)
Definition room (n : nat) w : Prop :=
  NoDup (next_ids (a_ulids w) n) /\ forall i, In i (next_ids (a_ulids w) n) -> rho w i = None.
Definition new_only (N : list S) w w' : Prop := forall s, nu w' s <> None -> nu w s <> None \/ In s N.
Definition keeps (N : list S) w w' : Prop := goodx (a_names w') /\ below (nu w) (nu w') /\ new_only N w w'.
Definition knows K w : Prop := forall s, nu w s <> None <-> In s K.

Lemma keeps_refl N w : goodx (a_names w) -> keeps N w w.
Proof. intros H. split; auto. split; [apply below_refl|]. intros s Hs. auto. Qed.
Lemma keeps_trans N N' w1 w2 w3 : keeps N w1 w2 -> keeps N' w2 w3 -> keeps (N ++ N') w1 w3.
Proof.
  intros (A1 & A2 & A3) (B1 & B2 & B3). split; auto. split; [eapply below_trans; eauto|].
  intros s Hs. destruct (B3 s Hs) as [H|H]; [destruct (A3 s H)|]; auto; right; apply in_app_iff; auto.
Qed.
Lemma keeps_incl N N' w w' : incl N N' -> keeps N w w' -> keeps N' w w'.
Proof. intros H (A & B & C). split; auto. split; auto. intros s Hs. destruct (C s Hs); auto. Qed.

Lemma ids_prefix {j} (g : gen j) a b : exists l, next_ids g (a + b) = next_ids g a ++ l.
Proof. unfold next_ids. rewrite seq_app, map_app. eauto. Qed.
Lemma room_less a b w : room (a + b) w -> room b w.
Proof.
  intros [H1 H2]. rewrite Nat.add_comm in H1, H2. destruct (ids_prefix (a_ulids w) b a) as [l Hl]. rewrite Hl in H1, H2. split.
  - clear - H1. induction (next_ids (a_ulids w) b) as [|x xs IH]; [constructor|]. inversion H1; subst. constructor; auto.
    intros H. apply H2, in_app_iff. auto.
  - intros i Hi. apply H2, in_app_iff. auto.
Qed.
Lemma room_keep n w w' : goodx (a_names w) -> goodx (a_names w') -> a_ulids w' = a_ulids w ->
  (forall s i, nu w' s = Some i -> nu w s = Some i) -> room n w -> room n w'.
Proof.
  intros Gx Gx' Hu Hn [H1 H2]. unfold room. rewrite Hu. split; auto. intros i Hi. destruct (rho w' i) as [s|] eqn:Q; auto.
  apply (no_one _ _ _ _ _ HI _ Gx') in Q. apply Hn in Q. apply (no_one _ _ _ _ _ HI _ Gx) in Q. rewrite (H2 i Hi) in Q. discriminate.
Qed.

(** ** Names *)
Definition settled {A} (N : list S) (n : nat) w w' (good : A -> Prop) (r : result err A) : Prop :=
  a_graph w' = a_graph w /\ keeps N w w' /\ room n w' /\ match r with Ok a => good a | Err y => storage y end.

Lemma left_ok s w r w' : goodx (a_names w) -> of_names (S := S) (GE := GE) (ai_left ix s) w = (r, w') ->
  a_graph w' = a_graph w /\ a_ulids w' = a_ulids w /\ goodx (a_names w') /\ (forall t, nu w' t = nu w t) /\
  match r with Ok a => a = nu w s | Err y => storage y end.
Proof.
  unfold of_names. intros Gx H. destruct (ai_left ix s (a_names w, a_env w)) as [a [x e]] eqn:Q.
  destruct (no_left _ _ _ _ _ HI _ _ _ _ _ _ Gx Q) as (H1 & H2 & H3).
  destruct a as [a|y]; injection H as <- <-; simpl; repeat split; auto.
Qed.
Lemma set_ok s i w r w' : goodx (a_names w) -> rho w i = None -> of_names (S := S) (GE := GE) (ai_set ix s i) w = (r, w') ->
  a_graph w' = a_graph w /\ a_ulids w' = a_ulids w /\ goodx (a_names w') /\ (forall t, t <> s -> nu w' t = nu w t) /\
  match r with Ok _ => nu w s = None /\ nu w' s = Some i | Err y => storage y /\ nu w' s = nu w s end.
Proof.
  unfold of_names. intros Gx Hi H. destruct (ai_set ix s i (a_names w, a_env w)) as [a [x e]] eqn:Q.
  destruct (no_set _ _ _ _ _ HI _ _ _ _ _ _ _ Gx Hi Q) as (H1 & H2 & H3).
  destruct a as [a|y]; injection H as <- <-; simpl; repeat split; auto; apply H3.
Qed.
Lemma string_dec (s t : S) : {s = t} + {s <> t}.
Proof.
  destruct (seqb s t) eqn:Q; [left; exact (proj1 (seqb_eq s t) Q)|right]. intros H. apply (proj2 (seqb_eq s t)) in H. rewrite H in Q. discriminate.
Qed.

Lemma same_keeps N w w' : goodx (a_names w') -> (forall t, nu w' t = nu w t) -> keeps N w w'.
Proof. intros H1 H2. split; auto. split; [intros s i Hs; now rewrite H2|]. intros s Hs. rewrite H2 in Hs. auto. Qed.

Lemma create_ok e n w r w' : goodx (a_names w) -> room (length (name_of e) + n) w -> a_lookup_or_create (GE := GE) ix e w = (r, w') ->
  settled (name_of e) n w w' (den (nu w') e) r.
Proof.
  intros Gx Hr H. destruct e as [s|i]; simpl in H.
  2:{ injection H as <- <-. split; auto. split; [now apply keeps_refl|]. split; [exact Hr|]. reflexivity. }
  unfold and_then at 1 in H. destruct (of_names (ai_left ix s) w) as [a w1] eqn:Q1.
  destruct (left_ok s w a w1 Gx Q1) as (A1 & A2 & A3 & A4 & A5).
  assert (room (1 + n) w1) as Hr1 by (eapply room_keep; [exact Gx|exact A3|exact A2| |exact Hr]; intros t j; rewrite A4; auto).
  destruct a as [[i|]|y].
  - injection H as <- <-. split; auto. split; [now apply same_keeps|]. split; [exact (room_less 1 n w1 Hr1)|]. simpl. rewrite A4. auto.
  - unfold and_then at 1, new_ulid in H. destruct (fresh (a_ulids w1)) as [i u] eqn:Qf.
    set (w2 := AnyRdf (a_names w1) (a_graph w1) u (a_env w1)) in *.
    unfold and_then in H. destruct (of_names (ai_set ix s i) w2) as [b w3] eqn:Q2.
    pose proof (Hr1) as [N1 N2]. change (1 + n) with (Datatypes.S n) in N1, N2.
    assert (next_ids (a_ulids w1) (Datatypes.S n) = i :: next_ids u n) as Hids.
    { unfold next_ids in *. unfold fresh in Qf. injection Qf as <- <-. reflexivity. }
    rewrite Hids in N1, N2. inversion N1 as [|x xs N3 N4]; subst.
    assert (rho w2 i = None) as Hi by (apply N2; left; reflexivity).
    destruct (set_ok s i w2 b w3 A3 Hi Q2) as (B1 & B2 & B3 & B4 & B5).
    assert (room n w3) as Hr3.
    { split; rewrite B2; [exact N4|]. intros j Hj. destruct (rho w3 j) as [t|] eqn:Qj; auto. exfalso.
      assert (rho w2 j = None) as Hj2 by (apply N2; right; exact Hj).
      apply (no_one _ _ _ _ _ HI _ B3) in Qj. destruct (string_dec t s) as [->|Ht].
      - destruct b as [b|y].
        + destruct B5 as [_ B5]. rewrite Qj in B5. injection B5 as ->. contradiction.
        + destruct B5 as [_ B5]. rewrite Qj in B5. symmetry in B5. apply (no_one _ _ _ _ _ HI _ A3) in B5. unfold w2 in Hj2. simpl in Hj2. congruence.
      - rewrite B4 in Qj by exact Ht. apply (no_one _ _ _ _ _ HI _ A3) in Qj. unfold w2 in Hj2. simpl in Hj2. congruence. }
    assert (keeps [s] w w3) as Hk.
    { split; auto. split.
      - intros t j Ht. destruct (string_dec t s) as [->|Hts].
        + rewrite A5 in *. congruence.
        + rewrite B4 by auto. unfold w2. simpl. now rewrite A4.
      - intros t Ht. destruct (string_dec t s) as [->|Hts]; [right; now left|]. left. rewrite B4 in Ht by auto. unfold w2 in Ht. simpl in Ht. now rewrite A4 in Ht. }
    destruct b as [b|y]; injection H as <- <-.
    + split; [rewrite B1; exact A1|]. split; [exact Hk|]. split; [exact Hr3|]. simpl. apply B5.
    + split; [rewrite B1; exact A1|]. split; [exact Hk|]. split; [exact Hr3|]. apply B5.
  - injection H as <- <-. split; auto. split; [now apply same_keeps|]. split; [exact (room_less 1 n w1 Hr1)|exact A5].
Qed.

Lemma create3_ok t n w r w' : goodx (a_names w) -> room (length (names_of t) + n) w ->
  a_try_map (a_lookup_or_create (GE := GE) ix) t w = (r, w') -> settled (names_of t) n w w' (den3 (nu w') t) r.
Proof.
  unfold a_try_map, names_of. rewrite !app_length, <- !Nat.add_assoc. intros Gx Hr H.
  unfold and_then at 1 in H. destruct (a_lookup_or_create ix (sub t) w) as [a w1] eqn:Q1.
  apply create_ok with (n := length (name_of (pred t)) + (length (name_of (obj t)) + n)) in Q1; auto. destruct Q1 as (A1 & A2 & A3 & A4).
  destruct a as [i|y].
  2:{ injection H as <- <-. split; auto. split; [eapply keeps_incl; [|exact A2]; apply incl_appl, incl_refl|]. split; auto.
      rewrite Nat.add_assoc in A3. eapply room_less; exact A3. }
  unfold and_then at 1 in H. destruct (a_lookup_or_create ix (pred t) w1) as [b w2] eqn:Q2.
  apply create_ok with (n := length (name_of (obj t)) + n) in Q2; auto; [|apply A2]. destruct Q2 as (B1 & B2 & B3 & B4).
  pose proof (keeps_trans _ _ _ _ _ A2 B2) as AB.
  destruct b as [j|y].
  2:{ injection H as <- <-. split; [congruence|]. split; [eapply keeps_incl; [|exact AB]; rewrite app_assoc; apply incl_appl, incl_refl|]. split; auto.
      eapply room_less; exact B3. }
  unfold and_then at 1 in H. destruct (a_lookup_or_create ix (obj t) w2) as [c w3] eqn:Q3.
  apply create_ok with (n := n) in Q3; auto; [|apply B2]. destruct Q3 as (C1 & C2 & C3 & C4).
  pose proof (keeps_trans _ _ _ _ _ AB C2) as ABC. rewrite <- app_assoc in ABC.
  destruct c as [k|y]; injection H as <- <-; (split; [congruence|]); split; auto; split; auto.
  unfold den3. simpl. split; [|split]; auto.
  - eapply den_below; [|exact A4]. eapply below_trans; [apply B2|apply C2].
  - eapply den_below; [|exact B4]. apply C2.
Qed.

(** ** Calls on the graph *)
Lemma graph_ok_call (x : op) n w r w' : single_call x -> goody (uses_id x + n) (a_graph w) ->
  of_graph (S := S) (IE := IE) (ag_apply gr x) w = (r, w') ->
  a_names w' = a_names w /\ a_ulids w' = a_ulids w /\ goody n (a_graph w') /\
  match r with
  | Ok _ => g_equiv (G w') (spec_apply mn me x (G w))
  | Err y => storage y /\ (g_equiv (G w') (G w) \/ (takes_edge x /\ g_equiv (G w') (spec_apply mn me x (G w))))
  end.
Proof.
  unfold of_graph. intros Hs Gy H. destruct (ag_apply gr x (a_graph w, a_env w)) as [a [y e]] eqn:Q.
  destruct (go_call _ _ _ _ _ _ _ HG _ _ _ _ _ _ _ Hs Gy Q) as [H1 H2].
  destruct a as [a|z]; injection H as <- <-; simpl; repeat split; auto; apply H2.
Qed.

(** ** Single calls that add *)
Definition ready (o : rop) (n m : nat) w : Prop := goodx (a_names w) /\ goody (r_draws o + n) (a_graph w) /\ room (length (given o) + m) w.
Definition stays (N : list S) (n m : nat) w w' : Prop := keeps N w w' /\ goody n (a_graph w') /\ room m w'.

Lemma goody_less a b y : goody (a + b) y -> goody b y.
Proof. induction a; simpl; auto. intros H. apply IHa. eapply go_less; eauto. Qed.

Definition added o n m w (r : result err unit) w' : Prop :=
  stays (given o) n m w w' /\
  match r with
  | Ok _ => named_in (given o) (nu w') /\ exists x, stands (nu w') o x /\ g_equiv (G w') (spec_apply mn me x (G w))
  | Err y => storage y /\ g_equiv (G w') (G w)
  end.

Lemma add_node o (e : ent) (x : I -> op) n m w r w' :
  (forall i, single_call (x i) /\ ~ takes_edge (x i)) -> (forall i, uses_id (x i) = r_draws o) -> given o = name_of e ->
  (forall W i, den W e i -> stands W o (x i)) -> ready o n m w ->
  and_then (a_lookup_or_create ix e) (fun i => of_graph (ag_apply gr (x i))) w = (r, w') -> added o n m w r w'.
Proof.
  intros Hx Hu Hg Hs (Gx & Gy & Hr) H. rewrite Hg in Hr. unfold and_then in H.
  destruct (a_lookup_or_create ix e w) as [a w1] eqn:Q1. apply create_ok with (n := m) in Q1; auto. destruct Q1 as (A1 & A2 & A3 & A4).
  destruct a as [i|y].
  2:{ injection H as <- <-. split; [split; [rewrite Hg; exact A2|split; [rewrite A1; eapply goody_less; exact Gy|exact A3]]|].
      split; auto. rewrite A1. split; auto. }
  apply graph_ok_call with (n := n) in H; [|apply Hx|rewrite Hu, A1; exact Gy]. destruct H as (B1 & B2 & B3 & B4).
  assert (keeps (name_of e) w w') as Hk by (unfold keeps, new_only in *; rewrite B1; exact A2).
  assert (room m w') as Hrm by (unfold room in *; rewrite B1, B2; exact A3).
  split; [split; [rewrite Hg; exact Hk|split; [exact B3|exact Hrm]]|].
  rewrite A1 in B4. destruct r as [u|y].
  - rewrite Hg, B1. split; [eapply den_named; exact A4|]. exists (x i). split; auto.
  - destruct B4 as [B4 [B5|[B5 _]]]; [split; auto|]. exfalso. now apply (Hx i).
Qed.
Lemma add_edge o (t : triple ent) (x : triple I -> op) n m w r w' :
  (forall i, single_call (x i) /\ ~ takes_edge (x i)) -> (forall i, uses_id (x i) = r_draws o) -> given o = names_of t ->
  (forall W i, den3 W t i -> stands W o (x i)) -> ready o n m w ->
  and_then (a_try_map (a_lookup_or_create ix) t) (fun i => of_graph (ag_apply gr (x i))) w = (r, w') -> added o n m w r w'.
Proof.
  intros Hx Hu Hg Hs (Gx & Gy & Hr) H. rewrite Hg in Hr. unfold and_then in H.
  destruct (a_try_map (a_lookup_or_create ix) t w) as [a w1] eqn:Q1. apply create3_ok with (n := m) in Q1; auto. destruct Q1 as (A1 & A2 & A3 & A4).
  destruct a as [i|y].
  2:{ injection H as <- <-. split; [split; [rewrite Hg; exact A2|split; [rewrite A1; eapply goody_less; exact Gy|exact A3]]|].
      split; auto. rewrite A1. split; auto. }
  apply graph_ok_call with (n := n) in H; [|apply Hx|rewrite Hu, A1; exact Gy]. destruct H as (B1 & B2 & B3 & B4).
  assert (keeps (names_of t) w w') as Hk by (unfold keeps, new_only in *; rewrite B1; exact A2).
  assert (room m w') as Hrm by (unfold room in *; rewrite B1, B2; exact A3).
  split; [split; [rewrite Hg; exact Hk|split; [exact B3|exact Hrm]]|].
  rewrite A1 in B4. destruct r as [u|y].
  - rewrite Hg, B1. split; [eapply den3_named; exact A4|]. exists (x i). split; auto.
  - destruct B4 as [B4 [B5|[B5 _]]]; [split; auto|]. exfalso. now apply (Hx i).
Qed.

Definition add_prog (o : rop) : M unit :=
  match o with
  | RInsertNode e p => a_insert_node ix gr e p
  | RInsertEdge t p => a_insert_edge ix gr t p
  | RMergeNode e p => a_merge_node ix gr e p
  | RMergeEdge t p => a_merge_edge ix gr t p
  | _ => ok tt
  end.
Lemma add_ok o n m w r w' : single_add o -> ready o n m w -> add_prog o w = (r, w') -> added o n m w r w'.
Proof.
  intros Ho Hr H. destruct o as [e p|t p|e|t|e p|t p|q|q]; simpl in Ho; try contradiction; simpl in H.
  - apply (add_node _ e (fun i => OInsertNode i p)); simpl; auto. intros W i Hi. exists i. auto.
  - apply (add_edge _ t (fun i => OInsertEdge i p)); simpl; auto. intros W i Hi. exists i. auto.
  - apply (add_node _ e (fun i => OMergeNode i p)); simpl; auto. intros W i Hi. exists i. auto.
  - apply (add_edge _ t (fun i => OMergeEdge i p)); simpl; auto. intros W i Hi. exists i. auto.
Qed.

(** ** Seen by name *)
Definition leads (s : list rop) w w' : Prop := forall nuF rhoF K eg, one_to_one nuF rhoF -> below (nu w') nuF ->
  view rhoF (G w) eg -> view rhoF (G w') (run rhoF K s eg).
Lemma leads_nil w w' : g_equiv (G w') (G w) -> leads [] w w'.
Proof. intros H nuF rhoF K eg O B V. eapply view_equiv; [|exact V]. destruct H. split; intros; symmetry; auto. Qed.
Lemma leads_app s1 s2 w1 w2 w3 : below (nu w2) (nu w3) -> leads s1 w1 w2 -> leads s2 w2 w3 -> leads (s1 ++ s2) w1 w3.
Proof.
  intros Hb H1 H2 nuF rhoF K eg O B V. unfold e_run. rewrite fold_left_app. apply (H2 nuF rhoF K); auto.
  apply (H1 nuF rhoF K); auto. eapply below_trans; eauto.
Qed.
Lemma leads_one o x w w' : single_add o -> stands (nu w') o x -> g_equiv (G w') (spec_apply mn me x (G w)) -> leads [o] w w'.
Proof.
  intros Ho Hs He nuF rhoF K eg O B V. simpl. eapply view_equiv; [|eapply view_single; eauto].
  destruct He. split; intros; symmetry; auto.
Qed.

(** ** Loops *)
Lemma loop_ok {A} (mk : A -> rop) (step : A -> M unit) n m : (forall a, single_add (mk a)) -> (forall a, step a = add_prog (mk a)) ->
  forall (l : list (result E A)) w r w',
  let ops := map mk (before_error l) in
  goodx (a_names w) -> goody (sum (map r_draws ops) + n) (a_graph w) -> room (length (flat_map given ops) + m) w ->
  a_for_each step l w = (r, w') ->
  exists j, stays (flat_map given ops) n m w w' /\ leads (firstn j ops) w w' /\
  match r with
  | Ok _ => j = length ops /\ first_error l = None /\ named_in (flat_map given ops) (nu w')
  | Err (RightE e) => j = length ops /\ first_error l = Some e /\ named_in (flat_map given ops) (nu w')
  | Err (LeftE y) => j < length ops /\ storage y
  end.
Proof.
  intros Hadd Hstep l. induction l as [|[a|e] l IH]; intros w r w' ops Gx Gy Hr H; subst ops; simpl in *.
  - injection H as <- <-. exists 0. split; [split; [now apply keeps_refl|split; auto]|]. split; [apply leads_nil; split; auto|].
    split; auto. split; auto. intros s [].
  - destruct (step a w) as [x w1] eqn:Q. rewrite Hstep in Q. rewrite app_length, <- Nat.add_assoc in Hr. rewrite <- Nat.add_assoc in Gy.
    apply add_ok with (n := sum (map r_draws (map mk (before_error l))) + n) (m := length (flat_map given (map mk (before_error l))) + m) in Q;
      auto; [|split; auto].
    destruct Q as ((K1 & G1 & R1) & Q). destruct x as [u|y].
    + destruct Q as (N1 & x & Sx & Ex). apply IH in H; auto; [|apply K1]. destruct H as (j & (K2 & G2 & R2) & L2 & H).
      assert (below (nu w1) (nu w')) as Bl by apply K2.
      exists (Datatypes.S j). split; [split; [eapply keeps_trans; eauto|split; auto]|]. split.
      { simpl. apply (leads_app [mk a] _ w w1 w'); auto. eapply leads_one; eauto. }
      assert (named_in (flat_map given (map mk (before_error l))) (nu w') -> named_in (given (mk a) ++ flat_map given (map mk (before_error l))) (nu w')) as Hn.
      { intros Hn s Hs. apply in_app_iff in Hs. destruct Hs as [Hs|Hs]; [|now apply Hn]. eapply named_below; [exact Bl|exact N1|exact Hs]. }
      destruct r as [v|[y|e]].
      * destruct H as (-> & H1 & H2). split; auto.
      * destruct H as [H1 H2]. split; [lia|auto].
      * destruct H as (-> & H1 & H2). split; auto.
    + injection H as <- <-. destruct Q as [Q1 Q2]. exists 0. split; [|split; [now apply leads_nil|split; [lia|auto]]].
      split; [eapply keeps_incl; [|exact K1]; apply incl_appl, incl_refl|]. split; [eapply goody_less; exact G1|].
      eapply room_less; exact R1.
  - injection H as <- <-. exists 0. split; [split; [now apply keeps_refl|split; auto]|]. split; [apply leads_nil; split; auto|].
    split; auto. split; auto. intros s [].
Qed.

Lemma sum_app (a b : list nat) : sum (a ++ b) = sum a + sum b.
Proof. induction a; simpl; lia. Qed.

Lemma bulk_ok (mkn : ent * NP -> rop) (mke : triple ent * EP -> rop) fn fe n m (q : rdf_source S NP EP E) w r w' :
  (forall a, single_add (mkn a)) -> (forall a, single_add (mke a)) ->
  (forall a, fn (fst a) (snd a) = add_prog (mkn a)) -> (forall a, fe (fst a) (snd a) = add_prog (mke a)) ->
  let ops := map mkn (used_nodes q) ++ map mke (used_edges q) in
  goodx (a_names w) -> goody (sum (map r_draws ops) + n) (a_graph w) -> room (length (flat_map given ops) + m) w ->
  a_bulk fn fe q w = (r, w') ->
  exists j, stays (flat_map given ops) n m w w' /\ leads (firstn j ops) w w' /\
  match r with
  | Ok _ => j = length ops /\ rdf_source_error q = None /\ named_in (flat_map given ops) (nu w')
  | Err (RightE e) => j = length ops /\ rdf_source_error q = Some e /\ named_in (flat_map given ops) (nu w')
  | Err (LeftE y) => j < length ops /\ storage y
  end.
Proof.
  intros A1 A2 S1 S2 ops Gx Gy Hr H. unfold a_bulk in H.
  destruct (a_for_each (fun ip => fn (fst ip) (snd ip)) (rs_nodes q) w) as [x w1] eqn:Q.
  unfold ops in *. rewrite map_app, sum_app, <- Nat.add_assoc in Gy. rewrite flat_map_app, app_length, <- Nat.add_assoc in Hr.
  apply (loop_ok mkn _ (sum (map r_draws (map mke (used_edges q))) + n) (length (flat_map given (map mke (used_edges q))) + m) A1 S1) in Q; auto.
  change (before_error (rs_nodes q)) with (used_nodes q) in Q. destruct Q as (j & (K1 & G1 & R1) & L1 & Q).
  assert (stays (flat_map given (map mkn (used_nodes q) ++ map mke (used_edges q))) n m w w1) as K1'.
  { split; [eapply keeps_incl; [|exact K1]; rewrite flat_map_app; apply incl_appl, incl_refl|]. split; [eapply goody_less; exact G1|eapply room_less; exact R1]. }
  destruct x as [[]|[y|e]].
  - destruct Q as (-> & F1 & N1). unfold used_edges, rdf_source_error in *. rewrite F1 in *. rewrite firstn_all in L1.
    apply (loop_ok mke _ n m A2 S2) in H; auto; [|apply K1]. destruct H as (j & (K2 & G2 & R2) & L2 & H).
    exists (length (map mkn (used_nodes q)) + j). rewrite firstn_app_2, flat_map_app, app_length.
    assert (below (nu w1) (nu w')) as Bl by apply K2.
    split; [split; [eapply keeps_trans; eauto|split; auto]|]. split; [eapply leads_app; eauto|].
    assert (forall N, named_in N (nu w') -> named_in (flat_map given (map mkn (used_nodes q)) ++ N) (nu w')) as Hn.
    { intros N Hn s Hs. apply in_app_iff in Hs. destruct Hs as [Hs|Hs]; [|now apply Hn]. eapply named_below; [exact Bl|exact N1|exact Hs]. }
    destruct r as [v|[y|e]].
    + destruct H as (-> & H1 & H2). split; auto.
    + destruct H as [H1 H2]. split; [lia|auto].
    + destruct H as (-> & H1 & H2). split; auto.
  - injection H as <- <-. destruct Q as [Q1 Q2]. exists j. rewrite app_length. split; auto.
    rewrite firstn_app. replace (j - length (map mkn (used_nodes q))) with 0 by lia. simpl. rewrite app_nil_r. split; auto. split; [lia|auto].
  - injection H as <- <-. destruct Q as (-> & F1 & N1). unfold used_edges, rdf_source_error in *. rewrite F1 in *. simpl. rewrite app_nil_r in *.
    exists (length (map mkn (used_nodes q))). split; auto.
Qed.
End Facts.
