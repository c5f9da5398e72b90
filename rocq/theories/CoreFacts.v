(** Facts about Core.v: the query! macro, map and try_map. *)
From Coq Require Import List.
From Verif Require Import Core.
Import ListNotations.

Lemma loop2_in {A B} (l1 : list A) (l2 : list B) a b :
  In (a, b) (loop2 l1 l2) <-> In a l1 /\ In b l2.
Proof.
  unfold loop2. rewrite in_flat_map. split.
  - intros (x & Hx & H). apply in_map_iff in H. destruct H as (y & [= -> ->] & Hy). auto.
  - intros [Ha Hb]. exists a. split; auto. apply in_map_iff. exists b. auto.
Qed.

Lemma loop3_in {A B C} (l1 : list A) (l2 : list B) (l3 : list C) a b c :
  In (a, b, c) (loop3 l1 l2 l3) <-> In a l1 /\ In b l2 /\ In c l3.
Proof.
  unfold loop3. rewrite in_flat_map. split.
  - intros (x & Hx & H). apply in_flat_map in H. destruct H as (y & Hy & H).
    apply in_map_iff in H. destruct H as (z & [= -> -> ->] & Hz). auto.
  - intros (Ha & Hb & Hc). exists a. split; auto. apply in_flat_map. exists b. split; auto.
    apply in_map_iff. exists c. auto.
Qed.

(** ** A query as its kind and the rows of its set *)
Inductive qkind : Type := KNodeProps | KSPO | KO | KS | KP | KPO | KSO | KSP.

Definition kind_of {I} (q : query I) : qkind :=
  match q with
  | QNodeProps _ => KNodeProps | QSPO _ => KSPO | QO _ => KO | QS _ => KS | QP _ => KP
  | QPO _ => KPO | QSO _ => KSO | QSP _ => KSP
  end.

Definition row1 {I} (a : I) : list I := [a].
Definition row2 {I} (ab : I * I) : list I := [fst ab; snd ab].
Definition row3 {I} (abc : I * I * I) : list I := [fst (fst abc); snd (fst abc); snd abc].

Definition rows {I} (q : query I) : list (list I) :=
  match q with
  | QNodeProps l | QO l | QS l | QP l => map row1 l
  | QPO l | QSO l | QSP l => map row2 l
  | QSPO l => map row3 l
  end.

Lemma map_inj {A B} (f : A -> B) : (forall x y, f x = f y -> x = y) ->
  forall l l', map f l = map f l' -> l = l'.
Proof.
  intros H. induction l as [|a l IH]; intros [|b l'] E; simpl in E; try discriminate; auto.
  injection E as E1 E2. f_equal; auto.
Qed.

Lemma rows_inj {I} (q q' : query I) : kind_of q = kind_of q' -> rows q = rows q' -> q = q'.
Proof.
  destruct q, q'; simpl; intros K R; try discriminate; f_equal; revert R; apply map_inj;
    unfold row1, row2, row3.
  all: intros x y E.
  all: try (repeat match goal with x : prod _ _ |- _ => destruct x end; simpl in E; congruence).
Qed.

Section Map.
Context {I O E : Type}.

Lemma query_map_rows (f : I -> O) q :
  kind_of (query_map f q) = kind_of q /\ rows (query_map f q) = map (map f) (rows q).
Proof.
  split; [now destruct q|].
  destruct q; simpl; rewrite !map_map; apply map_ext; try reflexivity.
  - intros [[s p] o]. reflexivity.
  - intros [a b]. reflexivity.
  - intros [a b]. reflexivity.
  - intros [a b]. reflexivity.
Qed.

Context (f : I -> result E O).

(** What a fallible pass over rows gives: all succeed, or the first failing component
    of the first failing row. *)
Definition maps_row (r : list I) (r' : list O) : Prop := Forall2 (fun i o => f i = Ok o) r r'.

Definition fails_row (r : list I) (e : E) : Prop :=
  exists pre i post, r = pre ++ i :: post /\ f i = Err e /\ forall j, In j pre -> exists o, f j = Ok o.

Lemma collect_ok {A B} (g : A -> result E B) l :
  forall l', collect_result g l = Ok l' <-> Forall2 (fun a b => g a = Ok b) l l'.
Proof.
  induction l as [|a l IH]; intros l'; simpl.
  - split; [intros [= <-]; constructor | intros H; now inversion H].
  - destruct (g a) as [b|e] eqn:G.
    + destruct (collect_result g l) as [bs|e] eqn:C.
      * split.
        -- intros [= <-]. constructor; auto. now apply IH.
        -- intros H. inversion H as [|? b' ? l'' G' F]; subst. rewrite G in G'. injection G' as <-.
           apply IH in F. congruence.
      * split; [discriminate|]. intros H. inversion H as [|? b' ? l'' G' F]; subst.
        apply IH in F. discriminate.
    + split; [discriminate|]. intros H. inversion H; congruence.
Qed.

Lemma collect_err {A B} (g : A -> result E B) l e :
  collect_result g l = Err e <->
  exists pre a post, l = pre ++ a :: post /\ g a = Err e /\ forall x, In x pre -> exists b, g x = Ok b.
Proof.
  induction l as [|a l IH]; simpl.
  - split; [discriminate|]. intros ([|? ?] & ? & ? & H & _); discriminate.
  - destruct (g a) as [b|e'] eqn:G.
    + destruct (collect_result g l) as [bs|e'] eqn:C.
      * split; [discriminate|]. intros ([|x pre] & y & post & H & Hy & Hp).
        -- simpl in H. injection H as -> ->. congruence.
        -- simpl in H. injection H as -> ->.
           assert (Ok bs = Err e) by (apply IH; exists pre, y, post; simpl in Hp; auto). discriminate.
      * split.
        -- intros H. apply IH in H. destruct H as (pre & y & post & -> & Hy & Hp).
           exists (a :: pre), y, post. simpl. split; auto. split; auto.
           intros x [<-|Hx]; eauto.
        -- intros ([|x pre] & y & post & H & Hy & Hp).
           ++ simpl in H. injection H as -> ->. congruence.
           ++ simpl in H. injection H as -> ->. apply IH. exists pre, y, post. simpl in Hp. auto.
    + split.
      * intros [= ->]. exists [], a, l. simpl. split; auto. split; auto. intros x [].
      * intros ([|x pre] & y & post & H & Hy & Hp).
        -- simpl in H. injection H as -> ->. congruence.
        -- simpl in H. injection H as -> ->. destruct (Hp x (or_introl eq_refl)). congruence.
Qed.

Definition row_ok {A B} (ra : A -> list I) (rb : B -> list O) (g : A -> result E B) : Prop :=
  (forall a b, g a = Ok b <-> maps_row (ra a) (rb b)) /\
  (forall a e, g a = Err e <-> fails_row (ra a) e).

Lemma row1_ok : row_ok row1 row1 f.
Proof.
  split.
  - intros a b. unfold maps_row, row1. split.
    + intros H. constructor; auto.
    + intros H. now inversion H.
  - intros a e. unfold fails_row, row1. split.
    + intros H. exists [], a, []. simpl. split; auto. split; auto. intros j [].
    + intros ([|x pre] & i & post & H & Hi & _).
      * simpl in H. now injection H as -> _.
      * simpl in H. injection H as -> H. destruct pre; discriminate.
Qed.

Lemma fails_cons a r e :
  fails_row (a :: r) e <-> f a = Err e \/ ((exists o, f a = Ok o) /\ fails_row r e).
Proof.
  unfold fails_row. split.
  - intros ([|x pre] & i & post & H & Hi & Hp); simpl in H; injection H as -> ->; auto.
    right. split; [apply Hp; simpl; auto|]. exists pre, i, post. simpl in Hp. auto.
  - intros [H|[[o Ho] (pre & i & post & -> & Hi & Hp)]].
    + exists [], a, r. simpl. split; auto. split; auto. intros j [].
    + exists (a :: pre), i, post. simpl. split; auto. split; auto. intros j [<-|Hj]; eauto.
Qed.

Lemma fails_nil e : ~ fails_row [] e.
Proof. intros ([|? ?] & ? & ? & H & _); discriminate. Qed.

Lemma maps_cons a r b s : maps_row (a :: r) (b :: s) <-> f a = Ok b /\ maps_row r s.
Proof. unfold maps_row. split; [intros H; now inversion H | intros []; now constructor]. Qed.

Lemma maps_nil : maps_row [] [].
Proof. constructor. Qed.

Lemma row2_ok : row_ok row2 row2 (try_pair f).
Proof.
  split.
  - intros [a b] [a' b']. unfold row2, try_pair. simpl. rewrite !maps_cons.
    destruct (f a), (f b); split; try discriminate; try (intros (?&?&_); discriminate).
    + intros [= -> ->]. split; auto. split; auto. apply maps_nil.
    + intros ([= ->] & [= ->] & _). reflexivity.
  - intros [a b] e. unfold row2, try_pair. simpl. rewrite !fails_cons.
    destruct (f a) as [x|x] eqn:Fa.
    + destruct (f b) as [y|y] eqn:Fb.
      * split; [discriminate|]. intros [H|[_ [H|[_ H]]]]; try discriminate. now apply fails_nil in H.
      * split; [intros [= ->]; right; split; eauto|].
        intros [H|[_ [H|[[? H] _]]]]; congruence.
    + split; [intros [= ->]; auto|]. intros [H|[[? H] _]]; congruence.
Qed.

Lemma row3_ok : row_ok row3 row3 (try_triple f).
Proof.
  split.
  - intros [[a b] c] [[a' b'] c']. unfold row3, try_triple. simpl. rewrite !maps_cons.
    destruct (f a), (f b), (f c); split; try discriminate; try (intros (?&?&?&_); discriminate).
    + intros [= -> -> ->]. repeat split; auto. apply maps_nil.
    + intros ([= ->] & [= ->] & [= ->] & _). reflexivity.
  - intros [[a b] c] e. unfold row3, try_triple. simpl. rewrite !fails_cons.
    destruct (f a) as [x|x] eqn:Fa.
    + destruct (f b) as [y|y] eqn:Fb.
      * destruct (f c) as [z|z] eqn:Fc.
        -- split; [discriminate|]. intros [H|[_ [H|[_ [H|[_ H]]]]]]; try discriminate.
           now apply fails_nil in H.
        -- split.
           ++ intros [= ->]. right. split; eauto.
           ++ intros [H|[_ [H|[_ [H|[[? H] _]]]]]]; congruence.
      * split; [intros [= ->]; right; split; eauto|].
        intros [H|[_ [H|[[? H] _]]]]; congruence.
    + split; [intros [= ->]; auto|]. intros [H|[[? H] _]]; congruence.
Qed.

Lemma forall2_map {A B X Y} (R : X -> Y -> Prop) (f1 : A -> X) (f2 : B -> Y) l : forall l',
  Forall2 R (map f1 l) (map f2 l') <-> Forall2 (fun a b => R (f1 a) (f2 b)) l l'.
Proof.
  induction l as [|a l IH]; intros [|b l']; simpl; split; intros H; inversion H; subst; constructor; auto;
    now apply IH.
Qed.

Lemma forall2_imp {A B} (P Q : A -> B -> Prop) l l' :
  (forall a b, P a b -> Q a b) -> Forall2 P l l' -> Forall2 Q l l'.
Proof. intros H. induction 1; constructor; auto. Qed.

Lemma collect_rows {A B} (ra : A -> list I) (rb : B -> list O) g l :
  row_ok ra rb g ->
  (forall l', collect_result g l = Ok l' <-> Forall2 maps_row (map ra l) (map rb l')) /\
  (forall e, collect_result g l = Err e <->
     exists pre r post, map ra l = pre ++ r :: post /\ fails_row r e /\
       forall x, In x pre -> exists y, maps_row x y).
Proof.
  intros [H1 H2]. split.
  - intros l'. rewrite collect_ok, forall2_map. split; apply forall2_imp; intros; now apply H1.
  - intros e. rewrite collect_err. split.
    + intros (pre & a & post & -> & Ha & Hp). exists (map ra pre), (ra a), (map ra post).
      rewrite map_app. split; auto. split; [now apply H2|].
      intros x Hx. apply in_map_iff in Hx. destruct Hx as (y & <- & Hy).
      destruct (Hp y Hy) as [b Hb]. exists (rb b). now apply H1.
    + intros (pre & r & post & Hl & Hr & Hp).
      apply map_eq_app in Hl. destruct Hl as (l1 & l2 & -> & <- & Hl).
      destruct l2 as [|a l2]; [discriminate|]. simpl in Hl. injection Hl as <- <-.
      exists l1, a, l2. split; auto. split; [now apply H2|].
      intros x Hx. destruct (Hp (ra x)) as [y Hy]; [now apply in_map|].
      destruct (g x) as [b|e'] eqn:G; eauto. exfalso.
      apply H2 in G. destruct G as (p & i & q & Er & Hi & _). rewrite Er in Hy.
      apply Forall2_app_inv_l in Hy. destruct Hy as (? & ? & _ & Hy & _). inversion Hy. congruence.
Qed.

Lemma query_try_map_ok q q' :
  query_try_map f q = Ok q' <-> kind_of q' = kind_of q /\ Forall2 maps_row (rows q) (rows q').
Proof.
  assert (K : forall A B (ra : A -> list I) (rb : B -> list O) g l (C : list B -> query O) (kd : qkind),
    row_ok ra rb g ->
    (forall l', kind_of (C l') = kd /\ rows (C l') = map rb l') ->
    (forall q, kind_of q = kd -> exists l', q = C l') ->
    (res_map C (collect_result g l) = Ok q' <-> kind_of q' = kd /\ Forall2 maps_row (map ra l) (rows q'))).
  { intros A B ra rb g l C kd Hrow HC Hkd. destruct (collect_rows ra rb g l Hrow) as [K1 _].
    split.
    - destruct (collect_result g l) as [l'|e] eqn:Cl; simpl; [|discriminate]. intros [= <-].
      destruct (HC l') as [-> ->]. split; auto. now apply K1.
    - intros [Hk HF]. destruct (Hkd q' Hk) as [l' ->]. destruct (HC l') as [_ Hr]. rewrite Hr in HF.
      apply K1 in HF. now rewrite HF. }
  destruct q; cbn [query_try_map rows kind_of];
    (eapply K; [first [apply row1_ok | apply row2_ok | apply row3_ok] | split; reflexivity |]);
    intros q0 Hq; destruct q0; try discriminate; eauto.
Qed.

Lemma query_try_map_err q e :
  query_try_map f q = Err e <->
  exists pre r post, rows q = pre ++ r :: post /\ fails_row r e /\
    forall x, In x pre -> exists y, maps_row x y.
Proof.
  assert (K : forall A B (ra : A -> list I) (rb : B -> list O) g l (C : list B -> query O),
    row_ok ra rb g ->
    (res_map C (collect_result g l) = Err e <->
     exists pre r post, map ra l = pre ++ r :: post /\ fails_row r e /\
       forall x, In x pre -> exists y, maps_row x y)).
  { intros A B ra rb g l C Hrow. destruct (collect_rows ra rb g l Hrow) as [_ K2]. rewrite <- K2.
    destruct (collect_result g l); simpl; split; congruence. }
  destruct q; cbn [query_try_map rows];
    (eapply K; first [apply row1_ok | apply row2_ok | apply row3_ok]).
Qed.

(** ** Triples *)
Lemma triple_try_map_ok t t' :
  triple_try_map f t = Ok t' <-> f (sub t) = Ok (sub t') /\ f (pred t) = Ok (pred t') /\ f (obj t) = Ok (obj t').
Proof.
  unfold triple_try_map. destruct t as [s p o], t' as [s' p' o']; simpl.
  destruct (f s), (f p), (f o); split; try discriminate; try (intros (?&?&?); congruence).
  intros [= -> -> ->]. auto.
Qed.

Lemma triple_try_map_err t e :
  triple_try_map f t = Err e <-> fails_row [sub t; pred t; obj t] e.
Proof.
  rewrite !fails_cons. unfold triple_try_map.
  destruct (f (sub t)) as [s|x] eqn:F1.
  - destruct (f (pred t)) as [p|x] eqn:F2.
    + destruct (f (obj t)) as [o|x] eqn:F3.
      * split; [discriminate|]. intros [H|[_ [H|[_ [H|[_ H]]]]]]; try discriminate. now apply fails_nil in H.
      * split.
        -- intros [= ->]. right. split; eauto.
        -- intros [H|[_ [H|[_ [H|[[? H] _]]]]]]; congruence.
    + split; [intros [= ->]; right; split; eauto|].
      intros [H|[_ [H|[[? H] _]]]]; congruence.
  - split; [intros [= ->]; auto|]. intros [H|[[? H] _]]; congruence.
Qed.

End Map.

Lemma query_macro_forms I (nodes subs preds objs : list I) :
  query_macro (MNodeProps nodes) = Some (QNodeProps nodes) /\
  query_macro (MArrow (Ids subs) Any Any) = Some (QS subs) /\
  query_macro (MArrow Any (Ids preds) Any) = Some (QP preds) /\
  query_macro (MArrow Any Any (Ids objs)) = Some (QO objs) /\
  (exists l, query_macro (MArrow (Ids subs) (Ids preds) Any) = Some (QSP l) /\
     forall s p, In (s, p) l <-> In s subs /\ In p preds) /\
  (exists l, query_macro (MArrow (Ids subs) Any (Ids objs)) = Some (QSO l) /\
     forall s o, In (s, o) l <-> In s subs /\ In o objs) /\
  (exists l, query_macro (MArrow Any (Ids preds) (Ids objs)) = Some (QPO l) /\
     forall p o, In (p, o) l <-> In p preds /\ In o objs) /\
  (exists l, query_macro (MArrow (Ids subs) (Ids preds) (Ids objs)) = Some (QSPO l) /\
     forall s p o, In (s, p, o) l <-> In s subs /\ In p preds /\ In o objs).
Proof.
  repeat split; try (eexists; split; [reflexivity|]; intros; first [apply loop2_in | apply loop3_in]).
Qed.

Lemma triple_map_components I O (f : I -> O) (t : triple I) :
  sub (triple_map f t) = f (sub t) /\ pred (triple_map f t) = f (pred t) /\ obj (triple_map f t) = f (obj t).
Proof. auto. Qed.

Lemma props_triple_map_components I NP EP I' NP' EP'
    (f : I * NP -> I' * NP') (g : I * EP -> I' * EP') p :
  p_sub (props_triple_map f g p) = f (p_sub p) /\ p_pred (props_triple_map f g p) = g (p_pred p) /\
  p_obj (props_triple_map f g p) = f (p_obj p).
Proof. auto. Qed.

Section PropsTriple.
Context {I NP EP I' NP' EP' E : Type}.
Context (f : I * NP -> result E (I' * NP')) (g : I * EP -> result E (I' * EP')).

Lemma props_triple_try_map_ok p p' :
  props_triple_try_map f g p = Ok p' <->
  f (p_sub p) = Ok (p_sub p') /\ g (p_pred p) = Ok (p_pred p') /\ f (p_obj p) = Ok (p_obj p').
Proof.
  unfold props_triple_try_map. destruct p as [a b c], p' as [a' b' c']; simpl.
  destruct (f a), (g b), (f c); split; try discriminate; try (intros (?&?&?); congruence).
  intros [= -> -> ->]. auto.
Qed.

Lemma props_triple_try_map_err p e :
  props_triple_try_map f g p = Err e <->
  f (p_sub p) = Err e \/
  ((exists x, f (p_sub p) = Ok x) /\
   (g (p_pred p) = Err e \/ ((exists y, g (p_pred p) = Ok y) /\ f (p_obj p) = Err e))).
Proof.
  unfold props_triple_try_map.
  destruct (f (p_sub p)) as [a|a] eqn:F1.
  - destruct (g (p_pred p)) as [b|b] eqn:F2.
    + destruct (f (p_obj p)) as [c|c] eqn:F3.
      * split; [discriminate|]. intros [H|[_ [H|[_ H]]]]; discriminate.
      * split; [intros [= ->]; right; split; eauto|]. intros [H|[_ [H|[_ H]]]]; congruence.
    + split; [intros [= ->]; right; split; eauto|]. intros [H|[_ [H|[[? H] _]]]]; congruence.
  - split; [intros [= ->]; auto|]. intros [H|[[? H] _]]; congruence.
Qed.
End PropsTriple.

Lemma query_from_triples I (ts : list (triple I)) :
  exists l, query_from ts = QSPO l /\ forall s p o, In (s, p, o) l <-> In (Triple s p o) ts.
Proof.
  eexists. split; [reflexivity|]. intros s p o. rewrite in_map_iff. split.
  - intros ([s' p' o'] & [= -> -> ->] & H). exact H.
  - intros H. exists (Triple s p o). auto.
Qed.

Lemma triple_of_props_ids I NP EP (p : props_triple I NP EP) :
  triple_of_props p = Triple (fst (p_sub p)) (fst (p_pred p)) (fst (p_obj p)).
Proof. reflexivity. Qed.
