(** A copy within one database: it runs as a reader and a call of some source would, one after the other on its turns. *)
From Coq Require Import Arith NArith List Bool Lia.
From Verif Require Import Bytes OMap Core IdType Store Prog ProgFacts Mem Spec History Sled SledHistory SledLeaf SledLazy SledTables SledCopy SledTwo SledTwoFacts SledTwoTop SledBeside.
Import ListNotations.

(** ** One program on a pair of equal databases and one on the database *)
Section Joined.
Context {D SE : Type}.
Inductive joined {A} : prog (D * D) SE A -> prog D SE A -> Prop :=
| joined_ret a : joined (Ret a) (Ret a)
| joined_look k k' : (forall d, joined (k (d, d)) (k' d)) -> joined (Look k) (Look k')
| joined_act u k e u' k' e' : (forall d, u (d, d) = (u' d, d) \/ u (d, d) = (d, u' d)) -> (forall d, joined (k (d, d)) (k' d)) ->
    (forall x, joined (e x) (e' x)) -> joined (Act u k e) (Act u' k' e').
Lemma joined_bind {A B} (p : prog (D * D) SE A) q (f : A -> prog (D * D) SE B) g : joined p q -> (forall a, joined (f a) (g a)) -> joined (bind p f) (bind q g).
Proof. intros H Hf. induction H; cbn [bind]; auto; constructor; auto. Qed.
Lemma joined_first {A} (p : prog D SE A) : joined (on_first p) p.
Proof. induction p as [a|k IH|u k IH e IHe]; cbn [on_first]; constructor; auto. Qed.
Lemma joined_second {A} (p : prog D SE A) : joined (on_second p) p.
Proof. induction p as [a|k IH|u k IH e IHe]; cbn [on_second]; constructor; auto. Qed.

Section Loop.
Context {A EL ER H : Type} (entries : D -> list (bytes * bytes)) (item : bytes * bytes -> prog D SE (result ER A)) (body : A -> H -> prog D SE (result EL unit * H)).
Lemma joined_leaf rest rest' : (forall h, joined (rest h) (rest' h)) ->
  forall kvs h, joined (leaf_loop (fun kv => on_first (item kv)) (fun a h => on_second (body a h)) rest kvs h) (leaf_loop item body rest' kvs h).
Proof.
  intros Hr. induction kvs as [|kv kvs IH]; intros h; cbn [leaf_loop]; [apply Hr|]. apply joined_bind; [apply joined_first|]. intros [a|e]; [|constructor].
  apply joined_bind; [apply joined_second|]. intros [[u|e] h']; cbn [fst snd]; [apply IH|constructor].
Qed.
Lemma joined_loop cuts : forall lo h,
  joined (loop_from (fun d => entries (fst d)) (fun kv => on_first (item kv)) (fun a h => on_second (body a h)) lo cuts h) (loop_from entries item body lo cuts h).
Proof.
  induction cuts as [|c cuts IH]; intros lo h; cbn [loop_from]; constructor; intros d; cbn [fst]; apply joined_leaf; auto. intros; constructor.
Qed.
End Loop.

(** ** Runs *)
Context {X Y0 : Type}.
Notation ev2 := (ev (SE := SE) D + ev (SE := SE) D)%type.
Notation wrapr := (fun q : prog D SE Y0 => bind q (fun b => Ret (@inr X Y0 b))).
Lemma during_skip {Y} i f s (ps : list (prog D SE Y)) d d1 : nth_error ps i = None -> during ((i, f) :: s) ps d d1 <-> during s ps d d1.
Proof.
  intros Hn. split.
  - intros (s1 & s2 & E & ->). destruct s1 as [|e s1]; [apply during_first|]. injection E as <- E. exists s1, s2. split; auto. simpl. now rewrite Hn.
  - intros (s1 & s2 & -> & ->). exists ((i, f) :: s1), s2. split; auto. simpl. now rewrite Hn.
Qed.
Lemma run_self schedule : forall (p2 : prog (D * D) SE X) p1 (ws : list (prog D SE Y0)) d (G : list ev2 -> X -> Prop) x ps' d',
  acct p2 G -> joined p2 p1 -> interleave schedule (beside p1 ws) d = (ps', d') -> has_read x ps' ->
  exists m s' ws', ps' = Ret (inl x) :: map wrapr ws' /\ G m x /\ (forall i f, In (i, f) s' -> In (Nat.pred i, f) schedule) /\
  forall Y (W : prog D SE Y0 -> prog D SE Y), (forall f q d, step1 f (W q) d = (W (fst (step1 f q d)), snd (step1 f q d))) ->
  forall qa qb ya yb, follows qa (lefts m) ya -> follows qb (rights m) yb ->
    interleave s' (qa :: qb :: map W ws) d = (Ret ya :: Ret yb :: map W ws', d') /\
    (forall d1, during s' (qa :: qb :: map W ws) d d1 <-> during schedule (beside p1 ws) d d1).
Proof.
  induction schedule as [|[[|i] f] schedule IH]; intros p2 p1 ws d G x ps' d' Ha Hj Hi Hx.
  - injection Hi as <- <-. unfold has_read, beside in Hx. cbn [nth_error] in Hx. injection Hx as Hx.
    destruct Hj as [a| |]; cbn [bind] in Hx; try discriminate. injection Hx as ->.
    exists [], [], ws. split; [reflexivity|]. split; [exact Ha|]. split; [intros i f []|]. intros Y W HW qa qb ya yb Fa Fb.
    destruct qa; simpl in Fa; try contradiction. destruct qb; simpl in Fb; try contradiction. subst. split; [reflexivity|].
    intros d1. now rewrite !during_nil.
  - assert (Hb : forall (q q' : prog D SE X) d1', step1 f q d = (q', d1') -> interleave ((0, f) :: schedule) (beside q ws) d = interleave schedule (beside q' ws) d1').
    { intros q q' d1' E. unfold beside. cbn [interleave nth_error]. rewrite (step1_wrap inl f q d), E. reflexivity. }
    assert (Hdu : forall (q q' : prog D SE X) d1' d1, step1 f q d = (q', d1') -> during ((0, f) :: schedule) (beside q ws) d d1 <-> d1 = d \/ during schedule (beside q' ws) d1' d1).
    { intros q q' d1' d1 E. unfold beside. rewrite (during_step 0 f schedule _ d d1 (bind q (fun a => Ret (inl a))) (bind q' (fun a => Ret (inl a))) d1'); [reflexivity|reflexivity|].
      rewrite (step1_wrap inl f q d), E. reflexivity. }
    destruct Hj as [a|k k' Hk|u k e u' k' e' Hu Hk He].
    + rewrite (Hb (Ret a) (Ret a) d) in Hi by reflexivity.
      destruct (IH (Ret a) (Ret a) ws d G x ps' d' Ha (joined_ret a) Hi Hx) as (m & s' & ws' & E & HG & H1 & H2).
      exists m, s', ws'. split; [exact E|]. split; [exact HG|]. split; [intros; right; eauto|]. intros Y W HW qa qb ya yb Fa Fb.
      destruct (H2 Y W HW qa qb ya yb Fa Fb) as [Er Es]. split; [exact Er|]. intros d1. rewrite (Hdu (Ret a) (Ret a) d d1) by reflexivity. rewrite (Es d1).
      split; [auto|]. intros [->|Hd]; auto. apply during_first.
    + rewrite (Hb (Look k') (k' d) d) in Hi by reflexivity. cbn [acct] in Ha. destruct Ha as [Ha|Ha];
        destruct (IH _ _ ws d _ x ps' d' (Ha (d, d)) (Hk d) Hi Hx) as (m & s' & ws' & E & HG & H1 & H2); cbn [fst snd] in HG.
      * exists (inl (ELook _ d) :: m), ((0, f) :: s'), ws'. split; [exact E|]. split; [exact HG|]. split; [intros i g [[= <- <-]|Hin]; [left; reflexivity|right; eauto]|].
        intros Y W HW qa qb ya yb Fa Fb. destruct qa as [|kq|]; simpl in Fa; try contradiction.
        destruct (H2 Y W HW _ qb ya yb Fa Fb) as [Er Es]. split; [exact Er|]. intros d1. rewrite (Hdu (Look k') (k' d) d d1) by reflexivity.
        rewrite (during_step 0 f s' _ d d1 (Look kq) (kq d) d) by reflexivity. cbn [replace_nth]. rewrite (Es d1). reflexivity.
      * exists (inr (ELook _ d) :: m), ((1, f) :: s'), ws'. split; [exact E|]. split; [exact HG|]. split; [intros i g [[= <- <-]|Hin]; [left; reflexivity|right; eauto]|].
        intros Y W HW qa qb ya yb Fa Fb. destruct qb as [|kq|]; simpl in Fb; try contradiction.
        destruct (H2 Y W HW qa _ ya yb Fa Fb) as [Er Es]. split; [exact Er|]. intros d1. rewrite (Hdu (Look k') (k' d) d d1) by reflexivity.
        rewrite (during_step 1 f s' _ d d1 (Look kq) (kq d) d) by reflexivity. cbn [replace_nth]. rewrite (Es d1). reflexivity.
    + destruct f as [z|].
      * rewrite (Hb (Act u' k' e') (e' z) d) in Hi by reflexivity. cbn [acct] in Ha. destruct Ha as [(_ & _ & Ha)|(_ & _ & Ha)];
          destruct (IH _ _ ws d _ x ps' d' (Ha z) (He z) Hi Hx) as (m & s' & ws' & E & HG & H1 & H2); cbn [fst snd] in HG.
        -- exists (inl (EErr _ z) :: m), ((0, Some z) :: s'), ws'. split; [exact E|]. split; [exact HG|]. split; [intros i g [[= <- <-]|Hin]; [left; reflexivity|right; eauto]|].
           intros Y W HW qa qb ya yb Fa Fb. destruct qa as [| |uq kq eq]; simpl in Fa; try contradiction.
           destruct (H2 Y W HW _ qb ya yb Fa Fb) as [Er Es]. split; [exact Er|]. intros d1. rewrite (Hdu (Act u' k' e') (e' z) d d1) by reflexivity.
           rewrite (during_step 0 (Some z) s' _ d d1 (Act uq kq eq) (eq z) d) by reflexivity. cbn [replace_nth]. rewrite (Es d1). reflexivity.
        -- exists (inr (EErr _ z) :: m), ((1, Some z) :: s'), ws'. split; [exact E|]. split; [exact HG|]. split; [intros i g [[= <- <-]|Hin]; [left; reflexivity|right; eauto]|].
           intros Y W HW qa qb ya yb Fa Fb. destruct qb as [| |uq kq eq]; simpl in Fb; try contradiction.
           destruct (H2 Y W HW qa _ ya yb Fa Fb) as [Er Es]. split; [exact Er|]. intros d1. rewrite (Hdu (Act u' k' e') (e' z) d d1) by reflexivity.
           rewrite (during_step 1 (Some z) s' _ d d1 (Act uq kq eq) (eq z) d) by reflexivity. cbn [replace_nth]. rewrite (Es d1). reflexivity.
      * rewrite (Hb (Act u' k' e') (k' d) (u' d)) in Hi by reflexivity. cbn [acct] in Ha. destruct Ha as [(Hs & Ha & _)|(Hs & Ha & _)];
          destruct (IH _ _ ws (u' d) _ x ps' d' (Ha (d, d)) (Hk d) Hi Hx) as (m & s' & ws' & E & HG & H1 & H2); cbn [fst snd] in HG.
        -- assert (Eu : fst (u (d, d)) = u' d). { specialize (Hs (d, d)). destruct (Hu d) as [Eu|Eu]; rewrite Eu in *; cbn [fst snd] in *; congruence. }
           rewrite Eu in HG.
           exists (inl (EOk _ d (u' d)) :: m), ((0, None) :: s'), ws'. split; [exact E|]. split; [exact HG|]. split; [intros i g [[= <- <-]|Hin]; [left; reflexivity|right; eauto]|].
           intros Y W HW qa qb ya yb Fa Fb. destruct qa as [| |uq kq eq]; simpl in Fa; try contradiction. destruct Fa as [Eq Fa].
           destruct (H2 Y W HW _ qb ya yb Fa Fb) as [Er Es]. rewrite Eq in Er. split; [exact Er|]. intros d1. rewrite (Hdu (Act u' k' e') (k' d) (u' d) d1) by reflexivity.
           rewrite (during_step 0 None s' _ d d1 (Act uq kq eq) (kq d) (u' d)); [|reflexivity|cbn [step1]; now rewrite Eq]. cbn [replace_nth]. rewrite (Es d1). reflexivity.
        -- assert (Eu : snd (u (d, d)) = u' d). { specialize (Hs (d, d)). destruct (Hu d) as [Eu|Eu]; rewrite Eu in *; cbn [fst snd] in *; congruence. }
           rewrite Eu in HG.
           exists (inr (EOk _ d (u' d)) :: m), ((1, None) :: s'), ws'. split; [exact E|]. split; [exact HG|]. split; [intros i g [[= <- <-]|Hin]; [left; reflexivity|right; eauto]|].
           intros Y W HW qa qb ya yb Fa Fb. destruct qb as [| |uq kq eq]; simpl in Fb; try contradiction. destruct Fb as [Eq Fb].
           destruct (H2 Y W HW qa _ ya yb Fa Fb) as [Er Es]. rewrite Eq in Er. split; [exact Er|]. intros d1. rewrite (Hdu (Act u' k' e') (k' d) (u' d) d1) by reflexivity.
           rewrite (during_step 1 None s' _ d d1 (Act uq kq eq) (kq d) (u' d)); [|reflexivity|cbn [step1]; now rewrite Eq]. cbn [replace_nth]. rewrite (Es d1). reflexivity.
  - unfold beside in Hi. cbn [interleave nth_error] in Hi. rewrite nth_error_map in Hi. destruct (nth_error ws i) as [q0|] eqn:E0; cbn [option_map] in Hi.
    + rewrite (step1_wrap inr f q0 d) in Hi. cbn [replace_nth] in Hi. rewrite (replace_map wrapr) in Hi.
      destruct (IH p2 p1 _ _ G x ps' d' Ha Hj Hi Hx) as (m & s' & ws' & E & HG & H1 & H2).
      exists m, ((S (S i), f) :: s'), ws'. split; [exact E|]. split; [exact HG|]. split; [intros j g [[= <- <-]|Hin]; [left; reflexivity|right; eauto]|].
      intros Y W HW qa qb ya yb Fa Fb. destruct (H2 Y W HW qa qb ya yb Fa Fb) as [Er Es]. split.
      * cbn [interleave nth_error]. rewrite nth_error_map, E0. cbn [option_map]. rewrite HW. cbn [replace_nth]. rewrite (replace_map W). exact Er.
      * intros d1. rewrite (during_step (S (S i)) f s' _ d d1 (W q0) (W (fst (step1 f q0 d))) (snd (step1 f q0 d))); [|cbn [nth_error]; now rewrite nth_error_map, E0|apply HW].
        unfold beside. rewrite (during_step (S i) f schedule _ d d1 (wrapr q0) (wrapr (fst (step1 f q0 d))) (snd (step1 f q0 d)));
          [|cbn [nth_error]; now rewrite nth_error_map, E0|apply step1_wrap].
        cbn [replace_nth]. rewrite (replace_map W), (replace_map wrapr). rewrite (Es d1). reflexivity.
    + destruct (IH p2 p1 _ _ G x ps' d' Ha Hj Hi Hx) as (m & s' & ws' & E & HG & H1 & H2).
      exists m, s', ws'. split; [exact E|]. split; [exact HG|]. split; [intros; right; eauto|].
      intros Y W HW qa qb ya yb Fa Fb. destruct (H2 Y W HW qa qb ya yb Fa Fb) as [Er Es]. split; [exact Er|].
      intros d1. rewrite (Es d1). symmetry. apply during_skip. unfold beside. cbn [nth_error]. now rewrite nth_error_map, E0.
Qed.
End Joined.

(** ** A program that only reads can be left out. *)
Section Drop.
Context {D SE Y : Type}.
Lemma ro_step f (q : prog D SE Y) d : readonly q -> readonly (fst (step1 f q d)) /\ snd (step1 f q d) = d.
Proof. intros [a|k H|u k e Hu Hk He]; cbn [step1 fst snd]; [split; [constructor|auto]|auto|destruct f; cbn [fst snd]; auto]. Qed.
Lemma drop_reader schedule : forall (q : prog D SE Y) ps d q' ps' d', readonly q -> interleave schedule (q :: ps) d = (q' :: ps', d') ->
  exists s, (forall i f, In (i, f) s -> In (S i, f) schedule) /\ interleave s ps d = (ps', d').
Proof.
  induction schedule as [|[[|i] f] schedule IH]; intros q ps d q' ps' d' Hq Hi.
  - injection Hi as _ -> ->. exists []. split; auto.
  - cbn [interleave nth_error] in Hi. destruct (ro_step f q d Hq) as [Hq' Hd]. destruct (step1 f q d) as [q1 d1]. cbn [fst snd] in *. subst d1.
    cbn [replace_nth] in Hi. destruct (IH _ _ _ _ _ _ Hq' Hi) as (s & H1 & H2). exists s. split; auto. intros; right; auto.
  - cbn [interleave nth_error] in Hi. destruct (nth_error ps i) as [q0|] eqn:E0.
    + destruct (step1 f q0 d) as [q1 d1] eqn:E1. cbn [replace_nth] in Hi. destruct (IH _ _ _ _ _ _ Hq Hi) as (s & H1 & H2).
      exists ((i, f) :: s). split; [intros j g [[= <- <-]|Hin]; [left; reflexivity|right; auto]|]. cbn [interleave]. now rewrite E0, E1.
    + destruct (IH _ _ _ _ _ _ Hq Hi) as (s & H1 & H2). exists s. split; auto. intros; right; auto.
Qed.
End Drop.

(** ** What a reader that is through has handed over *)
Section Fed.
Context {D SE : Type}.
Lemma follows_inv {X Y} (p : prog D SE X) (f : X -> prog D SE Y) : forall m y, follows (bind p f) m y ->
  exists m1 m2 x, m = m1 ++ m2 /\ follows p m1 x /\ follows (f x) m2 y.
Proof.
  induction p as [a|k IH|u k IH e IHe]; intros m y; cbn [bind].
  - intros H. exists [], m, a. split; auto. split; [reflexivity|exact H].
  - destruct m as [|[d|d d'|z] m]; simpl; try contradiction. intros H. destruct (IH _ _ _ H) as (m1 & m2 & x & -> & H1 & H2).
    exists (ELook _ d :: m1), m2, x. auto.
  - destruct m as [|[d|d d'|z] m]; simpl; try contradiction.
    + intros [E H]. destruct (IH _ _ _ H) as (m1 & m2 & x & -> & H1 & H2). exists (EOk _ d d' :: m1), m2, x. simpl. auto.
    + intros H. destruct (IHe _ _ _ H) as (m1 & m2 & x & -> & H1 & H2). exists (EErr _ z :: m1), m2, x. auto.
Qed.
Context {A EL ER H : Type} (entries : D -> list (bytes * bytes)) (item : bytes * bytes -> prog D SE (result ER A)) (f : A -> H -> result EL unit * H).
Notation own := (fun a h => Ret (f a h)).
Lemma leaf_fed rest : (forall h m x, follows (rest h) m x -> exists xs : list (result ER A), x = feed f xs h) ->
  forall kvs h m x, follows (leaf_loop item own rest kvs h) m x -> exists xs : list (result ER A), x = feed f xs h.
Proof.
  intros Hr. induction kvs as [|kv kvs IH]; intros h m x; cbn [leaf_loop]; [apply Hr|]. intros F.
  apply follows_inv in F. destruct F as (m1 & m2 & [a|e] & -> & _ & F2).
  - cbn [bind] in F2. destruct (f a h) as [[u|e] h1] eqn:Ef; cbn [fst snd] in F2.
    + destruct (IH _ _ _ F2) as [xs ->]. exists (Ok a :: xs). cbn [feed]. now rewrite Ef.
    + destruct m2; simpl in F2; [|contradiction]. exists [Ok a]. cbn [feed]. now rewrite Ef.
  - destruct m2; simpl in F2; [|contradiction]. exists [Err e]. exact F2.
Qed.
Lemma loop_fed cuts : forall lo h m x, follows (loop_from entries item own lo cuts h) m x -> exists xs : list (result ER A), x = feed f xs h.
Proof.
  induction cuts as [|c cuts IH]; intros lo h m x; cbn [loop_from]; destruct m as [|[d|d d'|z] m]; cbn [follows]; try contradiction; apply leaf_fed.
  - intros h0 [|e m0] x0; simpl; [|contradiction]. intros ->. exists []. reflexivity.
  - apply IH.
Qed.
Context (Hi : forall kv, readonly (item kv)).
Lemma ro_leaf rest : (forall h, readonly (rest h)) -> forall kvs h, readonly (leaf_loop item own rest kvs h).
Proof.
  intros Hr. induction kvs as [|kv kvs IH]; intros h; cbn [leaf_loop]; auto. apply readonly_bind; auto. intros [a|e]; [|constructor]. cbn [bind].
  destruct (fst (f a h)); [apply IH|constructor].
Qed.
Lemma ro_loop cuts : forall lo h, readonly (loop_from entries item own lo cuts h).
Proof. induction cuts as [|c cuts IH]; intros lo h; cbn [loop_from]; constructor; intros d; apply ro_leaf; auto. intros; constructor. Qed.
End Fed.

(** ** Only what was processed *)
Section Trim.
Context {EL ER H A : Type} (f : A -> H -> result EL unit * H).
Fixpoint trim (xs : list (result ER A)) (h : H) : list (result ER A) :=
  match xs with
  | [] => []
  | Err e :: _ => [Err e]
  | Ok a :: xs' => Ok a :: match f a h with (Err _, _) => [] | (Ok _, h') => trim xs' h' end
  end.
Lemma feed_trim xs : forall h, feed f (trim xs h) h = feed f xs h.
Proof. induction xs as [|[a|e] xs IH]; intros h; cbn [trim feed]; auto. destruct (f a h) as [[u|e] h']; auto. Qed.
Lemma trim_prefix xs : forall h, exists rest, xs = trim xs h ++ rest.
Proof.
  induction xs as [|[a|e] xs IH]; intros h; cbn [trim]; [exists []; auto| |exists xs; auto].
  destruct (f a h) as [[u|e] h']; [|exists xs; auto]. destruct (IH h') as [rest E]. exists rest. cbn [app]. now rewrite <- E.
Qed.
Lemma trim_all xs : forall h u, fst (feed f xs h) = Ok u -> trim xs h = xs.
Proof. induction xs as [|[a|e] xs IH]; intros h u; cbn [trim feed]; auto; [|discriminate]. destruct (f a h) as [[w|e] h']; [intros E; f_equal; eauto|discriminate]. Qed.
End Trim.
