(** What callers of an RdfTripleStore over sled do to the graph: the calls on the graph run as if
    their callers had only made these. *)
From Coq Require Import Arith NArith List Bool Sorted Lia.
From Verif Require Import Bytes BytesFacts OMap OMapFacts Core IdType IdTypeFacts Store Mem Spec GenSpec
  CodecFacts ListFacts MemSim History Prog ProgFacts Sled SledHistory SledSched SledLeaf SledDb SledOps SledBulk
  SledRun SledRead SledTop SledMain SledCrash SledConc SledIndex SledIndexFacts Rdf RdfSpec RdfTop RdfSled RdfSledSpec
  RdfSledLeaf RdfSledSafe RdfSledConc RdfSledTop RdfSledMixSpec RdfSledMixSim RdfSledMixOk.
Import ListNotations.

Lemma peq_ret {D SE A} (p : prog D SE A) a : peq p (Ret a) -> p = Ret a.
Proof. now inversion 1. Qed.
Lemma replace_at {X} (l : list X) i j x : nth_error (replace_nth i x l) j =
  if Nat.eqb i j then option_map (fun _ => x) (nth_error l j) else nth_error l j.
Proof. revert i j. induction l as [|y l IH]; intros [|i] [|j]; simpl; auto. now destruct (Nat.eqb i j). Qed.

Section Run.
Context {S NP EP SE BE E : Type} (seqb : S -> S -> bool) (seqb_eq : forall a b, seqb a b = true <-> a = b).
Context (cs : codec BE S) (cu : codec BE (Id KUlid)) (cn : codec BE NP) (ce : codec BE EP).
Context (mn : NP -> NP -> NP) (me : EP -> EP -> EP).
Notation I := (Id KUlid).
Notation P A := (prog rdb SE A).
Notation rop := (rop S NP EP E).
Notation op := (op KUlid NP EP E).
Notation gerr := (sled_error SE BE).
Notation nu := (name_now (SE := SE) cs cu).
Notation idx_ok := (index_ok cs cu).
Notation ids := (S -> option I).
Notation SE' := (option SE).
Notation outcome := (outcome (SE := SE') (BE := BE) (E := E)).
Notation GP := (prog db SE' (SledHistory.outcome (SE := SE') (BE := BE) (E := E) * handle KUlid)).
Notation call := (call (S := S) (NP := NP) (EP := EP) (SE := SE) (BE := BE) (E := E)).
Notation rawc := (raw (SE := SE) (E := E) cn ce mn me).
Notation lapply := (l_apply (SE := SE') (E := E) cn ce mn me).
Implicit Types d : rdb.
Implicit Types M : S -> option I.
Implicit Types g : handle KUlid.

Context (T : ids -> Prop) {A : Type} (Q : A -> list call -> ids -> handle KUlid -> nat -> Prop) (R : list (rop * bool) -> ids -> Prop).
Notation okay := (okay cs cu cn ce mn me T Q R).

(** ** The callers of the graph *)
Notation entry := (rop * (cutting * op))%type.
Fixpoint lrun (fut : list (cutting * op)) (done : list outcome) g : prog db SE' (list outcome * handle KUlid) :=
  match fut with
  | [] => Ret (done, g)
  | co :: fut' => bind (lapply (fst co) (snd co) g) (fun rh => lrun fut' (done ++ [fst rh]) (snd rh))
  end.

Inductive state : Type :=
| Idle (s : list call) (M : ids) (g : handle KUlid) (n : nat)
| Mid (s : list call) (M : ids) (n : nat) (ro : rop) (c : cutting) (o : op) (q : GP).

Definition outs (s : list call) : list outcome := map (fun x => out (c_res x)) s.
Lemma outs_app a b : outs (a ++ b) = outs a ++ outs b.
Proof. apply map_app. Qed.
Definition stat (x : state) (fut : list (cutting * op)) : prog db SE' (list outcome * handle KUlid) :=
  match x with
  | Idle s M g n => lrun fut (outs s) g
  | Mid s M n ro c o q => bind q (fun rh => lrun fut (outs s ++ [fst rh]) (snd rh))
  end.
Definition seen (x : state) : ids := match x with Idle _ M _ _ | Mid _ M _ _ _ _ _ => M end.
Definition entries (s : list call) : list entry := map (fun x => (c_rop x, (c_cut x, c_op x))) s.
Lemma entries_app a b : entries (a ++ b) = entries a ++ entries b.
Proof. apply map_app. Qed.
Definition trace (x : state) : list entry :=
  match x with Idle s _ _ _ => entries s | Mid s _ _ ro c o _ => entries s ++ [(ro, (c, o))] end.
Definition drawn (l : list entry) : nat := sum (map (fun e => draws (snd (snd e))) l).
Lemma drawn_app a b : drawn (a ++ b) = drawn a + drawn b.
Proof. unfold drawn. now rewrite map_app, sum_app. Qed.
Definition budget (x : state) : nat :=
  drawn (trace x) + match x with Idle _ _ _ n | Mid _ _ n _ _ _ _ => n end.
Definition fits M (l : list entry) : Prop := Forall (fun e => stands M (fst e) (snd (snd e))) l.
Lemma fits_below M M' l : below M M' -> fits M l -> fits M' l.
Proof. intros HB. apply Forall_impl. intros e. now apply stands_below. Qed.

Inductive at_ : P A -> state -> Prop :=
| At_idle p s M g n : okay p s M g n -> fits M (entries s) -> at_ p (Idle s M g n)
| At_mid p s M n ro c o q q' F : peq p (bind (on_graph q) F) -> call_sim q q' -> fits M (entries s) -> stands M ro o ->
    (forall rh, okay (F rh) (s ++ [Call ro c o (fst rh)]) M (snd rh) n) -> (forall a, q <> Ret a) -> at_ p (Mid s M n ro c o q').

Lemma at_peq p p' x : peq p' p -> at_ p x -> at_ p' x.
Proof.
  intros H. destruct 1 as [p s M g n H1 H2|p s M n ro c o q q' F H1 H2 H3 H4 H5 H6].
  - constructor; auto. eapply okay_peq; eauto.
  - econstructor; eauto. eapply peq_trans; eauto.
Qed.

Lemma stands_one M ro (o : op) : stands M ro o -> one_op o.
Proof. destruct ro; simpl; try contradiction; intros (i & _ & ->); exact Logic.I. Qed.

(** The end of a call on the graph. *)
Lemma settle p s M n ro c o q q' F : peq p (bind (on_graph q) F) -> call_sim q q' -> fits M (entries s) -> stands M ro o ->
  (forall rh, okay (F rh) (s ++ [Call ro c o (fst rh)]) M (snd rh) n) ->
  exists x, at_ p x /\ seen x = M /\ trace x = trace (Mid s M n ro c o q') /\ budget x = budget (Mid s M n ro c o q') /\
    forall fut, stat (Mid s M n ro c o q') fut = stat x fut.
Proof.
  intros Hp Hq Hf Hs HF. destruct q as [a|k|u k e].
  2-3: (exists (Mid s M n ro c o q'); split; [|auto]; econstructor; eauto; discriminate).
  inversion Hq as [x a' Ha H1 H2| |]. subst x q'. subst a'. exists (Idle (s ++ [Call ro c o (fst a)]) M (snd a) n).
  assert (trace (Idle (s ++ [Call ro c o (fst a)]) M (snd a) n) = trace (Mid s M n ro c o (Ret (out (fst a), snd a)))) as Ht.
  { simpl. now rewrite entries_app. }
  split; [|split; [reflexivity|split; [exact Ht|split; [unfold budget; now rewrite Ht|]]]].
  - constructor; [eapply okay_peq; [exact Hp|]; apply HF|]. rewrite entries_app. apply Forall_app. split; auto.
    constructor; auto.
  - intros fut. cbn [stat bind fst snd]. now rewrite outs_app.
Qed.

Definition moves_on x x' fu d d1 : Prop :=
  idx_ok (r_names d1) /\ T (nu d1) /\ below (nu d) (nu d1) /\ below (seen x') (nu d1) /\
  trace x' = trace x ++ fu /\ budget x' = budget x /\
  ((r_trees d1 = r_trees d /\ forall fut, stat x (map snd fu ++ fut) = stat x' fut) \/
   exists f', forall fut, step1 f' (stat x (map snd fu ++ fut)) (r_trees d) = (stat x' fut, r_trees d1)).

(** One step of a call on the graph. *)
Lemma mid_step f p d s M n ro c o q q' F : peq p (bind (on_graph q) F) -> call_sim q q' -> fits M (entries s) -> stands M ro o ->
  (forall rh, okay (F rh) (s ++ [Call ro c o (fst rh)]) M (snd rh) n) -> (forall a, q <> Ret a) ->
  idx_ok (r_names d) -> T (nu d) -> below M (nu d) ->
  exists x', at_ (fst (step1 f p d)) x' /\ moves_on (Mid s M n ro c o q') x' [] d (snd (step1 f p d)).
Proof.
  intros Hp Hq Hf Hs HF Hne D1 D2 D3. destruct (peq_step f _ _ d Hp) as [Hp1 Hd1]. rewrite Hd1. clear Hd1.
  destruct q as [a|k|u k e]; [now destruct (Hne a)| |].
  - inversion Hq as [|k0 k' Hk H1 H2|]. subst k0 q'. cbn [on_graph bind step1 fst snd] in *.
    destruct (settle _ s M n ro c o (k (r_trees d)) (k' (r_trees d)) F Hp1 (Hk _) Hf Hs HF) as (x & X1 & X2 & X3 & X4 & X5).
    exists x. split; auto. split; auto. split; auto. split; [apply below_refl|]. split; [now rewrite X2|].
    split; [now rewrite app_nil_r, X3|]. split; [now rewrite X4|]. right. exists None. intros fut. cbn [map app stat bind step1].
    f_equal. apply X5.
  - inversion Hq as [| |u0 u' k0 k' e0 e' a Hu Hk He Hn HX H1 H2]. subst u0 k0 e0 q'. cbn [on_graph bind step1 fst snd] in *.
    destruct f as [y|]; cbn [fst snd] in *.
    + destruct (settle _ s M n ro c o (e y) (e' (Some y)) F Hp1 (He _) Hf Hs HF) as (x & X1 & X2 & X3 & X4 & X5).
      exists x. split; auto. split; auto. split; auto. split; [apply below_refl|]. split; [now rewrite X2|].
      split; [now rewrite app_nil_r, X3|]. split; [now rewrite X4|]. right. exists (Some (Some y)). intros fut. cbn [map app stat bind step1].
      f_equal. apply X5.
    + destruct (settle _ s M n ro c o (k (r_trees d)) (k' (r_trees d)) F Hp1 (Hk _) Hf Hs HF) as (x & X1 & X2 & X3 & X4 & X5).
      exists x. split; auto. split; auto. split; [exact D2|].
      split; [exact (below_refl (nu d))|].
      split; [rewrite X2; exact D3|].
      split; [now rewrite app_nil_r, X3|]. split; [now rewrite X4|]. right. exists None. intros fut. cbn [map app stat bind step1 r_trees].
      rewrite Hu. f_equal. apply X5.
Qed.

Lemma idle_step f p s M g n d : okay p s M g n -> forall p0, peq p0 p -> fits M (entries s) -> idx_ok (r_names d) -> T (nu d) -> below M (nu d) ->
  exists x' fu, at_ (fst (step1 f p0 d)) x' /\ moves_on (Idle s M g n) x' fu d (snd (step1 f p0 d)).
Proof.
  intros Hok.
    induction Hok as [p a s M g n H1 H2 H3|p u k e s M g n H1 H2 He IHe H3 Hk IHk|p ro c o F s M g n H1 H2 H3 H4 H5 IH]; intros p0 Hpp Hfit D1 D2 D3.
    + pose proof (peq_trans _ _ Hpp _ H1) as Hq. apply peq_ret in Hq. subst p0. exists (Idle s M g n), []. cbn [step1 fst snd].
      split; [constructor; auto; eapply Ok_ret; eauto; apply peq_refl|].
      split; auto. split; auto. split; [apply below_refl|]. split; auto. split; [now rewrite app_nil_r|]. split; auto.
    + pose proof (peq_trans _ _ Hpp _ H1) as Hq. destruct (peq_step f _ _ d Hq) as [Hp1 Hd1]. rewrite Hd1. clear Hd1.
      cbn [step1] in Hp1 |- *. destruct f as [y|]; cbn [fst snd] in *.
      * exists (Idle s M g n), []. split; [constructor; auto; eapply okay_peq; eauto|].
        split; auto. split; auto. split; [apply below_refl|]. split; auto. split; [now rewrite app_nil_r|]. split; auto.
      * destruct (H3 d D1 D2 D3) as (X1 & X2 & X3 & X4). exists (Idle s (nu (u d)) g n), [].
        split; [constructor; [eapply okay_peq; eauto|]; eapply fits_below; [|exact Hfit]; eapply below_trans; eauto|].
        split; auto. split; auto. split; auto. split; [apply below_refl|]. split; [now rewrite app_nil_r|]. split; auto.
    + pose proof (peq_trans _ _ Hpp _ H1) as Hq. pose proof (raw_sim (SE := SE) (E := E) cn ce mn me c o g (stands_one _ _ _ H3)) as Hsim.
      destruct (rawc c o g) as [a|k|u k e] eqn:Hraw.
      * inversion Hsim as [x a' Ha X1 X2| |]. subst x a'. cbn [on_graph bind] in Hq.
        destruct (IH a p0 Hq) as (x' & fu & Hat & Y1 & Y2 & Y3 & Y4 & Y5 & Y6 & Y7).
        { rewrite entries_app. apply Forall_app. split; auto. constructor; auto. }
        { exact D1. } { exact D2. } { exact D3. }
        exists x', ((ro, (c, o)) :: fu). split; auto. split; auto. split; auto. split; auto. split; auto.
        split; [rewrite Y5; simpl; now rewrite entries_app, <- app_assoc|].
        split.
        { rewrite Y6. unfold budget. simpl. rewrite entries_app, drawn_app. unfold drawn at 2. simpl. lia. }
        assert (forall fut, stat (Idle s M g n) (map snd ((ro, (c, o)) :: fu) ++ fut) =
          stat (Idle (s ++ [Call ro c o (fst a)]) M (snd a) (n - draws o)) (map snd fu ++ fut)) as Hst.
        { intros fut. cbn [stat map app lrun fst snd]. rewrite <- X2. cbn [bind fst snd]. now rewrite outs_app. }
        destruct Y7 as [[Y7 Y8]|[f' Y8]]; [left|right; exists f'].
        -- split; auto. intros fut. rewrite Hst. apply Y8.
        -- intros fut. rewrite Hst. apply Y8.
      * destruct (mid_step f p0 d s M (n - draws o) ro c o _ _ F Hq Hsim Hfit H3 H5) as (x' & Hat & Y1 & Y2 & Y3 & Y4 & Y5 & Y6 & Y7); auto; [discriminate|].
        exists x', [(ro, (c, o))]. split; auto. split; auto. split; auto. split; auto. split; auto.
        split; [rewrite Y5; simpl; now rewrite app_nil_r|].
        split; [rewrite Y6; unfold budget; simpl; rewrite drawn_app; unfold drawn at 2; simpl; lia|]. exact Y7.
      * destruct (mid_step f p0 d s M (n - draws o) ro c o _ _ F Hq Hsim Hfit H3 H5) as (x' & Hat & Y1 & Y2 & Y3 & Y4 & Y5 & Y6 & Y7); auto; [discriminate|].
        exists x', [(ro, (c, o))]. split; auto. split; auto. split; auto. split; auto. split; auto.
        split; [rewrite Y5; simpl; now rewrite app_nil_r|].
        split; [rewrite Y6; unfold budget; simpl; rewrite drawn_app; unfold drawn at 2; simpl; lia|]. exact Y7.
Qed.
Lemma caller_step f p d x : at_ p x -> idx_ok (r_names d) -> T (nu d) -> below (seen x) (nu d) ->
  exists x' fu, at_ (fst (step1 f p d)) x' /\ moves_on x x' fu d (snd (step1 f p d)).
Proof.
  intros Hat D1 D2 D3. destruct Hat as [p s M g n Hok Hfit|p s M n ro c o q q' F H1 H2 H3 H4 H5 H6]; cbn [seen] in D3.
  - eapply idle_step; eauto. apply peq_refl.
  - destruct (mid_step f p d s M n ro c o q q' F) as (x' & X1 & X2); auto. eauto.
Qed.
End Run.
