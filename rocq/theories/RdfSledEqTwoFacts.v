(** try_eq of two RDF stores over sled that are both in use: the loops, and the reader of one database. *)
From Coq Require Import Arith NArith List Bool Sorted Lia.
From Verif Require Import Bytes BytesFacts OMap OMapFacts Core IdType IdTypeFacts Store Mem MemIndex Spec GenSpec
  CodecFacts ListFacts MemFacts MemSim History MemTop Prog ProgFacts Sled SledHistory SledSched SledDb SledOps SledBulk SledRead SledTables
  SledAny SledRun SledTop SledMain SledLeaf SledLeafFacts SledLazy SledBeside SledRely SledOwn SledOwnOps SledBesideTop SledReaders
  SledIndex SledIndexFacts Rdf RdfSpec RdfTop RdfQuery RdfSled RdfSledSpec RdfSledSafe RdfSledConc RdfSledTop RdfSledRead RdfSledMain RdfSledLeaf RdfSledOwn
  RdfSledReaders SledReadTop RdfSledReadTop SledCopy SledCopyFacts SledCopyTop RdfCopySpec RdfCopyFacts RdfSledCopy RdfSledCopyFacts RdfSledCopyTop RdfSledEqLive RdfSledEqLiveFacts
  RdfSledEqLiveTop SledTwo SledTwoFacts SledTwoTop SledEqTwo SledEqTwoFacts RdfSledTwo RdfSledTwoTop RdfSledEqTwo SledBeside RdfSledLeaf.
Import ListNotations.

(** ** One loop of try_eq, errors of the first store included *)
Section Zip.
Context {DA DB SE EA EB A : Type} (eqb : A -> A -> bool)
  (entries : DA -> list (bytes * bytes)) (item : bytes * bytes -> prog DA SE (result EA A))
  (entries' : DB -> list (bytes * bytes)) (item' : bytes * bytes -> prog DB SE (result EB A)).
Notation answer := (result (lr_error EA EB) bool).
Notation ev := (ev (SE := SE)).
Notation body := (same_next (EA := EA) eqb entries' item').
Notation push := (from_cursor entries' item' (zip_item (L := EA) eqb)).
Notation ended := (ended (A := A)).

Lemma feed_zipped (xs : list (result EA A)) : forall c m (P : Prop) r c' m' (P' : Prop),
  feed (ER := EA) (by_list body) xs (Some (c, m, P)) = (r, Some (c', m', P')) -> P' ->
  P /\ match r with
  | Ok _ => exists m0, m = m0 ++ m' /\ forall m2 y c2, follows (ask entries' item' c') m2 (y, c2) -> follows (push c xs) (m0 ++ m2) (ended y, [])
  | Err (LeftE a) => exists m0 o l ls, m = m0 ++ m' /\ follows (push c xs) m0 (o, Ok l :: ls) /\ a = stopped o
  | Err (RightE e) => exists m0 ls, m = m0 ++ m' /\ forall m2 y c2, follows (ask entries' item' c') m2 (y, c2) -> follows (push c xs) (m0 ++ m2) (ended y, Err e :: ls)
  end.
Proof.
  induction xs as [|[n|e0] xs IH]; intros c m P r c' m' P' E HP.
  - simpl in E. injection E as <- <- <- <-. split; auto. exists []. split; auto. intros m2 y c2 Hy. simpl.
    rewrite <- (app_nil_r m2). eapply ask_pushed; [exact Hy|]. destruct y as [[a|e]|]; reflexivity.
  - cbn [feed by_list] in E. destruct (replay (body n c) m P) as [[[[r1 c1] m1] P1]|] eqn:Er; cbn [fst snd] in E.
    2:{ exfalso. clear - E. revert E. generalize xs. intros l. induction l as [|[a|e] l IH]; simpl; intros E; try discriminate. auto. }
    destruct r1 as [[]|a].
    + destruct (IH _ _ _ _ _ _ _ E HP) as [HP1 Hr]. destruct (replay_follows _ _ _ _ _ _ Er HP1) as (HP0 & m0 & -> & Hf). split; auto.
      unfold same_next in Hf. apply follows_bind_inv in Hf. destruct Hf as (ma & mb & [y c2] & -> & Ha & Hb). cbn [fst snd] in Hb.
      destruct mb; simpl in Hb; [|contradiction]. rewrite app_nil_r in *. injection Hb as Eb ->.
      destruct y as [[b|e]|]; try discriminate. destruct (eqb n b) eqn:En; try discriminate.
      assert (forall m2 out, follows (push c2 xs) m2 out -> follows (push c (Ok n :: xs)) (ma ++ m2) out) as Hstep.
      { intros m2 out H2. eapply ask_pushed; [exact Ha|]. cbn [onward zip_item]. rewrite En. exact H2. }
      destruct r as [u|[a|e]].
      * destruct Hr as (m0 & -> & Hr). exists (ma ++ m0). split; [now rewrite app_assoc|]. intros m2 y c3 Hy. rewrite <- app_assoc. eapply Hstep, Hr, Hy.
      * destruct Hr as (m0 & o & l & ls & -> & Hr & ->). exists (ma ++ m0), o, l, ls. split; [now rewrite app_assoc|]. split; auto.
      * destruct Hr as (m0 & ls & -> & Hr). exists (ma ++ m0), ls. split; [now rewrite app_assoc|]. intros m2 y c3 Hy. rewrite <- app_assoc. eapply Hstep, Hr, Hy.
    + injection E as <- <- <- <-. destruct (replay_follows _ _ _ _ _ _ Er HP) as (HP0 & m0 & -> & Hf). split; auto.
      unfold same_next in Hf. apply follows_bind_inv in Hf. destruct Hf as (ma & mb & [y c2] & -> & Ha & Hb). cbn [fst snd] in Hb.
      destruct mb; simpl in Hb; [|contradiction]. rewrite app_nil_r in *. injection Hb as Eb ->.
      exists ma.
      destruct y as [[b|e]|].
      * destruct (eqb n b) eqn:En; try discriminate. injection Eb as ->. exists (Err (LeftE tt)), n, xs.
        split; auto. split; [|reflexivity]. rewrite <- (app_nil_r ma). eapply ask_pushed; [exact Ha|]. cbn [onward zip_item]. rewrite En. reflexivity.
      * injection Eb as ->. exists (Err (RightE e)), n, xs. split; auto. split; [|reflexivity].
        rewrite <- (app_nil_r ma). eapply ask_pushed; [exact Ha|]. reflexivity.
      * injection Eb as ->. exists (Ok tt), n, xs. split; auto. split; [|reflexivity].
        rewrite <- (app_nil_r ma). eapply ask_pushed; [exact Ha|]. reflexivity.
  - simpl in E. injection E as <- <- <- <-. split; auto. exists [], xs. split; auto. intros m2 y c2 Hy. simpl.
    rewrite <- (app_nil_r m2). eapply ask_pushed; [exact Hy|]. destruct y as [[a|e]|]; reflexivity.
Qed.

(** What a run of the loop has done. *)
Definition zipped2 (cuts cuts' : list bytes) (m : list (ev DA + ev DB)) (a : answer) : Prop :=
  exists mL mF r c, m = mL ++ map inr mF /\
    alone (loop_from entries item (fun l st => Ret (by_list body l st)) None cuts) (cursor_new cuts') mL (r, c) /\
    match r with
    | Err (LeftE b) => mF = [] /\ a = b
    | Err (RightE e) => exists y c', follows (ask entries' item' c) mF (y, c') /\ a = match y with Some _ => Err (LeftE e) | None => Ok false end
    | Ok _ => exists y c', follows (ask entries' item' c) mF (y, c') /\ a = Ok (match y with Some _ => false | None => true end)
    end.
Lemma acct_zip2 cuts cuts' : acct (zip_both eqb entries item entries' item' cuts cuts') (zipped2 cuts cuts').
Proof.
  unfold zip_both. apply acct_bind. eapply acct_mono; [|apply alone_loop]. intros mL [[u|[b|e]] c] HL; cbn [fst snd].
  - apply acct_bind, acct_second. intros mF [y c'] Hy. cbn [acct fst snd]. rewrite app_nil_r. exists mL, mF, (Ok u), c.
    split; auto. split; auto. exists y, c'. split; auto. destruct y; reflexivity.
  - cbn [acct]. exists mL, [], (Err (LeftE b)), c. auto.
  - apply acct_bind, acct_second. intros mF [y c'] Hy. cbn [acct fst snd]. rewrite app_nil_r. exists mL, mF, (Err (RightE e)), c.
    split; auto. split; auto. exists y, c'. split; auto.
Qed.

Lemma zipped2_loops cuts cuts' m a : zipped2 cuts cuts' m a ->
  exists st r st', follows (loop_from entries item (fun l st => Ret (by_list body l st)) None cuts st) (lefts m) (r, st') /\
    forall xs, feed (by_list body) xs st = (r, st') ->
      exists out, follows (loop_from entries' item' (fun l st => Ret (zip_item (L := EA) eqb l st)) None cuts' xs) (rights m) out /\
        a = zip_other out /\ (r = Ok tt \/ snd out <> []).
Proof.
  intros (mL & mF & r & c & -> & HL & Ha). destruct (HL [] True) as (P' & HP & Hf). rewrite app_nil_r in Hf. cbn [fst snd] in Hf.
  exists (Some (cursor_new cuts', rights mL, True)), r, (Some (c, [], P')). rewrite lefts_app, lefts_inr, app_nil_r.
  split; [exact Hf|].
  intros xs En. destruct (feed_zipped _ _ _ _ _ _ _ _ En (HP Logic.I)) as [_ Hr]. rewrite rights_app, rights_inr.
  destruct r as [[]|[b|e]].
  - destruct Hr as (m0 & E0 & Hr). rewrite app_nil_r in E0. subst m0. destruct Ha as (y & c' & Hy & ->).
    exists (ended y, []). split; [exact (Hr _ _ _ Hy)|]. split; [destruct y as [[]|]; reflexivity|auto].
  - destruct Hr as (m0 & o & l & ls & E0 & Hr & ->). rewrite app_nil_r in E0. subst m0. destruct Ha as [-> ->]. rewrite app_nil_r.
    exists (o, Ok l :: ls). split; [exact Hr|]. split; [destruct o as [|[]]; reflexivity|]. right. discriminate.
  - destruct Hr as (m0 & ls & E0 & Hr). rewrite app_nil_r in E0. subst m0. destruct Ha as (y & c' & Hy & ->).
    exists (ended y, Err e :: ls). split; [exact (Hr _ _ _ Hy)|]. split; [destruct y as [[]|]; reflexivity|]. right. discriminate.
Qed.
End Zip.

(** What has been compared decides. *)
Section Settled.
Context {A L R : Type} (eqb : A -> A -> bool).
Lemma zip_frame (xs : list (result R A)) : forall (ls more : list (result L A)),
  snd (feed (EL := unit) (zip_item eqb) xs ls) <> [] ->
  feed (EL := unit) (zip_item eqb) xs (ls ++ more) = (fst (feed (EL := unit) (zip_item eqb) xs ls), snd (feed (EL := unit) (zip_item eqb) xs ls) ++ more).
Proof.
  induction xs as [|[x|e] xs IH]; intros [|[l|e'] ls] more; simpl; intros H; auto; try congruence.
  destruct (eqb l x); simpl in *; auto.
Qed.
Lemma left_settled (xs : list (result R A)) (ls more : list (result L A)) : snd (feed (EL := unit) (zip_item eqb) xs ls) <> [] ->
  zip_longest_eq eqb (ls ++ more) xs = zip_longest_eq eqb ls xs.
Proof.
  intros H. rewrite <- !zip_other_eq, (zip_frame xs ls more H). destruct (feed (zip_item eqb) xs ls) as [[u|[u|e]] [|[l|e'] ls']]; simpl in *; congruence.
Qed.
Lemma right_settled (xs more : list (result R A)) (ls : list (result L A)) : fst (feed (EL := unit) (zip_item eqb) xs ls) <> Ok tt ->
  zip_longest_eq eqb ls (xs ++ more) = zip_longest_eq eqb ls xs.
Proof. intros H. rewrite <- !zip_other_eq. now rewrite feed_left. Qed.
End Settled.

(** ** The reader of one database *)
Section Reader.
Context {S NP EP SE BE EN EE HN HE : Type}.
Context (cs : codec BE S) (cu : codec BE (Id KUlid)) (cn : codec BE NP) (ce : codec BE EP).
Notation ent := (entity S).
Notation err := (rdf_error S (sled_index_error S (Id KUlid) SE BE) (sled_error SE BE)).
Context (fn : ent * NP -> HN -> result EN unit * HN) (fe : triple ent * EP -> HE -> result EE unit * HE).
Notation outcome := ((result (lr_error EN err) unit * HN) * option (result (lr_error EE err) unit * HE))%type.
Definition r_reader (cuts ecuts : list bytes) (st : HN) (more : option HE) : prog rdb SE outcome :=
  bind (loop_from (fun d => t_node (r_trees d)) (shown_item (node_item cn) (rs_show_pair cs cu)) (fun a h => Ret (fn a h)) None cuts st) (fun x =>
  match more with
  | None => Ret (x, None)
  | Some st' => bind (loop_from (fun d => t_spo (r_trees d)) (shown_item (edge_of_entry ce SPO) (rs_show_edge cs cu)) (fun a h => Ret (fe a h)) None ecuts st') (fun y => Ret (x, Some y))
  end).
Definition r_read (st : HN) (more : option HE) (r : outcome) (s : rdf_source S NP EP err) : Prop :=
  fst r = feed fn (rs_nodes s) st /\
  match more, snd r with Some st', Some y => y = feed fe (rs_edges s) st' | None, None => rs_edges s = [] | _, _ => False end.
Definition edges_done (r : outcome) : Prop := exists y, snd r = Some y /\ fst y = Ok tt.

Section World.
Context (Hcs : codec_ok cs) (Hcu : codec_ok cu) (Htu : codec_total cu) (keep : triple (Id KUlid) -> Prop) (F : SE -> Prop).
Notation I := (Id KUlid).
Notation gerr := (sled_error SE BE).
Notation rst := (rst (S := S) (SE := SE) cs cu cn ce keep).
Notation u_now := (u_now cs cu cn ce keep).
Notation gst := (gst cs cu cn ce keep).
Notation rext := (rext cs cu cn ce keep).
Notation rext_refl := (rext_refl cs cu cn ce keep).
Notation rext_trans := (rext_trans cs cu cn ce keep).
Notation rg := (rg u_now rext F).
Notation cur := (fun w : rst => r_trees (u_now w)).
Notation rendered := (rendered cs cu cn ce keep F).
Notation shown_out := (shown_out cs cu cn ce keep F).
Notation node_made := (node_made cs cu cn ce keep).
Notation edge_made := (edge_made cs cu cn ce keep SPO).
Notation node_out := (node_out cn ce keep F).
Notation edge_out := (edge_out cn ce keep F SPO).
Notation nodes_part := (nodes_part cn ce keep F).
Notation edges_part := (edges_part cn ce keep F).
Implicit Types w : rst.
Definition r_told (st : HN) (more : option HE) (r : outcome) w : Prop :=
  exists (s : rdf_source S NP EP err) ys zs, r_read st more r s /\
  nodes_part (fst (fst r) = Ok tt) ys (gst w) /\ Forall2 (fun y x => rendered node_made y x w) ys (rs_nodes s) /\
  edges_part (edges_done r) zs (gst w) /\ Forall2 (fun y x => rendered edge_made y x w) zs (rs_edges s).
Lemma r_told_later st more a w w' : rext w w' -> r_told st more a w -> r_told st more a w'.
Proof.
  intros Hx (s & ys & zs & E & H1 & H2 & H3 & H4). exists s, ys, zs. split; auto. split; [|split; [|split]].
  - eapply nodes_part_later; [apply rext_gst; exact Hx|exact H1].
  - eapply rendered_all_later; eauto. intros; eapply node_made_later; eauto.
  - eapply edges_part_later; [apply rext_gst; exact Hx|exact H3].
  - eapply rendered_all_later; eauto. intros; eapply edge_made_later; eauto.
Qed.
Lemma rg_r_reader cuts ecuts st more w : rg (r_told st more) (r_reader cuts ecuts st more) w.
Proof.
  unfold r_reader. apply rg_bind.
  eapply rg_mono; [exact rext_refl|exact rext_trans| |
    apply (rg_loop_at cur r_trees u_now rext (fun _ => eq_refl) rext_refl rext_trans F fn (shown_out node_out node_made))].
  - cbv beta. intros x w1 H1 Hn. destruct (rnodes_looped _ _ _ _ _ _ _ _ _ _ _ Hn) as (xs & ys & E & A1 & A2).
    destruct more as [st'|].
    + apply rg_bind. eapply rg_mono; [exact rext_refl|exact rext_trans| |
        apply (rg_loop_at cur r_trees u_now rext (fun _ => eq_refl) rext_refl rext_trans F fe (shown_out edge_out edge_made))].
      * cbv beta. intros y w2 H2 He. destruct (redges_looped _ _ _ _ _ _ _ _ _ _ _ He) as (xs2 & zs & E2 & B1 & B2). cbn [SledRely.rg].
        exists (RdfSource xs xs2), ys, zs. unfold r_read. cbn [rs_nodes rs_edges fst snd]. split; [|split; [|split; [|split]]].
        -- split; [exact E|exact E2].
        -- eapply nodes_part_later; [apply rext_gst; exact H2|exact A1].
        -- eapply rendered_all_later; eauto. intros; eapply node_made_later; eauto.
        -- destruct B1 as (B & C & D). split; auto. split; auto. intros (y' & Hy & Ht). simpl in Hy. injection Hy as <-. now apply D.
        -- exact B2.
      * intros x' y w2 w3 Hx Hv. eapply shown_out_later; [| |exact Hx|exact Hv].
        -- intros; eapply edge_out_later; eauto.
        -- intros; eapply edge_made_later; eauto.
      * intros w'. exact (sn_order _ _ _ _ _ (u_sane cs cu cn ce keep w') (tab SPO)).
      * intros kv w2 w3 _ Hin Hx. eapply (rg_shown cs cu cn ce keep F edge_out edge_made) with (entries := t_spo); [| | |exact Hin|exact Hx].
        -- intros; eapply edge_out_later; eauto.
        -- intros kv' [t p] w4 [_ (g & Hg & Hl)]. simpl in Hg. apply in_map_iff in Hg. destruct Hg as (d & <- & Hd).
           eapply rg_mono; [exact rext_refl|exact rext_trans| |apply (rg_show_edge cs cu cn ce Hcs Htu keep F (since (SE := SE) cs cu d)); intros w5 H5; eapply since_now; eauto].
           intros [b|y] w5 H5 Hb; simpl in *; auto. exists d. split; [apply H5; auto|]. auto.
        -- intros [key b] w4 w5 Hin' Hx'. exact (rg_edge_item cn ce keep F SPO key b w4 w5 Hin' Hx').
    + cbn [SledRely.rg]. exists (RdfSource xs []), ys, []. unfold r_read. cbn [rs_nodes rs_edges fst snd]. split; [auto|]. split; [exact A1|]. split; [exact A2|].
      split; [|constructor]. split; [constructor|]. split; [intros y []|]. intros (y & Hy & _). discriminate.
  - intros x y w2 w3 Hx Hv. eapply shown_out_later; [| |exact Hx|exact Hv].
    + intros; eapply node_out_later; eauto.
    + intros; eapply node_made_later; eauto.
  - intros w'. exact (sn_order _ _ _ _ _ (u_sane cs cu cn ce keep w') TNode).
  - intros kv w1 w2 _ Hin Hx. eapply (rg_shown cs cu cn ce keep F node_out node_made) with (entries := t_node); [| | |exact Hin|exact Hx].
    + intros; eapply node_out_later; eauto.
    + intros kv' [i p] w4 [_ (g & Hg & Hl)]. simpl in Hg. apply in_map_iff in Hg. destruct Hg as (d & <- & Hd).
      eapply rg_mono; [exact rext_refl|exact rext_trans| |apply (rg_show_pair cs cu cn ce Hcs Htu keep F (since (SE := SE) cs cu d)); intros w5 H5; eapply since_now; eauto].
      intros [b|x] w5 H5 Hb; simpl in *; auto. exists d. split; [apply H5; auto|]. auto.
    + intros [key b] w4 w5 Hin' Hx'. exact (rg_node_item cn ce keep F key b w4 w5 Hin' Hx').
Qed.
End World.

Section Top.
Context {E : Type} (seqb : S -> S -> bool) (seqb_eq : forall a b, seqb a b = true <-> a = b).
Context (Hcs : codec_ok cs) (Hcu : codec_ok cu) (Hcn : codec_ok cn) (Hce : codec_ok ce) (Htu : codec_total cu).
Context (mn : NP -> NP -> NP) (me : EP -> EP -> EP) (keep : triple (Id KUlid) -> Prop).
Context (Fin : rdb -> Prop) (den : entity S -> Id KUlid -> Prop).
Context (Hulid : forall i, den (EUlid i) i) (Hname : forall d n i, Fin d -> name_now (SE := SE) cs cu d n = Some i -> den (EString n) i).
Notation I := (Id KUlid).
Notation gerr := (sled_error SE BE).
Notation rop := (rop S NP EP E).
Notation repoch := (repoch (S := S) (NP := NP) (EP := EP) (SE := SE) (E := E)).
Notation nu := (name_now (SE := SE) cs cu).
Notation rho := (id_now (SE := SE) cs cu).
Notation rst := (rst (S := S) (SE := SE) cs cu cn ce keep).
Notation u_now := (u_now cs cu cn ce keep).
Notation u_past := (u_past cs cu cn ce keep).
Notation gst := (gst cs cu cn ce keep).
Notation callers := (rl_callers cs cu cn ce mn me).
Implicit Types d : rdb.
Implicit Types w : rst.
Context (es : list repoch) (ts : list (rhandle * list rop)) (wcuts : nat -> nat -> cutting) (schedule : list (nat * option SE)).
Context (Hnd : NoDup (flat_map epoch_keys es ++ callers_keys ts)) (Hcalm : Forall RdfSledSpec.calm es).
Context (Ho : Forall (fun hl => Forall (fun o => forall t, keep t -> ~ r_rewrites den o t) (snd hl)) ts).
Notation d0 := (rs_epochs cs cu cn ce mn me es rdb_new).

Lemma reader_rbeside cuts ecuts st more a :
  let ps := beside (r_reader cuts ecuts st more) (callers wcuts 0 ts) in
  let seen := during schedule ps d0 in
  let r2l := rho (snd (interleave schedule ps d0)) in
  (forall d1, seen d1 -> Fin d1) ->
  has_read a (fst (interleave schedule ps d0)) ->
  (forall d1, seen d1 -> below (nu d1) (nu (snd (interleave schedule ps d0)))) /\
  exists s : rdf_source S NP EP err, r_read st more a s /\
  ((forall e p, In (Ok (e, p)) (rs_nodes s) -> exists i d1, seen d1 /\
     r_lists_node SE cs cu cn d1 (shown (rho d1) i) p /\ called SE cs cu (knowing SE cs cu seen d1) i e) /\
   (forall t p, In (Ok (t, p)) (rs_edges s) -> exists u d1, seen d1 /\
     r_lists_edge SE cs cu ce SPO d1 (triple_map (shown (rho d1)) u) p /\ called3 SE cs cu (knowing SE cs cu seen d1) u t) /\
   StronglySorted (behind_lt r2l) (map (fun ep => by_name r2l (fst ep)) (ok_items (rs_nodes s))) /\
   StronglySorted (behind_edge_lt r2l SPO) (map (fun tp => triple_map (by_name r2l) (fst tp)) (ok_items (rs_edges s))) /\
   (forall x, In (Err x) (rs_nodes s) -> is_fault (met schedule) x) /\
   (forall x, In (Err x) (rs_edges s) -> is_fault (met schedule) x \/ (x = GraphStorageError MissingPropertyData /\ exists u, ~ keep u))) /\
  (fst (fst a) = Ok tt -> r_all_nodes cs cu cn schedule ps d0 (rs_nodes s)) /\
  (edges_done a -> r_all_edges cs cu ce schedule ps d0 (rs_edges s)).
Proof.
  intros ps seen r2l Hfin Hx.
  destruct (rbeside_reads seqb seqb_eq cs cu cn ce Hcs Hcu Hcn Hce mn me keep Fin den Hulid Hname
    _ (fun F => r_told keep F st more) es ts wcuts schedule Hnd Hcalm Ho
    (fun F a w1 w2 => r_told_later keep F st more a w1 w2)
    (fun F w => rg_r_reader Hcs Htu keep F cuts ecuts st more w) Hfin _ Hx)
    as (w & (s & ys & zs & Es & (N2 & N3 & N4) & Hr & (R2 & R3 & R4) & Hr') & Hn & Hp & Hp').
  fold ps in Hn, Hp, Hp'. fold (during schedule ps d0) seen in Hp, Hp'.
  assert (r2l = rho (u_now w)) as Er by (unfold r2l; now rewrite Hn).
  assert (forall (a : I * NP) (b : ent * NP), node_made cs cu cn ce keep a b w -> by_name r2l (fst b) = shown r2l (fst a)) as Hk.
  { intros x y (d1 & _ & _ & _ & Hy). rewrite Er. eapply (called_now cs cu cn ce Hcs Hcu keep); exact Hy. }
  assert (forall (a : triple I * EP) (b : triple ent * EP), edge_made cs cu cn ce keep SPO a b w -> triple_map (by_name r2l) (fst b) = triple_map (shown r2l) (fst a)) as Hk'.
  { intros x y (d1 & _ & _ & _ & Hy). rewrite Er. eapply (called3_now cs cu cn ce Hcs Hcu keep); exact Hy. }
  assert (forall d1, In d1 (u_past w) -> index_ok cs cu (r_names d1)) as Hok by apply u_ok.
  pose proof (one_here cs cu cn ce Hcs Hcu keep w) as One.
  split; [intros d1 Hd1; rewrite <- Hn; apply (u_grew cs cu cn ce keep w d1); auto|].
  exists s. split; auto. split; [split; [|split; [|split; [|split; [|split]]]]|].
  - intros e p Hin. destruct (forall2_in_r _ _ _ _ Hr Hin) as (y & Hy & [i q] & -> & d1 & Hd1 & Hl & Hq & He). simpl in Hq, He. subst q.
    exists i, d1. split; auto. split; [apply node_listed; auto; exists i; auto|]. eapply (called_since cs cu cn ce Hcs Hcu keep w); eauto.
  - intros t p Hin. destruct (forall2_in_r _ _ _ _ Hr' Hin) as (y & Hy & [u q] & -> & d1 & Hd1 & Hl & Hq & Ha & Hb & Hc).
    simpl in Hq, Ha, Hb, Hc. subst q. exists u, d1. split; auto. split; [apply edge_listed; auto; exists u; auto|].
    repeat split; eapply (called_since cs cu cn ce Hcs Hcu keep w); eauto.
  - eapply made_sorted with (ka := fst) (h := shown r2l); [exact Hk| |exact N2|exact Hr]. intros x y Lt. exists x, y. auto.
  - eapply made_sorted with (ka := fst) (h := triple_map (shown r2l)); [exact Hk'| |exact R2|exact Hr']. intros x y Lt. exists x, y. auto.
  - intros x Hin. destruct (forall2_in_r _ _ _ _ Hr Hin) as (y & Hy & [(g & -> & ->)|Hf]); auto.
    destruct (N3 g Hy) as (z & Hz & ->). exists z. auto.
  - intros x Hin. destruct (forall2_in_r _ _ _ _ Hr' Hin) as (y & Hy & [(g & -> & ->)|Hf]); auto.
    destruct (R3 g Hy) as [[-> Hkeep]|(z & Hz & ->)]; [right; auto|]. left. exists z. auto.
  - destruct Es as [En Ee]. split; intros Ht.
    + assert (forall x, ~ In (Err x) (rs_nodes s)) as E1.
      { destruct (fst a) as [r0 h0]. simpl in Ht. subst r0. symmetry in En. eapply feed_ok; exact En. }
      specialize (N4 Ht). destruct N4 as (_ & _ & _ & N4).
      unfold r_all_nodes. fold seen; fold r2l. intros e He. destruct (He _ (Hp _ (u_in cs cu cn ce keep w))) as (e0 & p0 & E0 & L0).
      apply node_listed in L0; [| |exact Htu|apply Hok, u_in]; auto. destruct L0 as (i & -> & _).
      assert (by_name r2l e = shown r2l i) as Ei.
      { rewrite <- E0, Er. eapply (called_now cs cu cn ce Hcs Hcu keep), shown_was, u_in. }
      destruct (N4 i) as [Hin|(g & Hg)].
      * intros g Hg. simpl in Hg. apply in_map_iff in Hg. destruct Hg as (d1 & <- & Hd1).
        destruct (He d1 (Hp _ Hd1)) as (e1 & p1 & E1' & L1). apply node_listed in L1; auto. destruct L1 as (j & -> & L1).
        assert (j = i) as ->; [|eauto]. apply (shown_inj _ _ One). rewrite <- Er, <- Ei, <- E1', Er. symmetry.
        now eapply (called_now cs cu cn ce Hcs Hcu keep), shown_was.
      * rewrite Ei. destruct (made_there cs cu cn ce keep _ _ (shown r2l) _ _ _ _ _ _ Hk Hr Hin) as [Q|(x & Q & _)]; [exact Q|destruct (E1 x Q)].
      * destruct (made_error cs cu cn ce keep _ _ _ _ _ _ Hr Hg) as (x & Q & _). destruct (E1 x Q).
    + assert (forall x, ~ In (Err x) (rs_edges s)) as E2.
      { destruct Ht as ([r0 h0] & Hy & Ht). simpl in Ht. subst r0. rewrite Hy in Ee. destruct more as [st'|]; [|contradiction]. symmetry in Ee. eapply feed_ok; exact Ee. }
      specialize (R4 Ht). destruct R4 as (_ & _ & _ & R4). clear Ht.
      unfold r_all_edges. fold seen; fold r2l. intros t Ht. destruct (Ht _ (Hp _ (u_in cs cu cn ce keep w))) as (e0 & p0 & E0 & L0).
      apply edge_listed in L0; [| |exact Htu|apply Hok, u_in]; auto. destruct L0 as (i & -> & _).
      assert (triple_map (by_name r2l) t = triple_map (shown r2l) i) as Ei.
      { rewrite <- E0, Er. eapply (called3_now cs cu cn ce Hcs Hcu keep), triple_was, u_in. }
      destruct (R4 i) as [Hin|(g & Hg & Hwhy)].
      * intros g Hg. simpl in Hg. apply in_map_iff in Hg. destruct Hg as (d1 & <- & Hd1).
        destruct (Ht d1 (Hp _ Hd1)) as (e1 & p1 & E1' & L1). apply edge_listed in L1; auto. destruct L1 as (j & -> & L1).
        assert (j = i) as ->; [|eauto]. apply (shown3_inj _ _ One). rewrite <- Er, <- Ei, <- E1', Er. symmetry.
        now eapply (called3_now cs cu cn ce Hcs Hcu keep), triple_was.
      * rewrite Ei. destruct (made_there cs cu cn ce keep _ _ (triple_map (shown r2l)) _ _ _ _ _ _ Hk' Hr' Hin) as [Q|(x & Q & _)]; [exact Q|destruct (E2 x Q)].
      * destruct (made_error cs cu cn ce keep _ _ _ _ _ _ Hr' Hg) as (x & Q & _). destruct (E2 x Q).
Qed.
End Top.

Lemma r_reader_beside {E} (seqb : S -> S -> bool) mn me (Hseq : forall a b, seqb a b = true <-> a = b)
  (Hcs : codec_ok cs) (Hcu : codec_ok cu) (Hcn : codec_ok cn) (Hce : codec_ok ce) (Htu : codec_total cu)
  (es : list (repoch (S := S) (NP := NP) (EP := EP) (SE := SE) (E := E))) (ts : list (rhandle * list (rop S NP EP E)))
  (wcuts : nat -> nat -> cutting) (cuts ecuts : list bytes) (schedule : list (nat * option SE)) st more r
  (seen : rdb -> Prop) (met' : SE -> Prop) (last : rdb) :
  NoDup (flat_map epoch_keys es ++ callers_keys ts) -> Forall RdfSledSpec.calm es ->
  let d := rs_epochs cs cu cn ce mn me es rdb_new in
  let ps := beside (r_reader cuts ecuts st more) (rl_callers cs cu cn ce mn me wcuts 0 ts) in
  has_read r (fst (interleave schedule ps d)) -> (forall d1, during schedule ps d d1 -> seen d1) -> (forall y, met schedule y -> met' y) ->
  last = snd (interleave schedule ps d) ->
  exists s, r_read st more r s /\ r_handed2 cs cu cn ce seen last met' ts s /\
    (fst (fst r) = Ok tt -> r_all_nodes2 cs cu cn seen last (rs_nodes s)) /\
    (edges_done r -> r_all_edges2 cs cu ce seen last (rs_edges s)).
Proof.
  intros Hnd Hcalm d ps Hx Hs Hm ->. set (d_end := snd (interleave schedule ps d)) in *.
  destruct (reader_rbeside seqb Hseq Hcs Hcu Hcn Hce Htu mn me none every anyhow (fun _ => Logic.I) (fun _ _ _ _ _ => Logic.I) es ts wcuts schedule Hnd Hcalm (radds_none _ _)
    cuts ecuts st more r (fun _ _ => Logic.I) Hx) as (G & _).
  fold d ps in G. fold d_end in G.
  destruct (reader_rbeside seqb Hseq Hcs Hcu Hcn Hce Htu mn me (fun t => ~ r_rewritten (r_denotes SE cs cu d_end) ts t)
    (fun d1 => below (name_now (SE := SE) cs cu d1) (name_now (SE := SE) cs cu d_end))
    (r_denotes SE cs cu d_end) (fun i => eq_refl) (fun d1 n i H => H n i) es ts wcuts schedule Hnd Hcalm (radds_spared _ _)
    cuts ecuts st more r G Hx)
    as (_ & s & Es & (H1 & H2 & H3 & H4 & H5 & H6) & Hn & He).
  fold d ps d_end in H1, H2, H3, H4, H5, H6.
  assert (forall d1 i e, called SE cs cu (knowing SE cs cu (during schedule ps d) d1) i e -> called SE cs cu (knowing SE cs cu seen d1) i e) as Hc.
  { intros d1 i e (d2 & [Hd Hk] & Ee). exists d2. split; [split; [now apply Hs|exact Hk]|exact Ee]. }
  assert (forall z : err, is_fault (met schedule) z -> is_fault met' z) as Hf by (intros z (y & Hy & Ez); exists y; auto).
  exists s. split; [exact Es|]. split; [split; [|split; [|split; [|split; [|split]]]]|split].
  - intros e p Hin. destruct (H1 e p Hin) as (i & d1 & D1 & L1 & C1). exists i, d1. auto.
  - intros t p Hin. destruct (H2 t p Hin) as (u & d1 & D1 & L1 & (C1 & C2 & C3)). exists u, d1. split; auto. split; auto. repeat split; auto.
  - exact H3.
  - exact H4.
  - intros z Hin. apply Hf, H5, Hin.
  - intros z Hin. destruct (H6 z Hin) as [Hz|[-> (u & K)]]; auto. right. split; auto. exists u. apply r_rewritten_not; auto. intros; apply denotes_dec.
  - intros Ht e He'. apply (Hn Ht). intros d1 D1. apply He', Hs, D1.
  - intros Ht e He'. apply (He Ht). intros d1 D1. apply He', Hs, D1.
Qed.
End Reader.
