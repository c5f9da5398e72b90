(** Facts about try_eq (Store.v) and about == on in-memory stores (Mem.v). *)
From Coq Require Import Arith NArith List Sorted Lia Bool.
From Verif Require Import Bytes BytesFacts OMap OMapFacts Core IdType IdTypeFacts CodecFacts
  Store Mem Spec History ListFacts MemFacts MemSim MemSetFacts MemTop.
Import ListNotations.

Section Lists.
Context {A P : Type} (lt : A -> A -> Prop).
Context (irr : forall a, ~ lt a a) (tr : forall a b c, lt a b -> lt b c -> lt a c).
Context (R : P -> P -> bool).
Notation sorted l := (StronglySorted (fun x y : A * P => lt (fst x) (fst y)) l).

Lemma sorted_keys (l : list (A * P)) : sorted l -> StronglySorted lt (map fst l).
Proof.
  induction 1 as [|x l S IH F]; simpl; constructor; auto.
  rewrite Forall_forall in *. intros a H. apply in_map_iff in H. destruct H as (y & <- & H). auto.
Qed.

Lemma same_keys_rel (xs : list (A * P)) : forall ys f f',
  (forall a p, In (a, p) xs -> f a = Some p) -> (forall a p, In (a, p) ys -> f' a = Some p) ->
  (forall a, opt_rel R (f a) (f' a)) -> map fst xs = map fst ys -> Forall2 (item_eq R) xs ys.
Proof.
  induction xs as [|[a p] xs IH]; intros [|[b q] ys] f f' H H' O K; simpl in K; try discriminate; constructor.
  - injection K as -> K. split; simpl; auto.
    specialize (O b). rewrite (H b p), (H' b q) in O by (simpl; auto). exact O.
  - injection K as -> K. apply (IH ys f f'); auto; intros; [apply H | apply H']; simpl; auto.
Qed.

Lemma lists_rel (xs ys : list (A * P)) f f' :
  sorted xs -> sorted ys ->
  (forall a p, In (a, p) xs <-> f a = Some p) -> (forall a p, In (a, p) ys <-> f' a = Some p) ->
  (Forall2 (item_eq R) xs ys <-> forall a, opt_rel R (f a) (f' a)).
Proof.
  intros Sx Sy Hx Hy. split.
  - intros F a.
    assert (L : forall p, In (a, p) xs -> exists q, In (a, q) ys /\ R p q = true).
    { clear -F. induction F as [|[b p0] [c q0] xs ys [E Rpq] F IH]; simpl; [tauto|].
      intros p [[= -> ->]|H].
      - simpl in *. subst c. exists q0. auto.
      - destruct (IH p H) as (q & Hq & Hr). exists q. auto. }
    assert (L' : forall q, In (a, q) ys -> exists p, In (a, p) xs /\ R p q = true).
    { clear -F. induction F as [|[b p0] [c q0] xs ys [E Rpq] F IH]; simpl; [tauto|].
      intros q [[= -> ->]|H].
      - simpl in *. subst b. exists p0. auto.
      - destruct (IH q H) as (p & Hq & Hr). exists p. auto. }
    unfold opt_rel. destruct (f a) as [p|] eqn:Fa, (f' a) as [q|] eqn:Fa'; auto.
    + apply Hx in Fa. destruct (L p Fa) as (q' & Hq & Hr). apply Hy in Hq. congruence.
    + apply Hx in Fa. destruct (L p Fa) as (q' & Hq & Hr). apply Hy in Hq. congruence.
    + apply Hy in Fa'. destruct (L' q Fa') as (p' & Hq & Hr). apply Hx in Hq. congruence.
  - intros O. apply (same_keys_rel xs ys f f'); auto; try (intros; now apply Hx); try (intros; now apply Hy).
    apply (sorted_unique lt irr tr); auto using sorted_keys.
    assert (K : forall (l : list (A * P)) g, (forall a p, In (a, p) l <-> g a = Some p) ->
              forall a, In a (map fst l) <-> g a <> None).
    { intros l g H a. rewrite in_map_iff. split.
      - intros ([b p] & <- & Hin). apply H in Hin. simpl. congruence.
      - intros N. destruct (g a) as [p|] eqn:E; [|congruence]. exists (a, p). split; auto. now apply H. }
    intros a. rewrite (K xs f Hx), (K ys f' Hy). specialize (O a). unfold opt_rel in O.
    destruct (f a), (f' a); intuition congruence.
Qed.

End Lists.

(** ** zip_longest_eq *)
Section Zip.
Context {A L R : Type} (eqb : A -> A -> bool).
Notation zip := (zip_longest_eq (L := L) (R := R) eqb).
Notation stops_at := (stops_at (L := L) (R := R) eqb).
Notation zip_outcome := (zip_outcome (L := L) (R := R) eqb).

Lemma stops_cons x y a b a' b' :
  eqb x y = true -> stops_at a b a' b' -> stops_at (Ok x :: a) (Ok y :: b) a' b'.
Proof.
  intros E (xs & ys & -> & -> & F). exists (x :: xs), (y :: ys). simpl. auto.
Qed.

Lemma stops_here a b : stops_at a b a b.
Proof. exists [], []. auto. Qed.

Lemma zip_sound a : forall b, zip_outcome a b (zip a b).
Proof.
  induction a as [|x0 a IH]; intros b.
  - destruct b as [|y0 b]; simpl.
    + apply stops_here.
    + exists [], (y0 :: b). split; [apply stops_here|]. left. split; auto. discriminate.
  - destruct b as [|y0 b].
    + simpl. exists (x0 :: a), []. split; [apply stops_here|]. right. left. split; auto. discriminate.
    + destruct x0 as [x|e].
      2:{ simpl. exists a, (y0 :: b). split; [apply stops_here | discriminate]. }
      destruct y0 as [y|e].
      2:{ simpl. exists x, a, b. apply stops_here. }
      simpl. destruct (eqb x y) eqn:E.
      * specialize (IH b). destruct (zip a b) as [[|]|[e|e]]; simpl in *.
        -- now apply stops_cons.
        -- destruct IH as (a' & b' & S & H). exists a', b'. split; auto. now apply stops_cons.
        -- destruct IH as (ra & rb & S & H). exists ra, rb. split; auto. now apply stops_cons.
        -- destruct IH as (z & ra & rb & S). exists z, ra, rb. now apply stops_cons.
      * exists (Ok x :: a), (Ok y :: b). split; [apply stops_here|]. right. right.
        exists x, y, a, b. auto.
Qed.

Lemma zip_stops a b a' b' : stops_at a b a' b' -> zip a b = zip a' b'.
Proof.
  intros (xs & ys & -> & -> & F). induction F as [|x y xs ys E F IH]; simpl; auto. now rewrite E.
Qed.

Lemma zip_iff a b o : zip a b = o <-> zip_outcome a b o.
Proof.
  split; [intros <-; apply zip_sound|].
  destruct o as [[|]|[e|e]]; simpl.
  - intros S. now rewrite (zip_stops _ _ _ _ S).
  - intros (a' & b' & S & H). rewrite (zip_stops _ _ _ _ S).
    destruct H as [[-> H]|[[H ->]|(x & y & ra & rb & -> & -> & H)]].
    + destruct b' as [|y0 b']; simpl; congruence.
    + destruct a' as [|x0 a']; simpl; congruence.
    + simpl. now rewrite H.
  - intros (ra & rb & S & H). rewrite (zip_stops _ _ _ _ S). destruct rb; simpl; congruence.
  - intros (x & ra & rb & S). now rewrite (zip_stops _ _ _ _ S).
Qed.

End Zip.

Section TryEq.
Context {I NP EP L R : Type}.
Context (ieqb : I -> I -> bool) (neqb : NP -> NP -> bool) (eeqb : EP -> EP -> bool).
Notation tryeq := (try_eq (L := L) (R := R) ieqb neqb eeqb).
Notation nodes_out := (zip_outcome (L := L) (R := R) (pair_eqb ieqb neqb)).
Notation edges_out := (zip_outcome (L := L) (R := R) (pair_eqb (triple_eqb ieqb) eeqb)).

Lemma try_eq_iff an ae bn be o :
  tryeq an ae bn be = o <->
  (o <> Ok true /\ nodes_out an bn o) \/ (nodes_out an bn (Ok true) /\ edges_out ae be o).
Proof.
  unfold try_eq. split.
  - destruct (zip_longest_eq (pair_eqb ieqb neqb) an bn) as [[|]|e] eqn:Z; intros H.
    + right. split; [now apply zip_iff | now apply zip_iff].
    + subst o. left. split; [discriminate | now apply zip_iff].
    + subst o. left. split; [discriminate | now apply zip_iff].
  - intros [[N H]|[H H']].
    + apply zip_iff in H. rewrite H. destruct o as [[|]|e]; congruence.
    + apply zip_iff in H. rewrite H. now apply zip_iff.
Qed.

(** An error comes from the side it names. *)
Lemma try_eq_left an ae bn be e :
  tryeq an ae bn be = Err (LeftE e) -> In (Err e) an \/ In (Err e) ae.
Proof.
  intros H. apply try_eq_iff in H. simpl in H.
  assert (K : forall X (f : X -> X -> bool) (a : list (result L X)) (b : list (result R X)) ra rb,
            stops_at f a b (Err e :: ra) rb -> In (Err e) a).
  { intros X f a b ra rb (xs & ys & -> & _). apply in_app_iff. simpl. auto. }
  destruct H as [[_ (ra & rb & S & _)]|[_ (ra & rb & S & _)]]; apply K in S; auto.
Qed.

Lemma try_eq_right an ae bn be e :
  tryeq an ae bn be = Err (RightE e) -> In (Err e) bn \/ In (Err e) be.
Proof.
  intros H. apply try_eq_iff in H. simpl in H.
  assert (K : forall X (f : X -> X -> bool) (a : list (result L X)) (b : list (result R X)) ra rb,
            stops_at f a b ra (Err e :: rb) -> In (Err e) b).
  { intros X f a b ra rb (xs & ys & _ & -> & _). apply in_app_iff. simpl. auto. }
  destruct H as [[_ (x & ra & rb & S)]|[_ (x & ra & rb & S)]]; apply K in S; auto.
Qed.

End TryEq.

Section TryEqGraph.
Context {k : idkind} {NP EP L R : Type}.
Context (neqb : NP -> NP -> bool) (eeqb : EP -> EP -> bool).
Notation G := (graph k NP EP).

Lemma forall2_ext {A} (P Q : A -> A -> Prop) l l' :
  (forall x y, P x y <-> Q x y) -> (Forall2 P l l' <-> Forall2 Q l l').
Proof. intros H. split; induction 1; constructor; auto; now apply H. Qed.

Lemma pair_eqb_item {A P} (ea : A -> A -> bool) (ep : P -> P -> bool) :
  (forall a b, ea a b = true <-> a = b) ->
  forall x y : A * P, pair_eqb ea ep x y = true <-> item_eq ep x y.
Proof. intros H x y. unfold pair_eqb, item_eq. now rewrite andb_true_iff, H. Qed.

Lemma triple_eqb_eq : forall t u : triple (Id k), triple_eqb id_eqb t u = true <-> t = u.
Proof. exact (@tr_eqb_eq k). Qed.

Lemma zip_lists {A P} (lt : A -> A -> Prop) (ea : A -> A -> bool) (ep : P -> P -> bool)
    (a : list (result L (A * P))) (b : list (result R (A * P))) f f' :
  (forall a, ~ lt a a) -> (forall a b c, lt a b -> lt b c -> lt a c) ->
  (forall a b, ea a b = true <-> a = b) ->
  lists lt a f -> lists lt b f' ->
  exists r, zip_longest_eq (pair_eqb ea ep) a b = Ok r /\ (r = true <-> forall x, opt_rel ep (f x) (f' x)).
Proof.
  intros irr tr He (xs & -> & Sx & Hx) (ys & -> & Sy & Hy).
  cut (exists r, zip_longest_eq (pair_eqb ea ep) (map (@Ok L _) xs) (map (@Ok R _) ys) = Ok r
                 /\ (r = true <-> Forall2 (item_eq ep) xs ys)).
  { intros (r & H1 & H2). exists r. split; auto. rewrite H2.
    apply (lists_rel lt irr tr ep xs ys f f' Sx Sy Hx Hy). }
  clear Sx Sy Hx Hy. revert ys. induction xs as [|x xs IH]; intros [|y ys]; simpl.
  - exists true. split; auto. split; auto.
  - exists false. split; auto. split; [discriminate|]. intros F. inversion F.
  - exists false. split; auto. split; [discriminate|]. intros F. inversion F.
  - destruct (pair_eqb ea ep x y) eqn:E.
    + destruct (IH ys) as (r & H & Hr). exists r. split; auto. rewrite Hr.
      apply (pair_eqb_item ea ep He) in E. split; [constructor; auto | intros F; now inversion F].
    + exists false. split; auto. split; [discriminate|]. intros F. inversion F; subst.
      assert (pair_eqb ea ep x y = true) by now apply pair_eqb_item. congruence.
Qed.

Lemma try_eq_graph (s1 : source k NP EP L) (s2 : source k NP EP R) a b :
  delivers s1 a -> delivers s2 b ->
  exists r, try_eq id_eqb neqb eeqb (src_nodes s1) (src_edges s1) (src_nodes s2) (src_edges s2) = Ok r
    /\ (r = true <-> same_graph neqb eeqb a b).
Proof.
  intros [N1 E1] [N2 E2].
  destruct (zip_lists id_lt id_eqb neqb _ _ _ _ id_lt_irr id_lt_tr id_eqb_eq N1 N2) as (rn & Hn & Cn).
  destruct (zip_lists (edge_lt SPO) (triple_eqb id_eqb) eeqb _ _ _ _ (edge_lt_irr SPO) (edge_lt_tr SPO)
    triple_eqb_eq E1 E2) as (re & He & Ce).
  unfold try_eq. rewrite Hn. destruct rn.
  - rewrite He. exists re. split; auto. unfold same_graph. rewrite Ce. split; [|tauto].
    intros H. split; auto. now apply Cn.
  - exists false. split; auto. split; [discriminate|]. intros [H _]. now apply Cn.
Qed.

End TryEqGraph.

(** ** == on memory stores *)
Section MemEq.
Context {k : idkind} {NP EP : Type} (neqb : NP -> NP -> bool) (eeqb : EP -> EP -> bool).
Notation I := (Id k).
Notation T := (triple (Id k)).
Notation M := (mem k NP EP).
Implicit Types a b : M.

Lemma btree_eq_iff (x : omap I NP) : forall y, btree_eq neqb x y = true <-> Forall2 (item_eq neqb) x y.
Proof.
  induction x as [|[i p] x IH]; intros [|[j q] y]; simpl.
  - split; auto.
  - split; [discriminate | intros H; inversion H].
  - split; [discriminate | intros H; inversion H].
  - rewrite !andb_true_iff, IH, id_eqb_eq. split.
    + intros [[-> H] F]. constructor; auto. split; auto.
    + intros F. inversion F as [|? ? ? ? [E1 E2] F']; subst. simpl in *. auto.
Qed.

Definition cache_ok a b (c : list (I * I)) : Prop :=
  forall i j, In (i, j) c -> exists x y, prop a i = Some x /\ prop b j = Some y /\ eeqb x y = true.

Lemma eq_edge_prop_ok a b c i j :
  cache_ok a b c ->
  cache_ok a b (snd (eq_edge_prop_by_id eeqb a b c i j)) /\
  (fst (eq_edge_prop_by_id eeqb a b c i j) = true <->
   exists x y, prop a i = Some x /\ prop b j = Some y /\ eeqb x y = true).
Proof.
  intros C. unfold eq_edge_prop_by_id. fold (prop a i) (prop b j).
  change (om_get id_cmp i (edge_props a)) with (prop a i).
  change (om_get id_cmp j (edge_props b)) with (prop b j).
  destruct (prop a i) as [x|] eqn:Pa.
  2:{ split; auto. split; [discriminate|]. intros (? & ? & ? & _); discriminate. }
  destruct (prop b j) as [y|] eqn:Pb.
  2:{ split; auto. split; [discriminate|]. intros (? & ? & _ & ? & _); discriminate. }
  destruct (existsb _ c) eqn:X.
  - split; auto. simpl. split; auto. intros _. apply existsb_exists in X.
    destruct X as ([i' j'] & Hin & Hx). apply andb_true_iff in Hx. destruct Hx as [H1 H2]. simpl in *.
    apply id_eqb_eq in H1. apply id_eqb_eq in H2. subst i' j'.
    destruct (C i j Hin) as (x' & y' & H1 & H2 & H3). exists x', y'. split; [congruence|]. split; congruence.
  - destruct (eeqb x y) eqn:Exy; simpl.
    + split.
      * intros i' j' [[= <- <-]|H]; auto. eauto.
      * split; eauto.
    + split; auto. split; [discriminate|]. intros (x' & y' & [= <-] & [= <-] & H). congruence.
Qed.

Lemma bytes_eqb_eq (x y : bytes) : bytes_eqb x y = true <-> x = y.
Proof.
  unfold bytes_eqb. rewrite <- (cmp_eq _ bytes_cmp_ok). destruct (bytes_cmp x y); split; congruence.
Qed.

(** With every record present, the loop compares the listed edges as far as both go. *)
Lemma eq_loop_iff a b l1 : forall l2 c,
  cache_ok a b c ->
  (forall d i, In (d, i) l1 -> exists t : T, d = enc SPO t) -> (forall d i, In (d, i) l2 -> exists t : T, d = enc SPO t) ->
  (forall d i, In (d, i) l1 -> prop a i <> None) -> (forall d i, In (d, i) l2 -> prop b i <> None) ->
  (eq_loop eeqb a b c l1 l2 = true <->
   agree_prefix (item_eq eeqb)
     (filter_map (fun kv => match prop a (snd kv) with Some v => Some (dec SPO (fst kv) : T, v) | None => None end) l1)
     (filter_map (fun kv => match prop b (snd kv) with Some v => Some (dec SPO (fst kv) : T, v) | None => None end) l2)).
Proof.
  induction l1 as [|[d i] l1 IH]; intros l2 c C K1 K2 P1 P2; [simpl; tauto|].
  destruct l2 as [|[d' j] l2].
  - cbn [eq_loop filter_map fst snd]. split; auto. intros _.
    destruct (prop a i); simpl; auto. destruct (filter_map _ l1); simpl; auto.
  - cbn [eq_loop filter_map fst snd].
    assert (exists x, prop a i = Some x) as [x Px].
    { destruct (prop a i) eqn:F; eauto. exfalso. apply (P1 d i); simpl; auto. }
    assert (exists y, prop b j = Some y) as [y Py].
    { destruct (prop b j) eqn:F; eauto. exfalso. apply (P2 d' j); simpl; auto. }
    rewrite Px, Py. cbn [agree_prefix].
    destruct (K1 d i (or_introl eq_refl)) as [t ->]. destruct (K2 d' j (or_introl eq_refl)) as [u ->].
    rewrite !dec_enc. unfold item_eq at 1. cbn [fst snd].
    destruct (eq_edge_prop_ok a b c i j C) as [C' H].
    destruct (bytes_eqb (enc SPO t) (enc SPO u)) eqn:B; cbn [negb].
    + apply bytes_eqb_eq in B. apply enc_inj in B. subst u.
      destruct (eq_edge_prop_by_id eeqb a b c i j) as [[|] c'] eqn:Q; cbn [fst snd] in *.
      * rewrite (IH l2 c'); auto.
        -- assert (eeqb x y = true).
           { destruct H as [H _]. destruct (H eq_refl) as (x' & y' & H1 & H2 & H3). congruence. }
           tauto.
        -- intros; eapply K1; simpl; eauto.
        -- intros; eapply K2; simpl; eauto.
        -- intros d0 i0 Hin. apply (P1 d0 i0). simpl. auto.
        -- intros d0 i0 Hin. apply (P2 d0 i0). simpl. auto.
      * split; [discriminate|]. intros [[_ Exy] _]. apply H. eauto.
    + split; [discriminate|]. intros [[-> _] _].
      assert (bytes_eqb (enc SPO u) (enc SPO u) = true) by now apply bytes_eqb_eq. congruence.
Qed.

Lemma mem_eq_iff a b :
  agree a -> agree b -> good a -> good b ->
  (mem_eq neqb eeqb a b = true <->
   (forall i, opt_rel neqb (nprop a i) (nprop b i)) /\
   agree_prefix (item_eq eeqb) (edge_items SPO a) (edge_items SPO b)).
Proof.
  intros Aa Ab Ga Gb. unfold mem_eq.
  rewrite <- (lists_rel id_lt id_lt_irr id_lt_tr neqb (node_props a) (node_props b)
    (nprop a) (nprop b) (nsorted_props a Aa) (nsorted_props b Ab)
    (fun i p => node_props_in a i p Aa) (fun i p => node_props_in b i p Ab)).
  rewrite <- btree_eq_iff. destruct (btree_eq neqb (node_props a) (node_props b)); cbn [negb].
  2:{ split; [discriminate | intros [H _]; discriminate]. }
  unfold om_iter, edge_items. rewrite eq_loop_iff.
  - change (index SPO a) with (spo_data a). change (index SPO b) with (spo_data b). tauto.
  - intros i j [].
  - intros d i H. apply (ag_keys _ Aa SPO d i H).
  - intros d i H. apply (ag_keys _ Ab SPO d i H).
  - intros d i H. destruct (ag_keys _ Aa SPO d i H) as [t ->].
    apply (index_in SPO Aa) in H. eapply go_present; eauto.
  - intros d i H. destruct (ag_keys _ Ab SPO d i H) as [t ->].
    apply (index_in SPO Ab) in H. eapply go_present; eauto.
Qed.

Lemma prefix_forall2 {A} (R : A -> A -> Prop) l : forall l',
  Forall2 R l l' <-> agree_prefix R l l' /\ length l = length l'.
Proof.
  induction l as [|x l IH]; intros [|y l']; simpl; split; try (intros [? ?]; discriminate); auto;
    try (intros H; now inversion H).
  - intros H. inversion H; subst. apply IH in H5. destruct H5. auto.
  - intros [[H1 H2] H3]. constructor; auto. apply IH. auto.
Qed.

Section Reach.
Context {E : Type} (mn : NP -> NP -> NP) (me : EP -> EP -> EP).
Notation reach := (reachable (k := k) E mn me).

Lemma top_mem_eq a b ga gb ea eb :
  reach a -> reach b -> drawn_distinct (id_generator a) -> drawn_distinct (id_generator b) ->
  shows a ga -> shows b gb -> iter_edges SPO a = map Ok ea -> iter_edges SPO b = map Ok eb ->
  (mem_eq neqb eeqb a b = true <->
   (forall i, opt_rel neqb (g_node ga i) (g_node gb i)) /\ agree_prefix (item_eq eeqb) ea eb).
Proof.
  intros Ra Rb Da Db Sa Sb Ea Eb.
  rewrite iter_edges_eq in Ea, Eb. apply map_ok_inj in Ea. apply map_ok_inj in Eb. subst ea eb.
  rewrite mem_eq_iff; eauto using reachable_agree, good_of.
  apply shows_iff in Sa; [|eapply reachable_agree; eauto].
  apply shows_iff in Sb; [|eapply reachable_agree; eauto].
  destruct Sa as [Sa _], Sb as [Sb _]. simpl in *.
  split; intros [H1 H2]; split; auto; intros i.
  - rewrite <- Sa, <- Sb. auto.
  - change (nprop a i) with (g_node (abs a) i). change (nprop b i) with (g_node (abs b) i).
    simpl. rewrite Sa, Sb. auto.
Qed.

Lemma top_mem_eq_length a b ga gb :
  reach a -> reach b -> drawn_distinct (id_generator a) -> drawn_distinct (id_generator b) ->
  shows a ga -> shows b gb ->
  (same_graph neqb eeqb ga gb <->
   mem_eq neqb eeqb a b = true /\ length (iter_edges SPO a) = length (iter_edges SPO b)).
Proof.
  intros Ra Rb Da Db Sa Sb.
  rewrite (top_mem_eq a b ga gb (edge_items SPO a) (edge_items SPO b)); auto using iter_edges_eq.
  rewrite !iter_edges_eq, !map_length.
  pose proof (reachable_agree _ _ _ Ra) as Aa. pose proof (reachable_agree _ _ _ Rb) as Ab.
  apply shows_iff in Sa; auto. apply shows_iff in Sb; auto. destruct Sa as [_ Sa], Sb as [_ Sb].
  assert (Q : Forall2 (item_eq eeqb) (edge_items SPO a) (edge_items SPO b) <->
              forall t, opt_rel eeqb (g_edge ga t) (g_edge gb t)).
  { apply (lists_rel (edge_lt SPO) (edge_lt_irr SPO) (edge_lt_tr SPO)).
    - now apply edge_items_sorted.
    - now apply edge_items_sorted.
    - intros t e. rewrite edge_items_in by auto. now rewrite <- Sa.
    - intros t e. rewrite edge_items_in by auto. now rewrite <- Sb. }
  unfold same_graph. rewrite <- Q, prefix_forall2. tauto.
Qed.

End Reach.
End MemEq.
