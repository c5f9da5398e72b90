(** Set operations of a memory store with a sled store that is in use. *)
From Coq Require Import Arith NArith List Bool Sorted Lia.
From Verif Require Import Bytes BytesFacts OMap OMapFacts Core IdType IdTypeFacts Store Mem Spec
  CodecFacts ListFacts MemFacts MemSim MemSetFacts History MemTop Prog ProgFacts Sled SledHistory SledDb SledOps SledBulk SledRead SledTables
  SledAny SledRun SledTop SledLeaf SledLeafFacts SledLazy SledBeside SledRely SledOwn SledOwnOps SledBesideTop SledReaders SledReadTop SledCopy
  SledCopyFacts SledSetLive.
Import ListNotations.

(** ** The merge join *)
Section Joins.
Context {A P Q R E : Type} (lt : A -> A -> bool) (total : forall a b, lt a b = false -> lt b a = false -> a = b).
Context (left_only : A -> P -> R -> R) (right_only : A -> R -> R) (in_both : A -> A -> P -> R -> R).
Notation body := (join_body (Q := Q) lt left_only right_only in_both).
Notation feed := (feed (EL := unit) (ER := E)).

Lemma step_rest (x : A) (ls : list (A * P)) : forall r e h, join_step lt left_only right_only in_both x ls r = (e, h) ->
  forall a, In a (map fst ls) -> a = x \/ lt a x = true \/ (e = Ok tt /\ In a (map fst (fst h))).
Proof.
  induction ls as [|[b p] ls IH]; intros r e h; simpl; [tauto|].
  destruct (lt b x) eqn:L1; [|destruct (lt x b) eqn:L2].
  - intros H a [<-|Ha]; [auto|]. eapply IH; eauto.
  - intros [= <- <-] a Ha. right. right. auto.
  - intros [= <- <-] a [<-|Ha]; [left; now apply total|]. right. right. auto.
Qed.

(** When the loop stops by itself, [self] has no item after the last key read. *)
Lemma join_stops (xs : list (A * Q)) : forall ls r e h, feed body (map Ok xs) (ls, r) = (Err (LeftE e), h) ->
  forall a, In a (map fst ls) -> exists b, In b (map fst xs) /\ (a = b \/ lt a b = true).
Proof.
  induction xs as [|[x q] xs IH]; intros ls r e h; simpl; [discriminate|].
  unfold join_body at 1. simpl. destruct (join_step lt left_only right_only in_both x ls r) as [o [ls' r']] eqn:Es.
  intros H a Ha. destruct (step_rest _ _ _ _ _ Es a Ha) as [->|[L|[-> Ha']]]; [exists x; auto|exists x; auto|].
  destruct (IH _ _ _ _ H a Ha') as (b & Hb & Hl). exists b. auto.
Qed.
Lemma feed_step x q (xs : list (A * Q)) ls r :
  feed body (map Ok ((x, q) :: xs)) (ls, r) =
  match join_step lt left_only right_only in_both x ls r with
  | (Err e, h) => (Err (LeftE e), h)
  | (Ok _, h) => feed body (map Ok xs) h
  end.
Proof. reflexivity. Qed.
End Joins.

Section Loops.
Context {k : idkind} {NP EP E E' : Type}.
Notation I := (Id k).
Notation T := (triple (Id k)).
Notation M := (mem k NP EP).
Notation feed := (feed (EL := unit) (ER := E')).

Lemma feed_intersect {A P : Type} (lt : A -> A -> bool) (ins : A -> P -> M -> M) (xs : list (A * P)) : forall ls r,
  intersect_loop (E := E) lt ins (map Ok ls) (map Ok xs) r =
  Ok (snd (snd (feed (join_body lt (fun _ _ r => r) (fun _ r => r) (fun _ => ins)) (map Ok xs) (ls, r)))).
Proof.
  induction xs as [|[x q] xs IHx]; intros ls; [now destruct ls as [|[a p] ls]|].
  induction ls as [|[a p] ls IHl]; intros r; [reflexivity|].
  change (intersect_loop (E := E) lt ins (map Ok ((a, p) :: ls)) (map Ok ((x, q) :: xs)) r) with
    (if lt a x then intersect_loop (E := E) lt ins (map Ok ls) (map Ok ((x, q) :: xs)) r
     else if lt x a then intersect_loop (E := E) lt ins (map Ok ((a, p) :: ls)) (map Ok xs) r
     else intersect_loop (E := E) lt ins (map Ok ls) (map Ok xs) (ins a p r)).
  rewrite feed_step. cbn [join_step].
  destruct (lt a x); [|destruct (lt x a)].
  - rewrite IHl, feed_step. reflexivity.
  - rewrite IHx. reflexivity.
  - rewrite IHx. reflexivity.
Qed.

Lemma put_nodes_eq (l : list (I * NP)) (r : M) : drain (F := set_error unit E unit) SetLeft insert_node (map Ok l) r = Ok (put_nodes l r).
Proof. revert r. induction l as [|[i p] l IH]; intros r; simpl; auto. Qed.
Lemma put_edges_eq (l : list (T * EP)) (r : M) : drain (F := set_error unit E unit) SetLeft insert_edge (map Ok l) r = Ok (put_edges l r).
Proof. revert r. induction l as [|[i p] l IH]; intros r; simpl; auto. Qed.

Notation nodes_body := (join_body (Q := NP) (P := NP) id_ltb (fun i p x => (fst x, insert_node i p (snd x)))
  (fun i x => (i :: fst x, snd x)) (fun i _ _ x => (i :: fst x, snd x : M))).
Lemma feed_diff_nodes (xs : list (I * NP)) : forall ls rem (r : M),
  difference_nodes (E := E) (map Ok ls) (map Ok xs) rem r =
  let x := snd (feed nodes_body (map Ok xs) (ls, (rem, r))) in Ok (fst (snd x), put_nodes (fst x) (snd (snd x))).
Proof.
  induction xs as [|[x q] xs IHx]; intros ls.
  { intros rem r. destruct ls as [|[a p] ls]; [reflexivity|].
    change (difference_nodes (E := E) (map Ok ((a, p) :: ls)) (map Ok []) rem r) with
      (bind_res (drain (F := set_error unit E unit) SetLeft insert_node (map Ok ((a, p) :: ls)) r) (fun r => Ok (rem, r))).
    now rewrite put_nodes_eq. }
  induction ls as [|[a p] ls IHl]; intros rem r; [reflexivity|].
  change (difference_nodes (E := E) (map Ok ((a, p) :: ls)) (map Ok ((x, q) :: xs)) rem r) with
    (if id_ltb a x then difference_nodes (E := E) (map Ok ls) (map Ok ((x, q) :: xs)) rem (insert_node a p r)
     else if id_ltb x a then difference_nodes (E := E) (map Ok ((a, p) :: ls)) (map Ok xs) (x :: rem) r
     else difference_nodes (E := E) (map Ok ls) (map Ok xs) (x :: rem) r).
  cbv zeta. rewrite feed_step. cbn [join_step].
  destruct (id_ltb a x); [|destruct (id_ltb x a)].
  - rewrite IHl. cbv zeta. rewrite feed_step. reflexivity.
  - rewrite IHx. reflexivity.
  - rewrite IHx. reflexivity.
Qed.

Notation edges_body := (join_body (Q := EP) (P := EP) tr_ltb (fun t e x =>
    (fst x, if negb (contains (fst x) (sub t) || contains (fst x) (obj t)) then insert_edge t e (snd x) else (snd x : M)))
  (fun _ x => x) (fun _ _ _ x => x)).
Lemma feed_diff_edges rem (xs : list (T * EP)) : forall ls (r : M),
  difference_edges (E := E) rem (map Ok ls) (map Ok xs) r =
  let x := snd (feed edges_body (map Ok xs) (ls, (rem, r))) in Ok (put_edges (fst x) (snd (snd x))).
Proof.
  induction xs as [|[x q] xs IHx]; intros ls.
  { intros r. destruct ls as [|[a p] ls]; [reflexivity|].
    change (difference_edges (E := E) rem (map Ok ((a, p) :: ls)) (map Ok []) r) with
      (drain (F := set_error unit E unit) SetLeft insert_edge (map Ok ((a, p) :: ls)) r).
    now rewrite put_edges_eq. }
  induction ls as [|[a p] ls IHl]; intros r; [reflexivity|].
  change (difference_edges (E := E) rem (map Ok ((a, p) :: ls)) (map Ok ((x, q) :: xs)) r) with
    (if tr_ltb a x then difference_edges (E := E) rem (map Ok ls) (map Ok ((x, q) :: xs))
       (if negb (contains rem (sub a) || contains rem (obj a)) then insert_edge a p r else r)
     else if tr_ltb x a then difference_edges (E := E) rem (map Ok ((a, p) :: ls)) (map Ok xs) r
     else difference_edges (E := E) rem (map Ok ls) (map Ok xs) r).
  cbv zeta. rewrite feed_step. cbn [join_step].
  destruct (tr_ltb a x); [|destruct (tr_ltb x a)].
  - rewrite IHl. cbv zeta. rewrite feed_step. reflexivity.
  - rewrite IHx. reflexivity.
  - rewrite IHx. reflexivity.
Qed.
End Loops.

(** ** The loops, in a world *)
Section World.
Context {k : idkind} {NP EP SE BE : Type} (cn : codec BE NP) (ce : codec BE EP) (keep : triple (Id k) -> Prop) (F : SE -> Prop).
Notation I := (Id k).
Notation T := (triple (Id k)).
Notation err := (sled_error SE BE).
Notation st := (st (k := k) cn ce keep).
Notation s_now := (s_now (k := k) cn ce keep).
Notation s_past := (s_past (k := k) cn ce keep).
Notation ext := (ext (k := k) cn ce keep).
Notation rg := (rg s_now ext F).
Notation ext_refl := (ext_refl (k := k) cn ce keep).
Notation ext_trans := (ext_trans (k := k) cn ce keep).
Notation node_out := (node_out cn ce keep F).
Notation edge_out := (edge_out cn ce keep F).
Notation M := (mem k NP EP).
Notation answer := (result (set_error unit err unit) M).

Lemma all_ok {A} (xs : list (result err A)) : (forall x, ~ In (Err x) xs) -> xs = map Ok (ok_items xs).
Proof.
  induction xs as [|[a|e] xs IH]; intros H; [reflexivity| |destruct (H e); simpl; auto].
  change (ok_items (Ok a :: xs)) with (a :: ok_items xs). simpl. f_equal. apply IH. intros x Hx. apply (H x). simpl. auto.
Qed.

Definition no_node (w : st) (i : I) : Prop := exists d, In d (s_past w) /\ forall p, ~ lists_node SE cn d i p.
Definition no_edge (w : st) (t : T) : Prop := exists d, In d (s_past w) /\ forall e, ~ lists_edge SE ce SPO d t e.

Lemma nodes_joined {EL H} (fn : I * NP -> H -> result EL unit * H) w h ah w' : looped s_now ext fn node_out t_node None w h ah w' ->
  (exists x, fst ah = Err (RightE x) /\ fault F x) \/
  (exists ns : list (I * NP), ah = feed fn (map Ok ns) h /\ (forall i p, In (i, p) ns -> was_node (SE := SE) cn ce keep w' i p) /\
    StronglySorted id_lt (map fst ns) /\ (forall x, fst ah <> Err (RightE x)) /\
    (forall i, (fst ah = Ok tt \/ exists j, In j (map fst ns) /\ (i = j \/ id_lt i j)) -> ~ In i (map fst ns) -> no_node w' i)).
Proof.
  intros (L & xs & -> & Hxs & Hs & _ & _ & Hc & Hn).
  destruct (fst (feed fn xs h)) as [u|[e|x]] eqn:Ef.
  3:{ left. exists x. split; auto. destruct (feed fn xs h) as [r h'] eqn:E. simpl in Ef. subst r.
      assert (In (Err x) xs) as Hin.
      { clear - E. revert h E. induction xs as [|[a|e] xs IH]; simpl; intros h E; [discriminate| |].
        - destruct (fn a h) as [[u|e] h1]; [right; eauto|discriminate].
        - left. congruence. }
      destruct (forall2_in_r _ _ _ _ Hxs Hin) as (kv & _ & Ho). apply Ho. }
  1, 2: right; exists (ok_items xs); rewrite <- (all_ok xs) by (apply Hn; congruence); split; auto; split; [|split; [|split; [congruence|]]].
  1, 4: intros i p Hin; apply ok_items_in in Hin; destruct (forall2_in_r _ _ _ _ Hxs Hin) as (kv & _ & Ho); apply Ho.
  1, 3: eapply node_read_sorted; eauto.
  all: intros i Hi Ni; destruct (Hc (to_be_bytes i) eq_refl) as (d & Hd & Hiff).
  1, 3: destruct Hi as [Hi|(j & Hj & Hij)]; [left; congruence|right].
  1, 2: apply in_map_iff in Hj; destruct Hj as ([j' p] & <- & Hj); apply ok_items_in in Hj;
      destruct (forall2_in_r _ _ _ _ Hxs Hj) as (kv & Hkv & [Ek _]); exists kv; split; auto; cbn [fst] in *; rewrite Ek, to_be_bytes_cmp;
      destruct Hij as [->|Hij]; [rewrite (proj2 (cmp_eq _ (id_cmp_ok k) _ _) eq_refl); discriminate|apply id_cmp_lt in Hij; congruence].
  all: exists d; split; [eapply between_past; eauto|]; intros p Hp; destruct Hd as (w1 & _ & _ & ->); apply shown_node_key in Hp;
    destruct Hp as [b Hin]; apply Hiff in Hin; destruct (forall2_in_l _ _ _ _ Hxs Hin) as ([[j q]|x] & Hx & Ho);
    [|destruct (Hn ltac:(congruence) x Hx)]; simpl in Ho; destruct Ho as [Ho _]; apply to_be_bytes_inj in Ho; subst j;
    apply Ni; apply in_map_iff; exists (i, q); split; auto; now apply ok_items_in.
Qed.

Lemma edges_joined {EL H} (fe : T * EP -> H -> result EL unit * H) w h ah w' : looped s_now ext fe (edge_out SPO) t_spo None w h ah w' ->
  (exists x, fst ah = Err (RightE x) /\ (fault F x \/ (x = MissingPropertyData /\ exists t, ~ keep t))) \/
  (exists es : list (T * EP), ah = feed fe (map Ok es) h /\ (forall t e, In (t, e) es -> was_edge (SE := SE) cn ce keep SPO w' t e) /\
    StronglySorted (edge_lt SPO) (map fst es) /\ (forall x, fst ah <> Err (RightE x)) /\
    (forall t, (fst ah = Ok tt \/ exists u, In u (map fst es) /\ (t = u \/ edge_lt SPO t u)) -> ~ In t (map fst es) -> no_edge w' t)).
Proof.
  intros (L & xs & -> & Hxs & Hs & _ & _ & Hc & Hn).
  destruct (fst (feed fe xs h)) as [u|[e|x]] eqn:Ef.
  3:{ left. exists x. split; auto. destruct (feed fe xs h) as [r h'] eqn:E. simpl in Ef. subst r.
      assert (In (Err x) xs) as Hin.
      { clear - E. revert h E. induction xs as [|[a|e] xs IH]; simpl; intros h E; [discriminate| |].
        - destruct (fe a h) as [[u|e] h1]; [right; eauto|discriminate].
        - left. congruence. }
      destruct (forall2_in_r _ _ _ _ Hxs Hin) as (kv & _ & Ho). destruct Ho as [[-> (t & _ & Hk)]|Ho]; eauto. }
  1, 2: right; exists (ok_items xs); rewrite <- (all_ok xs) by (apply Hn; congruence); split; auto; split; [|split; [|split; [congruence|]]].
  1, 4: intros i p Hin; apply ok_items_in in Hin; destruct (forall2_in_r _ _ _ _ Hxs Hin) as (kv & _ & Ho); apply Ho.
  1, 3: eapply read_sorted; eauto.
  all: intros t Hi Ni; destruct (Hc (enc SPO t) eq_refl) as (d & Hd & Hiff).
  1, 3: destruct Hi as [Hi|(j & Hj & Hij)]; [left; congruence|right].
  1, 2: apply in_map_iff in Hj; destruct Hj as ([j' p] & <- & Hj); apply ok_items_in in Hj;
      destruct (forall2_in_r _ _ _ _ Hxs Hj) as (kv & Hkv & [Ek _]); exists kv; split; auto; cbn [fst] in *; rewrite Ek;
      destruct Hij as [->|Hij]; [rewrite (proj2 (cmp_eq _ bytes_cmp_ok _ _) eq_refl); discriminate|apply enc_lt in Hij; congruence].
  all: exists d; split; [eapply between_past; eauto|]; intros p Hp; destruct Hd as (w1 & _ & _ & ->).
  all: unfold lists_edge in Hp; rewrite (shown_edge (k := k) (SE := SE) ce) in Hp; apply in_map_iff in Hp; destruct Hp as ([key r] & Hv & Hin).
  all: destruct (entry_key _ _ _ _ _ _ _ Hin) as [t' ->]; unfold edge_val in Hv; cbn [fst snd] in Hv; rewrite decode_enc in Hv; simpl in Hv;
    (assert (t' = t) as -> by (destruct (get_de _ _) as [[q|]|]; simpl in Hv; congruence)).
  all: apply Hiff in Hin; destruct (forall2_in_l _ _ _ _ Hxs Hin) as ([[j q]|x] & Hx & Ho);
    [|destruct (Hn ltac:(congruence) x Hx)]; simpl in Ho; destruct Ho as [Ho _]; apply (enc_inj SPO) in Ho; subst j;
    apply Ni; apply in_map_iff; exists (t, q); split; auto; now apply ok_items_in.
Qed.

(** A whole operation, with the source it has read. *)
Definition joined (wn : I -> Prop) (we : T -> Prop) (op : source k NP EP err -> answer) (a : answer) (w : st) : Prop :=
  (exists x, a = Err (SetRight x) /\ (fault F x \/ (x = MissingPropertyData /\ exists t, ~ keep t))) \/
  (exists (ns : list (I * NP)) (es : list (T * EP)) r, a = Ok r /\ op (Source (map Ok ns) (map Ok es)) = Ok r /\
    StronglySorted id_lt (map fst ns) /\ StronglySorted (edge_lt SPO) (map fst es) /\
    (forall i p, In (i, p) ns -> was_node (SE := SE) cn ce keep w i p) /\
    (forall t e, In (t, e) es -> was_edge (SE := SE) cn ce keep SPO w t e) /\
    (forall i, wn i -> ~ In i (map fst ns) -> no_node w i) /\
    (forall t, we t -> ~ In t (map fst es) -> no_edge w t) /\
    ((forall t, ~ In t (map fst es) -> no_edge w t) \/ forall t, we t -> exists u, In u (map fst es) /\ (t = u \/ edge_lt SPO t u))).

Lemma no_node_later w w' i : ext w w' -> no_node w i -> no_node w' i.
Proof. intros (_ & _ & H) (d & Hd & Hi). exists d. auto. Qed.
Lemma no_edge_later w w' t : ext w w' -> no_edge w t -> no_edge w' t.
Proof. intros (_ & _ & H) (d & Hd & Hi). exists d. auto. Qed.

Lemma joined_later wn we op a w w' : ext w w' -> joined wn we op a w -> joined wn we op a w'.
Proof.
  intros Hx [H|(ns & es & r & -> & Hop & H1 & H2 & H3 & H4 & H5 & H6 & H7)]; [now left|]. right. exists ns, es, r.
  split; auto. split; auto. split; auto. split; auto. split; [|split; [|split; [|split]]].
  - intros i p Hin. eapply was_node_later; eauto.
  - intros i p Hin. eapply was_edge_later; eauto.
  - intros i Hi Ni. eapply no_node_later; eauto.
  - intros i Hi Ni. eapply no_edge_later; eauto.
  - destruct H7 as [H7|H7]; [left|now right]. intros t Nt. eapply no_edge_later; eauto.
Qed.

Lemma rg_set_live {R1 R2} (wn : I -> Prop) (we : T -> Prop) op (fn : I * NP -> R1 -> result unit unit * R1) (middle : R1 -> R2)
    (fe : T * EP -> R2 -> result unit unit * R2) last cuts cuts' r w :
  (forall ns e h, feed (ER := err) fn (map Ok ns) r = (Err (LeftE e), h) -> forall i, wn i ->
     exists j, In j (map fst ns) /\ (i = j \/ id_lt i j)) ->
  (forall ns es e h, feed (ER := err) fe (map Ok es) (middle (snd (feed (ER := err) fn (map Ok ns) r))) = (Err (LeftE e), h) -> forall t, we t ->
     exists u, In u (map fst es) /\ (t = u \/ edge_lt SPO t u)) ->
  (forall ns es, op (Source (map Ok ns) (map Ok es)) =
     Ok (last (snd (feed (ER := err) fe (map Ok es) (middle (snd (feed (ER := err) fn (map Ok ns) r))))))) ->
  rg (joined wn we op) (set_live cn ce fn middle fe last cuts cuts' r) w.
Proof.
  intros Hn He Hop. unfold set_live. apply rg_bind.
  eapply rg_mono; [exact ext_refl|exact ext_trans| |apply (rg_loop_from s_now ext ext_refl ext_trans F fn node_out)].
  - cbv beta. intros x w1 H1 Hx. apply nodes_joined in Hx.
    destruct Hx as [(y & Ey & Hy)|(ns & En & A1 & A2 & A3 & A4)].
    { rewrite Ey. cbn [SledRely.rg]. left. eauto. }
    assert (forall i, wn i -> ~ In i (map fst ns) -> no_node w1 i) as A5.
    { intros i Hi Ni. apply A4; auto. destruct x as [[[]|[e|e]] h]; cbn [fst] in *; [auto| |destruct (A3 e eq_refl)].
      right. eapply Hn; eauto. }
    match goal with |- rg _ (match fst x with Ok _ => ?p | Err _ => _ end) _ => assert (rg (joined wn we op) p w1) as Hrest end.
    2:{ destruct (fst x) as [|[e|e]] eqn:Ex; auto. destruct (A3 e eq_refl). }
    apply rg_bind.
    eapply rg_mono; [exact ext_refl|exact ext_trans| |apply (rg_loop_from s_now ext ext_refl ext_trans F fe (edge_out SPO))].
    + cbv beta. intros y w2 H2 Hy. apply edges_joined in Hy.
      destruct Hy as [(z & Ez & Hz)|(es & Ee & B1 & B2 & B3 & B4)].
      { rewrite Ez. cbn [SledRely.rg]. left. eauto. }
      assert ((forall t, ~ In t (map fst es) -> no_edge w2 t) \/
              forall t, we t -> exists u, In u (map fst es) /\ (t = u \/ edge_lt SPO t u)) as B6.
      { destruct y as [[[]|[e|e]] h]; cbn [fst] in *; [left; auto| |destruct (B3 e eq_refl)].
        right. rewrite En in Ee. intros t Ht. eapply He; eauto. }
      assert (forall t, we t -> ~ In t (map fst es) -> no_edge w2 t) as B5.
      { intros i Hi Ni. destruct B6 as [B6|B6]; auto. }
      assert (joined wn we op (Ok (last (snd y))) w2) as Hj.
      { right. exists ns, es, (last (snd y)). split; auto. split; [rewrite Ee, En; apply Hop|]. split; auto. split; auto.
        split; [|split; [|split; [|split]]]; auto.
        - intros i p Hin. eapply was_node_later; eauto.
        - intros i Hi Ni. eapply no_node_later; eauto. }
      destruct (fst y) as [|[e|e]] eqn:Ey; auto. destruct (B3 e eq_refl).
    + intros; eapply edge_out_later; eauto.
    + intros w'. exact (sn_order _ _ _ _ _ (s_sane _ _ _ w') (tab SPO)).
    + intros [key b] w2 w3 _ Hin Hx. exact (rg_edge_item cn ce keep F SPO key b w2 w3 Hin Hx).
  - intros; eapply node_out_later; eauto.
  - intros w'. exact (sn_order _ _ _ _ _ (s_sane _ _ _ w') TNode).
  - intros [key b] w1 w2 _ Hin Hx. exact (rg_node_item cn ce keep F key b w1 w2 Hin Hx).
Qed.

Lemma ok_items_map {X A} (l : list A) : ok_items (map (@Ok X A) l) = l.
Proof. induction l as [|a l IH]; [reflexivity|]. simpl. change (a :: ok_items (map (@Ok X A) l) = a :: l). now rewrite IH. Qed.
Lemma self_nodes_eq (m : M) : self_nodes m = node_props m.
Proof. unfold self_nodes. rewrite into_iter_nodes_eq. apply ok_items_map. Qed.
Lemma self_edges_eq (m : M) : self_edges m = edge_items SPO m.
Proof. unfold self_edges. rewrite into_iter_nodes_eq. apply ok_items_map. Qed.

Lemma feed_nodes (ns : list (I * NP)) : forall r : M,
  feed (EL := unit) (ER := err) (fun ip r => (Ok tt, insert_node (fst ip) (snd ip) r)) (map Ok ns) r = (Ok tt, insn_all ns r).
Proof. induction ns as [|[i p] ns IH]; intros r; simpl; auto. Qed.
Lemma feed_edges (es : list (T * EP)) : forall r : M,
  feed (EL := unit) (ER := err) (fun te r => (Ok tt, insert_edge (fst te) (snd te) r)) (map Ok es) r = (Ok tt, ins_all es r).
Proof. induction es as [|[i p] ns IH]; intros r; simpl; auto. Qed.

Lemma rg_union gn cuts cuts' m w :
  rg (joined (fun _ => True) (fun _ => True) (fun s => Mem.union gn s m)) (union_live cn ce gn cuts cuts' m) w.
Proof.
  apply rg_set_live.
  - intros ns e h. rewrite feed_nodes. discriminate.
  - intros ns es e h. rewrite feed_edges. discriminate.
  - intros ns es. rewrite feed_nodes, feed_edges, union_eq. unfold bulk_error. cbn [src_nodes src_edges snd].
    rewrite !first_error_ok, !before_error_ok, self_nodes_eq, self_edges_eq. reflexivity.
Qed.

(** The vertices up to the last one of [m]. *)
Definition upto (m : M) (i : I) : Prop := exists j, In j (map fst (node_props m)) /\ (i = j \/ id_lt i j).

Lemma rg_intersection gn cuts cuts' m w :
  rg (joined (upto m) (fun t => In t (map fst (edge_items SPO m))) (fun s => intersection gn s m))
     (intersection_live cn ce gn cuts cuts' m) w.
Proof.
  apply rg_set_live.
  - intros ns e h Hf i (j & Hj & Hij). rewrite <- self_nodes_eq in Hj.
    destruct (join_stops _ id_total _ _ _ _ _ _ _ _ Hf j Hj) as (u & Hu & [->|Hl]); eauto. exists u. split; auto. right.
    apply id_ltb_lt in Hl. destruct Hij as [->|Hij]; auto. eapply id_lt_tr; eauto.
  - intros ns es e h Hf i Hi. rewrite <- self_edges_eq in Hi. cbv beta in Hf.
    destruct (join_stops _ tr_total _ _ _ _ _ _ _ _ Hf i Hi) as (j & Hj & [->|Hl]); eauto. apply tr_ltb_lt in Hl. eauto.
  - intros ns es. unfold intersection. rewrite into_iter_nodes_eq. cbn [src_nodes src_edges].
    rewrite (feed_intersect (E' := err)). cbn [bind_res]. rewrite (feed_intersect (E' := err)), self_nodes_eq, self_edges_eq. reflexivity.
Qed.

Lemma rg_difference gn cuts cuts' m w :
  rg (joined (upto m) (fun t => In t (map fst (edge_items SPO m))) (fun s => difference gn s m))
     (difference_live cn ce gn cuts cuts' m) w.
Proof.
  apply rg_set_live.
  - intros ns e h Hf i (j & Hj & Hij). rewrite <- self_nodes_eq in Hj.
    destruct (join_stops _ id_total _ _ _ _ _ _ _ _ Hf j Hj) as (u & Hu & [->|Hl]); eauto. exists u. split; auto. right.
    apply id_ltb_lt in Hl. destruct Hij as [->|Hij]; auto. eapply id_lt_tr; eauto.
  - intros ns es e h Hf i Hi. rewrite <- self_edges_eq in Hi. cbv beta in Hf.
    destruct (join_stops _ tr_total _ _ _ _ _ _ _ _ Hf i Hi) as (j & Hj & [->|Hl]); eauto. apply tr_ltb_lt in Hl. eauto.
  - intros ns es. unfold difference. rewrite into_iter_nodes_eq. cbn [src_nodes src_edges].
    rewrite (feed_diff_nodes (E' := err)). cbv zeta. cbn [bind_res fst snd].
    rewrite (feed_diff_edges (E' := err)), self_nodes_eq, self_edges_eq. reflexivity.
Qed.
End World.
