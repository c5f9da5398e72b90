(** The merge-join loops of union, intersection and difference (Mem.v). *)
From Coq Require Import Arith NArith List Sorted Lia Bool.
From Verif Require Import Bytes BytesFacts OMap OMapFacts Core IdType IdTypeFacts CodecFacts
  Store Mem Spec History ListFacts MemFacts MemSim.
Import ListNotations.

Section Set_.
Context {k : idkind} {NP EP : Type}.
Notation I := (Id k).
Notation T := (triple (Id k)).
Notation M := (mem k NP EP).
Notation G := (graph k NP EP).
Implicit Types m r : M.
Implicit Types g : G.

Section Join.
Context {A P : Type} (ltb : A -> A -> bool) (lt : A -> A -> Prop).
Context (ltb_lt : forall a b, ltb a b = true <-> lt a b).
Context (irr : forall a, ~ lt a a) (tr : forall a b c, lt a b -> lt b c -> lt a c).
Context (total : forall a b, ltb a b = false -> ltb b a = false -> a = b).
Notation sorted l := (StronglySorted (fun x y : A * P => lt (fst x) (fst y)) l).

Lemma sorted_head_lt (x : A * P) l y : sorted (x :: l) -> In y l -> lt (fst x) (fst y).
Proof. intros S H. inversion S as [|? ? S' F]; subst. rewrite Forall_forall in F. now apply F. Qed.

(** A key smaller than the head of a sorted list is not in it. *)
Lemma sorted_below a (y : A * P) l : sorted (y :: l) -> lt a (fst y) -> ~ In a (map fst (y :: l)).
Proof.
  intros S L H. simpl in H. destruct H as [<-|H]; [now apply irr in L|].
  apply in_map_iff in H. destruct H as (z & <- & Hz).
  pose proof (sorted_head_lt _ _ _ S Hz). eapply irr. eapply tr; eauto.
Qed.

Lemma sorted_tail (x : A * P) l : sorted (x :: l) -> sorted l.
Proof. intros S. now inversion S. Qed.

Lemma sorted_key_inj (l : list (A * P)) a p q : sorted l -> In (a, p) l -> In (a, q) l -> p = q.
Proof.
  induction l as [|[b z] l IH]; simpl; intros S; [tauto|].
  intros [[= -> ->]|H1] [[= ->]|H2]; auto.
  - exfalso. eapply irr. apply (sorted_head_lt _ _ _ S H2).
  - subst. exfalso. eapply irr. apply (sorted_head_lt _ _ _ S H1).
  - apply IH; auto. now apply sorted_tail in S.
Qed.

Context {E : Type} (ins : A -> P -> M -> M).
Notation fins l rr := (fold_left (fun r0 x => ins (fst x) (snd x) r0) l rr).

Lemma intersect_ok (xs : list (A * P)) : forall (ys : list (A * P)) r,
  sorted xs -> sorted ys ->
  exists zs, intersect_loop (E := E) ltb ins (map Ok xs) (map Ok ys) r = Ok (fins zs r) /\
    (forall x, In x zs <-> In x xs /\ In (fst x) (map fst ys)).
Proof.
  induction xs as [|[a p] xs IH]; intros ys r Sx.
  - intros _. exists []. split; [now destruct ys|]. simpl. tauto.
  - revert r. induction ys as [|[b q] ys IHy]; intros r Sy.
    + exists []. split; [reflexivity|]. simpl. tauto.
    + change (intersect_loop (E := E) ltb ins (map Ok ((a, p) :: xs)) (map Ok ((b, q) :: ys)) r) with
        (if ltb a b then intersect_loop (E := E) ltb ins (map Ok xs) (map Ok ((b, q) :: ys)) r
         else if ltb b a then intersect_loop (E := E) ltb ins (map Ok ((a, p) :: xs)) (map Ok ys) r
         else intersect_loop (E := E) ltb ins (map Ok xs) (map Ok ys) (ins a p r)).
      pose proof (sorted_tail _ _ Sx) as Sx'. pose proof (sorted_tail _ _ Sy) as Sy'.
      destruct (ltb a b) eqn:L1; [|destruct (ltb b a) eqn:L2].
      * destruct (IH ((b, q) :: ys) r Sx' Sy) as (zs & -> & H). exists zs. split; auto.
        intros x. rewrite H. apply ltb_lt in L1. simpl. split; [tauto|].
        intros [[<-|Hx] Hy]; auto. exfalso. apply (sorted_below a _ _ Sy L1). exact Hy.
      * destruct (IHy r Sy') as (zs & -> & H). exists zs. split; auto.
        intros x. rewrite H. apply ltb_lt in L2. simpl. split; [tauto|].
        intros [Hx [Hy|Hy]]; auto. exfalso. subst b.
        apply (sorted_below (fst x) _ _ Sx L2). simpl. destruct Hx as [<-|Hx]; auto.
        right. now apply in_map.
      * pose proof (total a b L1 L2). subst b.
        destruct (IH ys (ins a p r) Sx' Sy') as (zs & -> & H). exists ((a, p) :: zs). split; auto.
        intros x. simpl. rewrite H. split.
        -- intros [<-|[Hx Hy]]; auto.
        -- intros [[<-|Hx] Hy]; auto. right. split; auto. destruct Hy as [Hy|Hy]; auto.
           exfalso. apply (irr a). pose proof (sorted_head_lt _ _ _ Sx Hx) as L. simpl in L.
           rewrite <- Hy in L. exact L.
Qed.

(** Errors of an intersection are errors of the other store. *)
Lemma intersect_err (xs : list (A * P)) : forall (ys : list (result E (A * P))) r e,
  intersect_loop ltb ins (map Ok xs) ys r = Err e -> exists e', e = SetRight e' /\ In (Err e') ys.
Proof.
  induction xs as [|[a p] xs IH]; intros ys.
  - intros r e H. destruct ys as [|[y|e'] ys]; simpl in H; try discriminate.
    inversion H; subst. exists e'. simpl. auto.
  - induction ys as [|[[b q]|e'] ys IHy]; intros r e.
    + discriminate.
    + change (intersect_loop (E := E) ltb ins (map Ok ((a, p) :: xs)) (Ok (b, q) :: ys) r) with
        (if ltb a b then intersect_loop (E := E) ltb ins (map Ok xs) (Ok (b, q) :: ys) r
         else if ltb b a then intersect_loop (E := E) ltb ins (map Ok ((a, p) :: xs)) ys r
         else intersect_loop (E := E) ltb ins (map Ok xs) ys (ins a p r)).
      destruct (ltb a b); [|destruct (ltb b a)]; intros H.
      * now apply IH in H.
      * apply IHy in H. destruct H as (e' & -> & H). exists e'. simpl. auto.
      * apply IH in H. destruct H as (e' & -> & H). exists e'. simpl. auto.
    + simpl. intros [= <-]. exists e'. auto.
Qed.

End Join.

Lemma id_total (a b : I) : id_ltb a b = false -> id_ltb b a = false -> a = b.
Proof.
  intros H1 H2. apply uint_ext.
  assert (~ id_lt a b) by (rewrite <- id_ltb_lt; congruence).
  assert (~ id_lt b a) by (rewrite <- id_ltb_lt; congruence).
  unfold id_lt in *. lia.
Qed.

Lemma tr_total (a b : T) : tr_ltb a b = false -> tr_ltb b a = false -> a = b.
Proof.
  intros H1 H2. destruct (triple_order_laws k a b b) as (_ & _ & [H|[H|H]] & _); try congruence.
  now apply tr_eqb_eq.
Qed.

(** ** Difference *)
Notation nsorted := (StronglySorted (fun x y : I * NP => id_lt (fst x) (fst y))).
Notation esorted := (StronglySorted (fun x y : T * EP => edge_lt SPO (fst x) (fst y))).
Let H_irr := @id_lt_irr k.
Let H_tr := @id_lt_tr k.
Let E_irr := @edge_lt_irr k SPO.
Let E_tr := @edge_lt_tr k SPO.

Definition id_le (a b : I) : Prop := a = b \/ id_lt a b.

Lemma difference_nodes_ok {E} (xs : list (I * NP)) : forall (ys : list (I * NP)) rem r,
  nsorted xs -> nsorted ys ->
  exists rem' zs,
    difference_nodes (EP := EP) (E := E) (map Ok xs) (map Ok ys) rem r = Ok (rem', insn_all zs r) /\
    (forall x, In x zs <-> In x xs /\ ~ In (fst x) (map fst ys)) /\
    (forall b, In b rem' <-> In b rem \/ (In b (map fst ys) /\ exists a, In a (map fst xs) /\ id_le b a)).
Proof.
  induction xs as [|[a p] xs IH]; intros ys rem r Sx.
  - intros _. exists rem, []. split; [now destruct ys|]. split; [simpl; tauto|].
    intros b. simpl. split; auto. intros [H|(_ & ? & [] & _)]; auto.
  - revert rem r. induction ys as [|[b q] ys IHy]; intros rem r Sy.
    + exists rem, ((a, p) :: xs). split; [|split].
      * change (difference_nodes (EP := EP) (E := E) (map Ok ((a, p) :: xs)) (map Ok []) rem r) with
          (bind_res (drain (F := set_error unit E unit) SetLeft insert_node (map Ok ((a, p) :: xs)) r)
             (fun r => Ok (rem, r))).
        rewrite drain_eq, first_error_ok, before_error_ok. reflexivity.
      * simpl. tauto.
      * simpl. intros b. tauto.
    + change (difference_nodes (EP := EP) (E := E) (map Ok ((a, p) :: xs)) (map Ok ((b, q) :: ys)) rem r) with
        (if id_ltb a b
         then difference_nodes (EP := EP) (E := E) (map Ok xs) (map Ok ((b, q) :: ys)) rem (insert_node a p r)
         else if id_ltb b a
         then difference_nodes (EP := EP) (E := E) (map Ok ((a, p) :: xs)) (map Ok ys) (b :: rem) r
         else difference_nodes (EP := EP) (E := E) (map Ok xs) (map Ok ys) (b :: rem) r).
      pose proof (sorted_tail _ _ _ Sx) as Sx'. pose proof (sorted_tail _ _ _ Sy) as Sy'.
      destruct (id_ltb a b) eqn:L1; [|destruct (id_ltb b a) eqn:L2].
      * apply id_ltb_lt in L1.
        pose proof (sorted_below id_lt H_irr H_tr a _ _ Sy L1) as NB.
        destruct (IH ((b, q) :: ys) rem (insert_node a p r) Sx' Sy) as (rem' & zs & -> & Hz & Hr).
        exists rem', ((a, p) :: zs). split; auto. split.
        -- intros x. simpl. rewrite Hz. simpl in *. split.
           ++ intros [<-|[Hx Hy]]; auto.
           ++ intros [[<-|Hx] Hy]; auto.
        -- intros c. rewrite Hr. split.
           ++ intros [H|(H & a' & Ha & L)]; auto. right. split; auto. exists a'. simpl. auto.
           ++ intros [H|(H & a' & [<-|Ha] & L)]; auto.
              ** exfalso. simpl in L. destruct L as [Lc|L]; [apply NB; rewrite <- Lc; exact H|].
                 apply (sorted_below id_lt H_irr H_tr c _ _ Sy); auto.
                 eapply H_tr; eauto.
              ** right. split; auto. exists a'. auto.
      * apply id_ltb_lt in L2.
        destruct (IHy (b :: rem) r Sy') as (rem' & zs & -> & Hz & Hr).
        exists rem', zs. split; auto. split.
        -- intros x. rewrite Hz. simpl. split.
           ++ intros [Hx Hy]. split; auto. intros [Hb|H]; auto.
              apply (sorted_below id_lt H_irr H_tr b _ _ Sx L2). rewrite Hb.
              apply (in_map fst ((a, p) :: xs) x). exact Hx.
           ++ intros [Hx Hy]. split; auto.
        -- intros c. rewrite Hr. simpl. split.
           ++ intros [[<-|H]|(H & a' & Ha & L)]; auto.
              ** right. split; auto. exists a. split; auto. now right.
              ** right. split; auto. exists a'. auto.
           ++ intros [H|([<-|H] & a' & Ha & L)]; auto.
              right. split; auto. exists a'. auto.
      * pose proof (id_total a b L1 L2). subst b.
        destruct (IH ys (a :: rem) r Sx' Sy') as (rem' & zs & -> & Hz & Hr).
        exists rem', zs. split; auto. split.
        -- intros x. rewrite Hz. simpl. split.
           ++ intros [Hx Hy]. split; auto. intros [Ha|H]; auto.
              apply (H_irr a). pose proof (sorted_head_lt _ _ _ _ Sx Hx) as L. simpl in L.
              rewrite <- Ha in L. exact L.
           ++ intros [[<-|Hx] Hy]; simpl in *; tauto.
        -- intros c. rewrite Hr. simpl. split.
           ++ intros [[<-|H]|(H & a' & Ha & L)]; auto.
              ** right. split; auto. exists a. split; auto. now left.
              ** right. split; auto. exists a'. auto.
           ++ intros [H|([<-|H] & a' & [<-|Ha] & L)]; auto.
              ** exfalso. assert (lt_ : id_lt a c).
                 { apply in_map_iff in H. destruct H as (z & <- & Hz'). apply (sorted_head_lt _ _ _ _ Sy Hz'). }
                 destruct L as [->|L]; [now apply H_irr in lt_|].
                 apply (H_irr a). eapply H_tr; eauto.
              ** right. split; auto. exists a'. auto.
Qed.

Lemma contains_in l (i : I) : contains l i = true <-> In i l.
Proof.
  unfold contains. rewrite existsb_exists. split.
  - intros (x & H & E). apply id_eqb_eq in E. now subst.
  - intros H. exists i. split; auto. now apply id_eqb_eq.
Qed.

Definition edge_kept (rem : list I) (ys : list (T * EP)) (t : T) : Prop :=
  ~ In t (map fst ys) /\
  ((forall u, In u (map fst ys) -> edge_lt SPO u t) \/ (~ In (sub t) rem /\ ~ In (obj t) rem)).

Lemma difference_edges_ok {E} rem (xs : list (T * EP)) : forall (ys : list (T * EP)) r,
  esorted xs -> esorted ys ->
  exists zs, difference_edges (NP := NP) (E := E) rem (map Ok xs) (map Ok ys) r = Ok (ins_all zs r) /\
    (forall x, In x zs <-> In x xs /\ edge_kept rem ys (fst x)).
Proof.
  induction xs as [|[a p] xs IH]; intros ys r Sx.
  - intros _. exists []. split; [now destruct ys|]. simpl. tauto.
  - revert r. induction ys as [|[b q] ys IHy]; intros r Sy.
    + exists ((a, p) :: xs). split.
      * change (difference_edges (NP := NP) (E := E) rem (map Ok ((a, p) :: xs)) (map Ok []) r) with
          (drain (F := set_error unit E unit) SetLeft insert_edge (map Ok ((a, p) :: xs)) r).
        now rewrite drain_eq, first_error_ok, before_error_ok.
      * intros x. unfold edge_kept. simpl. tauto.
    + change (difference_edges (NP := NP) (E := E) rem (map Ok ((a, p) :: xs)) (map Ok ((b, q) :: ys)) r) with
        (if tr_ltb a b
         then difference_edges (NP := NP) (E := E) rem (map Ok xs) (map Ok ((b, q) :: ys))
                (if negb (contains rem (sub a) || contains rem (obj a)) then insert_edge a p r else r)
         else if tr_ltb b a
         then difference_edges (NP := NP) (E := E) rem (map Ok ((a, p) :: xs)) (map Ok ys) r
         else difference_edges (NP := NP) (E := E) rem (map Ok xs) (map Ok ys) r).
      pose proof (sorted_tail _ _ _ Sx) as Sx'. pose proof (sorted_tail _ _ _ Sy) as Sy'.
      destruct (tr_ltb a b) eqn:L1; [|destruct (tr_ltb b a) eqn:L2].
      * apply tr_ltb_lt in L1.
        pose proof (sorted_below (edge_lt SPO) E_irr E_tr a _ _ Sy L1) as NB.
        set (r' := if negb _ then _ else r).
        destruct (IH ((b, q) :: ys) r' Sx' Sy) as (zs & -> & Hz). subst r'.
        assert (HA : negb (contains rem (sub a) || contains rem (obj a)) = true
                     <-> edge_kept rem ((b, q) :: ys) a).
        { rewrite negb_true_iff, orb_false_iff.
          assert (forall i, contains rem i = false <-> ~ In i rem) as CF.
          { intros i. rewrite <- contains_in. destruct (contains rem i); intuition congruence. }
          rewrite !CF. unfold edge_kept. split; [auto|]. intros [_ [H|H]]; auto.
          exfalso. assert (edge_lt SPO b a) as L by (apply H; simpl; auto).
          apply (E_irr a). eapply E_tr; eauto. }
        destruct (negb (contains rem (sub a) || contains rem (obj a))) eqn:N.
        -- exists ((a, p) :: zs). split; auto. intros x. simpl. rewrite Hz. split.
           ++ intros [<-|[Hx Hk]]; auto. split; auto. now apply HA.
           ++ intros [[<-|Hx] Hk]; auto.
        -- exists zs. split; auto. intros x. rewrite Hz. simpl. split; [tauto|].
           intros [[<-|Hx] Hk]; auto. simpl in Hk. apply HA in Hk. discriminate.
      * apply tr_ltb_lt in L2.
        destruct (IHy r Sy') as (zs & -> & Hz). exists zs. split; auto.
        intros x. rewrite Hz. split; intros [Hx Hk]; split; auto.
        -- assert (edge_lt SPO b (fst x)) as Lb.
           { simpl in Hx. destruct Hx as [<-|Hx]; auto.
             eapply E_tr; [exact L2 | apply (sorted_head_lt _ _ _ _ Sx Hx)]. }
           destruct Hk as [H1 H2]. split.
           ++ simpl. intros [Hb|H]; auto. simpl in Hb. rewrite <- Hb in Lb. now apply E_irr in Lb.
           ++ destruct H2 as [H2|H2]; auto. left. intros u [<-|H]; [exact Lb|auto].
        -- destruct Hk as [H1 H2]. split.
           ++ intros H. apply H1. simpl. auto.
           ++ destruct H2 as [H2|H2]; auto. left. intros u H. apply H2. simpl. auto.
      * pose proof (tr_total a b L1 L2). subst b.
        destruct (IH ys r Sx' Sy') as (zs & -> & Hz). exists zs. split; auto.
        intros x. rewrite Hz. split.
        -- intros [Hx Hk]. split; [now right|].
           pose proof (sorted_head_lt _ _ _ _ Sx Hx) as La. simpl in La.
           destruct Hk as [H1 H2]. split.
           ++ simpl. intros [Ha|H]; auto. rewrite <- Ha in La. now apply E_irr in La.
           ++ destruct H2 as [H2|H2]; auto. left. intros u [<-|H]; [exact La|auto].
        -- intros [[<-|Hx] Hk].
           ++ exfalso. destruct Hk as [H1 _]. apply H1. simpl. auto.
           ++ split; auto. destruct Hk as [H1 H2]. split.
              ** intros H. apply H1. simpl. auto.
              ** destruct H2 as [H2|H2]; auto. left. intros u H. apply H2. simpl. auto.
Qed.

(** ** What a memory store delivers to its own set operation *)
Lemma into_iter_nodes_eq o m : into_iter_nodes o m = (map Ok (node_props m), map Ok (edge_items o m)).
Proof.
  unfold into_iter_nodes. f_equal.
  rewrite <- iter_edges_eq. reflexivity.
Qed.

Lemma nsorted_props m : agree m -> nsorted (node_props m).
Proof.
  intros A. destruct (lists_iter_vertices m A) as (x & Hx & S & _).
  rewrite iter_vertices_eq in Hx. apply map_ok_inj in Hx. now subst.
Qed.

Lemma node_props_in m i p : agree m -> (In (i, p) (node_props m) <-> nprop m i = Some p).
Proof.
  intros A. symmetry. apply (get_iff_in (id_cmp_ok k)). apply (ag_nodes _ A).
Qed.

Lemma mem_source_delivers m : agree m -> delivers (mem_source m) (abs m).
Proof.
  intros A. unfold mem_source. rewrite into_iter_nodes_eq. split; simpl.
  - rewrite <- iter_vertices_eq. now apply lists_iter_vertices.
  - rewrite <- iter_edges_eq. now apply lists_iter_edges.
Qed.

Section Results.
Context {E : Type} (gn : gen k) (s : source k NP EP E).

Lemma union_eq m :
  union gn s m =
  match bulk_error s with
  | Some e => Err (SetRight e)
  | None =>
      Ok (ins_all (before_error (src_edges s)) (insn_all (before_error (src_nodes s))
            (ins_all (edge_items SPO m) (insn_all (node_props m) (mem_new gn)))))
  end.
Proof.
  unfold union. rewrite into_iter_nodes_eq.
  rewrite insert_all_eq, first_error_ok, before_error_ok. unfold bind_res at 1.
  rewrite insert_all_eq, first_error_ok, before_error_ok. unfold bind_res at 1.
  rewrite insert_all_eq. unfold bulk_error. destruct (first_error (src_nodes s)); auto.
  unfold bind_res. rewrite insert_all_eq. now destruct (first_error (src_edges s)).
Qed.

(** Deliver lists: sorted items of the source. *)
Lemma delivers_items g : delivers s g ->
  exists ns es, s = Source (map Ok ns) (map Ok es) /\ nsorted ns /\ esorted es /\
    (forall i p, In (i, p) ns <-> g_node g i = Some p) /\
    (forall t e, In (t, e) es <-> g_edge g t = Some e).
Proof.
  intros [(ns & Hn & Sn & In_n) (es & He & Se & In_e)]. exists ns, es.
  split; [destruct s; simpl in *; congruence|]. auto.
Qed.

Lemma option_ext {A} (x y : option A) : (forall a, x = Some a <-> y = Some a) -> x = y.
Proof.
  intros H. destruct x as [a|].
  - symmetry. now apply H.
  - destruct y as [b|]; auto. now apply H.
Qed.

Lemma gputn_override ns f g :
  (forall i p, In (i, p) ns <-> f i = Some p) ->
  forall i, g_node (gputn_all ns g) i = match f i with Some p => Some p | None => g_node g i end.
Proof.
  intros H i. apply option_ext. intros p. rewrite gputn_all_spec.
  - rewrite H. split.
    + intros [->|[Hn Hg]]; auto. destruct (f i) as [q|] eqn:F; auto.
      exfalso. apply (Hn q), H, F.
    + destruct (f i) as [q|] eqn:F; auto. intros Hg. right. split; auto.
      intros e' He'. apply H in He'. congruence.
  - intros a p1 p2. rewrite !H. congruence.
Qed.

Lemma gput_override es f g :
  (forall t e, In (t, e) es <-> f t = Some e) ->
  forall t, g_edge (gput_all es g) t = match f t with Some p => Some p | None => g_edge g t end.
Proof.
  intros H i. apply option_ext. intros p. rewrite gput_all_spec.
  - rewrite H. split.
    + intros [->|[Hn Hg]]; auto. destruct (f i) as [q|] eqn:F; auto.
      exfalso. apply (Hn q), H, F.
    + destruct (f i) as [q|] eqn:F; auto. intros Hg. right. split; auto.
      intros e' He'. apply H in He'. congruence.
  - intros a p1 p2. rewrite !H. congruence.
Qed.

Lemma sim_union m b :
  agree m -> delivers s b -> exists r, union gn s m = Ok r /\ sim r (g_union (abs m) b).
Proof.
  intros A D. destruct (delivers_items b D) as (ns & es & Es & Sn & Se & Hn & He).
  rewrite union_eq. unfold bulk_error. rewrite Es. simpl. rewrite !first_error_ok, !before_error_ok.
  eexists. split; [reflexivity|].
  eapply sim_equiv; [|apply sim_ins_all, sim_insn_all, sim_ins_all, sim_insn_all, sim_new].
  split.
  - intros i. rewrite gput_all_node, (gputn_override ns (g_node b)) by auto.
    rewrite gput_all_node, (gputn_override (node_props m) (nprop m)).
    + simpl. destruct (g_node b i); auto. now destruct (nprop m i).
    + intros. now apply node_props_in.
  - intros t. rewrite (gput_override es (g_edge b)) by auto.
    rewrite gputn_all_edge, (gput_override (edge_items SPO m) (abs_edge m)).
    + rewrite gputn_all_edge. simpl. destruct (g_edge b t); auto. now destruct (abs_edge m t).
    + intros. now apply edge_items_in.
Qed.

Lemma sim_intersection m b :
  agree m -> delivers s b -> exists r, intersection gn s m = Ok r /\ sim r (g_inter (abs m) b).
Proof.
  intros A D. destruct (delivers_items b D) as (ns & es & Es & Sn & Se & Hn & He).
  unfold intersection. rewrite into_iter_nodes_eq, Es. simpl.
  destruct (intersect_ok id_ltb id_lt id_ltb_lt id_lt_irr id_lt_tr id_total (E := E)
    insert_node (node_props m) ns (mem_new gn) (nsorted_props m A) Sn) as (zn & EQ & Hzn).
  match type of EQ with _ = Ok ?x => change x with (insn_all zn (mem_new gn : M)) in EQ end.
  rewrite EQ. unfold bind_res.
  destruct (intersect_ok tr_ltb (edge_lt SPO) tr_ltb_lt (edge_lt_irr SPO) (edge_lt_tr SPO) tr_total (E := E)
    insert_edge (edge_items SPO m) es (insn_all zn (mem_new gn)) (edge_items_sorted SPO m A) Se)
    as (ze & -> & Hze).
  eexists. split; [reflexivity|].
  eapply sim_equiv; [|apply sim_ins_all, sim_insn_all, sim_new].
  split.
  - intros i. rewrite gput_all_node.
    rewrite (gputn_override zn (fun i => match g_node b i with Some _ => nprop m i | None => None end)).
    + simpl. destruct (g_node b i); auto. now destruct (nprop m i).
    + intros j p. rewrite Hzn, node_props_in by auto. simpl. rewrite in_map_iff. split.
      * intros [Ha ([j' q] & Ej & Hj)]. simpl in Ej. subst j'. apply Hn in Hj. now rewrite Hj.
      * destruct (g_node b j) as [q|] eqn:F; [|discriminate]. intros Ha. split; auto.
        exists (j, q). split; auto. now apply Hn.
  - intros t.
    rewrite (gput_override ze (fun t => match g_edge b t with Some _ => abs_edge m t | None => None end)).
    + rewrite gputn_all_edge. simpl. destruct (g_edge b t); auto. now destruct (abs_edge m t).
    + intros j p. rewrite Hze, edge_items_in by auto. simpl. rewrite in_map_iff. split.
      * intros [Ha ([j' q] & Ej & Hj)]. simpl in Ej. subst j'. apply He in Hj. now rewrite Hj.
      * destruct (g_edge b j) as [q|] eqn:F; [|discriminate]. intros Ha. split; auto.
        exists (j, q). split; auto. now apply He.
Qed.

(** The vertices of [b] that difference regards as removed. *)
Definition hidden (a b : G) (i : I) : Prop :=
  g_node b i <> None /\ exists j, g_node a j <> None /\ id_le i j.

Definition diff_edge (a b : G) (t : T) (e : EP) : Prop :=
  g_edge a t = Some e /\ g_edge b t = None /\
  ((forall u, g_edge b u <> None -> edge_lt SPO u t) \/ (~ hidden a b (sub t) /\ ~ hidden a b (obj t))).

Lemma sim_difference m b :
  agree m -> delivers s b ->
  exists r c, difference gn s m = Ok r /\ sim r c /\
    (forall i, g_node c i = match g_node b i with Some _ => None | None => nprop m i end) /\
    (forall t e, g_edge c t = Some e <-> diff_edge (abs m) b t e).
Proof.
  intros A D. destruct (delivers_items b D) as (ns & es & Es & Sn & Se & Hn & He).
  unfold difference. rewrite into_iter_nodes_eq, Es. simpl.
  destruct (difference_nodes_ok (E := E) (node_props m) ns [] (mem_new gn) (nsorted_props m A) Sn)
    as (rem & zn & -> & Hzn & Hr).
  unfold bind_res. simpl.
  destruct (difference_edges_ok (E := E) rem (edge_items SPO m) es (insn_all zn (mem_new gn))
    (edge_items_sorted SPO m A) Se) as (ze & -> & Hze).
  eexists. eexists. split; [reflexivity|]. split; [apply sim_ins_all, sim_insn_all, sim_new|].
  assert (Kn : forall i, In i (map fst ns) <-> g_node b i <> None).
  { intros i. rewrite in_map_iff. split.
    - intros ([j q] & Ej & H). simpl in Ej. subst j. apply Hn in H. congruence.
    - intros H. destruct (g_node b i) as [q|] eqn:F; [|congruence]. exists (i, q). split; auto. now apply Hn. }
  assert (Ke : forall t, In t (map fst es) <-> g_edge b t <> None).
  { intros i. rewrite in_map_iff. split.
    - intros ([j q] & Ej & H). simpl in Ej. subst j. apply He in H. congruence.
    - intros H. destruct (g_edge b i) as [q|] eqn:F; [|congruence]. exists (i, q). split; auto. now apply He. }
  assert (Ka : forall i, In i (map fst (node_props m)) <-> nprop m i <> None).
  { intros i. rewrite in_map_iff. split.
    - intros ([j q] & Ej & H). simpl in Ej. subst j. apply node_props_in in H; auto. congruence.
    - intros H. destruct (nprop m i) as [q|] eqn:F; [|congruence]. exists (i, q). split; auto.
      now apply node_props_in. }
  assert (Kr : forall i, In i rem <-> hidden (abs m) b i).
  { intros i. rewrite Hr, Kn. unfold hidden. simpl. split.
    - intros [[]|(H & a & Ha & L)]. split; auto. exists a. now rewrite <- Ka.
    - intros (H & a & Ha & L). right. split; auto. exists a. now rewrite Ka. }
  split.
  - intros i. rewrite gput_all_node.
    rewrite (gputn_override zn (fun i => match g_node b i with Some _ => None | None => nprop m i end)).
    + simpl. destruct (g_node b i); auto. now destruct (nprop m i).
    + intros j p. rewrite Hzn, node_props_in, Kn by auto. simpl.
      destruct (g_node b j); split; intuition congruence.
  - intros t e. rewrite gput_all_spec.
    + rewrite gputn_all_edge. simpl. rewrite Hze, edge_items_in by auto. unfold diff_edge, edge_kept. simpl.
      rewrite Ke, !Kr.
      assert ((forall u, In u (map fst es) -> edge_lt SPO u t) <-> (forall u, g_edge b u <> None -> edge_lt SPO u t)) as ->.
      { split; intros H u Hu; apply H; now apply Ke. }
      split.
      * intros [(H1 & H2 & H3)|[_ H]]; [|discriminate]. split; auto. split; auto.
        destruct (g_edge b t); auto. exfalso. apply H2. discriminate.
      * intros (H1 & H2 & H3). left. split; auto.
    + intros t' e1 e2. rewrite !Hze, !edge_items_in by auto. intuition congruence.
Qed.

(** ** Errors, and arbitrary successful results *)
Lemma intersection_err m e :
  intersection gn s m = Err e ->
  exists e', e = SetRight e' /\ (In (Err e') (src_nodes s) \/ In (Err e') (src_edges s)).
Proof.
  unfold intersection. rewrite into_iter_nodes_eq.
  destruct (intersect_loop id_ltb insert_node (map Ok (node_props m)) (src_nodes s) (mem_new gn)) as [r|x] eqn:N.
  - simpl. intros H. apply intersect_err in H. destruct H as (e' & -> & H). eauto.
  - simpl. intros [= <-]. apply intersect_err in N. destruct N as (e' & -> & H). eauto.
Qed.

End Results.

(** Any predicate kept by the insertions holds of every successful result. *)
Section Keep.
Context (Q : M -> Prop).
Context (Qn : forall i p r, Q r -> Q (insert_node i p r)).
Context (Qe : forall t e r, Q r -> Q (insert_edge t e r)).

Lemma keep_ins_all l : forall r, Q r -> Q (ins_all l r).
Proof. induction l; intros r H; simpl; auto. Qed.
Lemma keep_insn_all l : forall r, Q r -> Q (insn_all l r).
Proof. induction l; intros r H; simpl; auto. Qed.

Lemma keep_intersect_loop {A P E} ltb (ins : A -> P -> M -> M) :
  (forall a p r, Q r -> Q (ins a p r)) ->
  forall xs (ys : list (result E (A * P))) r r', Q r -> intersect_loop ltb ins xs ys r = Ok r' -> Q r'.
Proof.
  intros Hi. induction xs as [|[[a p]|e] xs IH]; intros ys.
  - intros r r' H. destruct ys as [|[y|e] ys]; simpl; try discriminate; intros [= <-]; auto.
  - induction ys as [|[[b q]|e] ys IHy]; intros r r' H.
    + intros [= <-]; auto.
    + change (intersect_loop (E := E) ltb ins (Ok (a, p) :: xs) (Ok (b, q) :: ys) r) with
        (if ltb a b then intersect_loop (E := E) ltb ins xs (Ok (b, q) :: ys) r
         else if ltb b a then intersect_loop (E := E) ltb ins (Ok (a, p) :: xs) ys r
         else intersect_loop (E := E) ltb ins xs ys (ins a p r)).
      destruct (ltb a b); [|destruct (ltb b a)]; eauto.
    + discriminate.
  - intros r r' H. destruct ys; discriminate.
Qed.

Lemma keep_drain {A P F} tag (ins : A -> P -> M -> M) :
  (forall a p r, Q r -> Q (ins a p r)) ->
  forall xs r r', Q r -> drain (F := F) tag ins xs r = Ok r' -> Q r'.
Proof.
  intros Hi. induction xs as [|[[a p]|e] xs IH]; intros r r' H; simpl; try discriminate.
  - intros [= <-]; auto.
  - apply IH. auto.
Qed.

Lemma keep_difference_nodes {E} : forall xs (ys : list (result E (I * NP))) rem r x,
  Q r -> difference_nodes xs ys rem r = Ok x -> Q (snd x).
Proof.
  induction xs as [|[[a p]|e] xs IH]; intros ys.
  - intros rem r r' H. destruct ys as [|[y|e] ys]; simpl; try discriminate; intros [= <-]; auto.
  - induction ys as [|[[b q]|e] ys IHy]; intros rem r r' H.
    + change (difference_nodes (E := E) (Ok (a, p) :: xs) [] rem r) with
        (bind_res (drain (F := set_error unit E unit) SetLeft insert_node (Ok (a, p) :: xs) r)
             (fun r => Ok (rem, r))).
      destruct (drain SetLeft insert_node (Ok (a, p) :: xs) r) eqn:D; simpl; [|discriminate].
      intros [= <-]. exact (keep_drain SetLeft insert_node Qn _ _ _ H D).
    + change (difference_nodes (E := E) (Ok (a, p) :: xs) (Ok (b, q) :: ys) rem r) with
        (if id_ltb a b
         then difference_nodes (E := E) xs (Ok (b, q) :: ys) rem (insert_node a p r)
         else if id_ltb b a
         then difference_nodes (E := E) (Ok (a, p) :: xs) ys (b :: rem) r
         else difference_nodes (E := E) xs ys (b :: rem) r).
      destruct (id_ltb a b); [|destruct (id_ltb b a)]; eauto.
    + discriminate.
  - intros rem r r' H. destruct ys; discriminate.
Qed.

Lemma keep_difference_edges {E} rem : forall xs (ys : list (result E (T * EP))) r r',
  Q r -> difference_edges rem xs ys r = Ok r' -> Q r'.
Proof.
  induction xs as [|[[a p]|e] xs IH]; intros ys.
  - intros r r' H. destruct ys as [|[y|e] ys]; simpl; try discriminate; intros [= <-]; auto.
  - induction ys as [|[[b q]|e] ys IHy]; intros r r' H.
    + change (difference_edges (E := E) rem (Ok (a, p) :: xs) [] r) with
        (drain (F := set_error unit E unit) SetLeft insert_edge (Ok (a, p) :: xs) r).
      apply keep_drain; auto.
    + change (difference_edges (E := E) rem (Ok (a, p) :: xs) (Ok (b, q) :: ys) r) with
        (if tr_ltb a b
         then difference_edges (E := E) rem xs (Ok (b, q) :: ys)
                (if negb (contains rem (sub a) || contains rem (obj a)) then insert_edge a p r else r)
         else if tr_ltb b a
         then difference_edges (E := E) rem (Ok (a, p) :: xs) ys r
         else difference_edges (E := E) rem xs ys r).
      destruct (tr_ltb a b); [|destruct (tr_ltb b a)]; eauto.
      apply IH. destruct (negb _); auto.
    + discriminate.
  - intros r r' H. destruct ys; discriminate.
Qed.

Lemma keep_setops {E} gn (s : source k NP EP E) m r :
  Q (mem_new gn) ->
  union gn s m = Ok r \/ intersection gn s m = Ok r \/ difference gn s m = Ok r -> Q r.
Proof.
  intros Hnew [H|[H|H]].
  - rewrite union_eq in H. destruct (bulk_error s); inversion H; subst.
    apply keep_ins_all, keep_insn_all, keep_ins_all, keep_insn_all, Hnew.
  - unfold intersection in H. rewrite into_iter_nodes_eq in H.
    destruct (intersect_loop id_ltb insert_node (map Ok (node_props m)) (src_nodes s) (mem_new gn)) eqn:N;
      simpl in H; [|discriminate].
    eapply keep_intersect_loop; [|eapply keep_intersect_loop; [|exact Hnew|exact N]|exact H]; auto.
  - unfold difference in H. rewrite into_iter_nodes_eq in H.
    destruct (difference_nodes (map Ok (node_props m)) (src_nodes s) [] (mem_new gn)) eqn:N;
      simpl in H; [|discriminate].
    eapply keep_difference_edges; [|exact H]. eapply keep_difference_nodes; [exact Hnew|exact N].
Qed.

End Keep.

(** ** Reachable stores *)
Lemma reachable_sim {E} mn me m : reachable E mn me m -> exists g, sim m g.
Proof.
  induction 1 as [gn|o m H [g S]|gn q m H _|gn s m r H _ Hr|gn s m r H _ Hr|gn s m r H _ Hr].
  - exists g_empty. apply sim_new.
  - exists (spec_apply mn me o g). now apply sim_apply.
  - destruct (sim_run gn q m) as (g' & S & _). eauto.
  - apply (keep_setops (fun r => exists g, sim r g)) with (gn := gn) (s := s) (m := m); auto.
    + intros i p r0 [g S]. eexists. apply sim_insert_node, S.
    + intros t e r0 [g S]. eexists. apply sim_insert_edge, S.
    + eexists. apply sim_new.
  - apply (keep_setops (fun r => exists g, sim r g)) with (gn := gn) (s := s) (m := m); auto.
    + intros i p r0 [g S]. eexists. apply sim_insert_node, S.
    + intros t e r0 [g S]. eexists. apply sim_insert_edge, S.
    + eexists. apply sim_new.
  - apply (keep_setops (fun r => exists g, sim r g)) with (gn := gn) (s := s) (m := m); auto.
    + intros i p r0 [g S]. eexists. apply sim_insert_node, S.
    + intros t e r0 [g S]. eexists. apply sim_insert_edge, S.
    + eexists. apply sim_new.
Qed.

Lemma reachable_agree {E} mn me m : reachable E mn me m -> agree m.
Proof. intros H. apply reachable_sim in H. destruct H as [g [A _]]. exact A. Qed.

Lemma reachable_self {E} mn me m : reachable E mn me m -> sim m (abs m).
Proof. intros H. apply reachable_sim in H. destruct H as [g S]. eapply sim_abs; eauto. Qed.

End Set_.
