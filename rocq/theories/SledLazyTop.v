(** Copying a SledTripleStore onto another handle of the same database: what is seen at any
    moment and in the end. *)
From Coq Require Import Arith NArith List Bool Sorted Lia.
From Verif Require Import Bytes BytesFacts OMap OMapFacts Core IdType IdTypeFacts Store Mem Spec
  CodecFacts ListFacts MemFacts MemSim History Prog ProgFacts Sled SledHistory SledDb
  SledOps SledBulk SledRun SledRead SledTop SledMain SledTornSpec SledTorn SledTornTop
  SledLeaf SledLeafFacts SledLazy SledLazyFacts.
Import ListNotations.

Section Copy.
Context {k : idkind} {NP EP SE BE : Type} (cn : codec BE NP) (ce : codec BE EP).
Context (Hcn : codec_ok cn) (Hce : codec_ok ce).
Notation I := (Id k).
Notation T := (triple (Id k)).
Notation G := (graph k NP EP).
Notation err := (sled_error SE BE).
Notation P A := (prog db SE A).
Notation PR A := (prog db SE (result err A)).
Notation fair := (fair (k := k) cn ce).
Notation nod := (nod (k := k) cn).
Notation view := (view (k := k) ce).
Notation blame := (blame (SE := SE) cn ce).
Implicit Types t u : T.
Implicit Types F : SE -> Prop.

(** ** One element *)
Lemma wp_extend_node_at F U (i : I) p d : fair U d ->
  wp F (fun x => x = d \/ exists b, de cn b = Ok p /\ x = d_put_node i b d)
    (fun r x => match r with
       | Ok _ => exists b, de cn b = Ok p /\ x = d_put_node i b d
       | Err e => blame F e
       end) (s_extend_node cn i p : PR unit) d.
Proof.
  intros _. unfold s_extend_node. apply wp_bind_ok. apply wp_bincode; auto.
  destruct (ser cn p) as [b|e] eqn:Hs; [|split; simpl; eauto]. pose proof (Hcn _ _ Hs) as Hb.
  apply wp_bind_ok. apply wp_tree_insert; auto.
  - right. exists b. split; auto.
  - split; [right|]; exists b; auto.
Qed.

Lemma wp_merge_node_at mn F U (i : I) p d : fair U d -> nod d i = Some p ->
  wp F (fun x => x = d \/ exists b, de cn b = Ok (mn p p) /\ x = d_put_node i b d)
    (fun r x => match r with
       | Ok _ => exists b, de cn b = Ok (mn p p) /\ x = d_put_node i b d
       | Err e => blame F e
       end) (s_merge_node cn mn i p : PR unit) d.
Proof.
  intros H Hn. unfold s_merge_node. apply wp_bind_ok. apply wp_transaction; auto.
  unfold merge_node_txn, t_bind, t_get, t_bincode, t_insert, t_ret, t_abort. change (tbl TNode d) with (t_node d).
  pose proof Hn as Hn'. unfold SledDb.nod in Hn'. destruct (bget (to_be_bytes i) (t_node d)) as [old|]; [|discriminate].
  destruct (de cn old) as [q|]; [|discriminate]. simpl in Hn'. injection Hn' as ->.
  destruct (ser cn (mn p p)) as [b|be] eqn:Hs; [|simpl; split; eauto].
  pose proof (Hcn _ _ Hs) as Hb. split; [right; exists b; auto|]. simpl. split; [right|]; exists b; auto.
Qed.

(** Each order shows the edge as before or as written. *)
Definition midx (U : bytes -> Prop) (d : db) (t : T) (e : EP) (x : db) : Prop :=
  fair U x /\ (forall i, nod x i = nod d i) /\
  forall o, (forall u, view o x u = view o d u) \/
    (forall u, view o x u = if triple_eq_dec u t then Some e else view o d u).

Lemma wp_extend_edge_at F U t e h d : fair U d -> ~ U (next_ulid h) ->
  wp F (midx (fun x => U x \/ x = next_ulid h) d t e)
    (fun rh x => match fst rh with
       | Ok _ => snd rh = step_ulid h /\ exists b, de ce b = Ok e /\ x = d_set_edge t (next_ulid h) b d
       | Err e => blame F e
       end) (s_extend_edge ce t e h : P (result err unit * handle k)) d.
Proof.
  intros [F1 F2] N. set (r := next_ulid h) in *. set (U' := fun x => U x \/ x = r).
  assert (midx U' d t e d) as Hd.
  { split; [|auto]. split; auto. eapply faire_mono; [|exact F2]. unfold U'; auto. }
  unfold s_extend_edge, draw_ulid, fresh.
  eapply (wp_mono F (midx U' d t e) _ (with_h (step_ulid h) (fun v x => match v with
       | Ok _ => exists b, de ce b = Ok e /\ x = d_set_edge t r b d
       | Err e => blame F e
       end))); [auto| |].
  { intros [v h'] x _ [Eh Hv]. cbn [fst snd] in *. destruct v as [[]|]; auto. }
  apply wp_and_handle. fold (next_ulid h). fold r.
  apply wp_bind_ok. apply wp_bincode; auto.
  destruct (ser ce e) as [b|be] eqn:Hs; [|split; auto; simpl; eauto].
  pose proof (Hce _ _ Hs) as Hb.
  pose proof (faire_put_rec ce U d r b e F2 N Hb) as E1.
  assert (record ce (d_put_rec r b d) r = Some e) as Hr.
  { rewrite (record_put ce r b e) by auto. destruct (list_eq_dec Byte.byte_eq_dec r r); congruence. }
  assert (record ce (d_put_rec r b d) r <> None) as Hr' by congruence.
  assert (forall o u, rid o (d_put_rec r b d) u = Some r -> u = t) as H1.
  { intros o u. unfold d_put_rec. rewrite rid_edge. intros H. exfalso. revert H. eapply fresh_unused; eauto. }
  assert (faire (k := k) ce U' (d_put_idx SPO t r (d_put_rec r b d))) as E2 by (now apply faire_put_idx).
  assert (faire (k := k) ce U' (d_put_idx POS t r (d_put_idx SPO t r (d_put_rec r b d)))) as E3.
  { apply faire_put_idx; auto. intros o u. rewrite rid_put.
    destruct (triple_eq_dec u t); auto. destruct (order_dec o SPO); apply H1. }
  pose proof (put_edge_faire ce U d t r b e F2 N Hb) as E4.
  pose proof (set_edge_faire ce U d t r b e F2 N Hb) as E5.
  assert (forall x, t_node x = t_node d -> fairn (k := k) cn x) as Hfn
    by (intros x E; destruct F1 as [S1 S2]; split; rewrite E; auto).
  assert (midx U' d t e (d_put_rec r b d)) as N1.
  { split; [split; auto|]. split; auto. intros o. left. intros u. eapply view_put_rec; eauto. }
  assert (midx U' d t e (d_put_idx SPO t r (d_put_rec r b d))) as N2.
  { split; [split; auto|]. split; auto. intros o.
    destruct o; [right|left|left]; intros u; rewrite view_put_idx; simpl;
      rewrite ?(view_put_rec ce U), ?Hr; auto. }
  assert (midx U' d t e (d_put_idx POS t r (d_put_idx SPO t r (d_put_rec r b d)))) as N3.
  { split; [split; auto|]. split; auto. intros o.
    destruct o; [right|right|left]; intros u; rewrite !view_put_idx; simpl;
      unfold d_put_idx; rewrite ?(view_put_rec ce U), ?record_set, ?Hr; auto. }
  assert (midx U' d t e (d_put_edge t r b d)) as N4.
  { split; [split; auto|]. split; auto. intros o. right. intros u. eapply put_edge_view; eauto. }
  assert (midx U' d t e (d_set_edge t r b d)) as N5.
  { split; [split; auto; apply Hfn; unfold d_set_edge; destruct (rid SPO d t); auto|]. split.
    - intros i. unfold d_set_edge. destruct (rid SPO d t); reflexivity.
    - intros o. right. intros u. eapply set_edge_view; eauto. }
  assert (rid SPO (d_put_rec r b d) t = rid SPO d t) as Eold by (apply rid_edge).
  apply wp_bind_ok. apply wp_tree_insert; [exact Hd | exact N1 | | auto].
  apply wp_bind_ok. apply wp_tree_insert; [exact N1 | exact N2 | | auto].
  apply wp_bind_ok. apply wp_tree_insert; [exact N2 | exact N3 | | auto].
  apply wp_bind_ok. apply wp_tree_insert; [exact N3 | exact N4 | | auto].
  change (bget (encode_spo t) _) with (rid SPO (d_put_rec r b d) t). rewrite Eold.
  change (set_tbl TOsp _ _) with (d_put_edge t r b d).
  assert (exists b0, de ce b0 = Ok e /\ d_set_edge t r b d = d_set_edge t r b0 d) as Hend by (exists b; auto).
  unfold d_set_edge in N5, Hend. destruct (rid SPO d t) as [old|] eqn:Eo; simpl d_drop in *.
  - apply wp_bind_ok. apply wp_tree_remove; [exact N4 | exact N5 | | auto].
    simpl. split; auto. destruct Hend as (b0 & Hb0 & Ed). exists b0. split; auto.
    unfold d_set_edge. rewrite Eo. exact Ed.
  - simpl. split; auto. destruct Hend as (b0 & Hb0 & Ed). exists b0. split; auto.
    unfold d_set_edge. rewrite Eo. exact Ed.
Qed.

Lemma wp_merge_edge_at me F U t e h d : fair U d -> ~ U (next_key h) -> view SPO d t = Some e ->
  wp F (fun x => x = d \/ exists b, de ce b = Ok (me e e) /\ x = d_set_edge t (next_key h) b d)
    (fun rh x => match fst rh with
       | Ok _ => snd rh = step_gen h /\ exists b, de ce b = Ok (me e e) /\ x = d_set_edge t (next_key h) b d
       | Err e => blame F e
       end) (s_merge_edge ce me t e h : P (result err unit * handle k)) d.
Proof.
  intros H N Hv. unfold s_merge_edge, draw, fresh.
  eapply (wp_mono F (fun x => x = d \/ exists b, de ce b = Ok (me e e) /\ x = d_set_edge t (next_key h) b d) _
    (with_h (step_gen h) (fun v x => match v with
       | Ok _ => exists b, de ce b = Ok (me e e) /\ x = d_set_edge t (next_key h) b d
       | Err e => blame F e
       end))); [auto| |].
  { intros [v h'] x _ [Eh Hx]. cbn [fst snd] in *. destruct v as [[]|]; auto. }
  apply wp_and_handle. apply wp_bind_ok. apply wp_transaction; auto.
  fold (next_key h). pose proof (merge_edge_txn_ok (SE := SE) cn ce Hce me U d t (next_key h) e H N) as Ht.
  destruct (merge_edge_txn ce me t (next_key h) e d) as [[[] d']|x].
  - destruct Ht as (b & e' & Hb & -> & ->). rewrite Hv in Hb. cbn [merged] in Hb.
    split; [right; eauto|]. simpl. split; eauto.
  - destruct Ht as (b & -> & p & Hp). simpl. split; eauto.
Qed.

(** ** Both loops *)
Lemma updated_id {X V} (eq_dec : forall a b : X, {a = b} + {a <> b}) dn (new old : X -> option V) :
  updated (fun v => v) dn new old -> (forall x v, In (x, v) dn -> old x = Some v) -> forall x, new x = old x.
Proof.
  intros [H1 H2] Ho x. destruct (in_dec eq_dec x (map fst dn)) as [Hin|Hin]; auto.
  apply in_map_iff in Hin. destruct Hin as ([y v] & Ey & Hin). cbn [fst] in Ey. subst y.
  rewrite (H1 _ _ Hin). symmetry. auto.
Qed.

Lemma view_tables d d' : (forall x, x <> TNode -> tbl x d' = tbl x d) ->
  (forall o u, view o d' u = view o d u) /\ forall o, idx o d' = idx o d.
Proof.
  intros H. assert (forall o, idx o d' = idx o d) as Hi by (intros o; unfold idx; apply H; destruct o; discriminate).
  split; auto. intros o u. unfold SledDb.view, rid. rewrite Hi.
  destruct (bget (enc o u) (idx o d)) as [r|]; auto. unfold record.
  change (t_edge d') with (tbl TEdge d'). rewrite H by discriminate. reflexivity.
Qed.

Section One.
Context (F : SE -> Prop) (base : bytes -> Prop) (d0 : db) (Hd0 : fair base d0) (h : handle k).
Context (ns : list (I * NP)) (es : list (T * EP)).
Context (Hns : map (vertex_val (SE := SE) cn) (t_node d0) = map Ok ns)
        (Hes : map (edge_val (SE := SE) ce d0 SPO) (idx SPO d0) = map Ok es).

Definition ends (Q : db -> Prop) (rh : result (lr_error err err) unit * handle k) (x : db) : Prop :=
  match fst rh with
  | Ok _ => Q x
  | Err (LeftE e) => blame F e
  | Err (RightE e) => exists y, F y /\ e = SledError y
  end.

(** The two loops one after the other. *)
Lemma wp_both (R Q : db -> Prop) (fn : NP -> NP) (fe : EP -> EP) (nbody : I -> NP -> PR unit)
    (ebody : T -> EP -> handle k -> P (result err unit * handle k)) (hs : nat -> handle k) (us : nat -> bytes -> Prop)
    (mid : nat -> db -> T -> EP -> db -> Prop) (cuts cuts' : list bytes) :
  (forall d i p, fair base d -> nod d i = Some p ->
     wp F (fun x => x = d \/ exists b, de cn b = Ok (fn p) /\ x = d_put_node i b d)
       (fun r x => match r with
          | Ok _ => exists b, de cn b = Ok (fn p) /\ x = d_put_node i b d
          | Err e => blame F e
          end) (nbody i p) d) ->
  (forall c d t e, c < length es -> fair (us c) d -> view SPO d t = Some e ->
     wp F (mid c d t e)
       (fun rh x => match fst rh with
          | Ok _ => snd rh = hs (S c) /\ exists r b, ~ us c r /\ (forall x, us c x \/ x = r -> us (S c) x) /\
              de ce b = Ok (fe e) /\ x = d_set_edge t r b d
          | Err e => blame F e
          end) (ebody t e (hs c)) d) ->
  hs 0 = h -> (forall x, base x -> us 0 x) ->
  (forall dn td h' d, Jn cn ce base d0 ns fn h dn td h' d -> R d) ->
  (forall N, updated fn ns N (nod d0) ->
     forall dn td h' d, Je cn ce d0 es fe hs us N dn td h' d -> R d) ->
  (forall N, updated fn ns N (nod d0) ->
     forall dn t e td h' d x, Je cn ce d0 es fe hs us N dn ((t, e) :: td) h' d -> mid (length dn) d t e x -> R x) ->
  (forall N, updated fn ns N (nod d0) -> forall h' d, Je cn ce d0 es fe hs us N es [] h' d -> Q d) ->
  wp F R (ends Q)
    (loop_both cn ce (fun ip h => and_handle h (nbody (fst ip) (snd ip))) (fun te h => ebody (fst te) (snd te) h) cuts cuts' h) d0.
Proof.
  intros Hnb Heb Hh Hus HRn HRe Hmid HQ. unfold loop_both. apply wp_bind.
  eapply wp_mono; [| |apply (wp_nodes cn ce F R base d0 Hd0 ns Hns fn nbody h Hnb HRn cuts)]; auto.
  intros [r h1] d1 R1 H1. unfold loop_end in H1. cbn [fst snd] in H1 |- *.
  destruct r as [[]|e]; [|split; auto].
  destruct H1 as (_ & -> & F1 & Hu & Ht & _). destruct (view_tables d0 d1 Ht) as [Hv Hi].
  eapply wp_mono; [| |apply (wp_edges cn ce F R base d0 Hd0 es Hes fe hs us (nod d1) ebody mid Heb (HRe _ Hu) (Hmid _ Hu) cuts')]; auto.
  - intros [r h2] x _ Hx. unfold loop_end in Hx. unfold ends. cbn [fst snd] in *.
    destruct r as [[]|[e|e]]; auto. eapply HQ; eauto.
  - split; auto. split; [symmetry; exact Hh|]. split; [eapply fair_mono; [exact Hus|exact F1]|].
    split; [intros o; apply updated_nil; auto|]. split; auto.
    rewrite Hi. eapply es_keys; eauto.
Qed.

Let m := length es.

Lemma wp_extend_self cuts cuts' : NoDup (ukeys h m) -> (forall x, In x (ukeys h m) -> ~ base x) ->
  wp F (fun x => fair (plus_keys base (ukeys h m)) x /\ (forall i, nod x i = nod d0 i) /\
          forall o u, view o x u = view o d0 u \/ (view SPO d0 u <> None /\ view o x u = view SPO d0 u))
    (ends (fun x => forall o u, view o x u = match view SPO d0 u with Some e => Some e | None => view o d0 u end))
    (s_extend_self cn ce cuts cuts' h) d0.
Proof.
  intros Hnd Hb. unfold s_extend_self.
  pose proof (ns_in cn ce base d0 Hd0 ns Hns) as Hn. pose proof (es_in cn ce base d0 Hd0 es Hes) as He.
  assert (forall x, base x -> plus_keys base (ukeys h m) x) as Hp by (intros x; left; auto).
  assert (forall c x, c <= m -> used base h 0 c x -> plus_keys base (ukeys h m) x) as Hu.
  { intros c x Hc Hx. apply (used_mono base h 0 m Hb 0 c 0 m) in Hx; [|lia|lia].
    destruct Hx as [Hx|[[]|Hx]]; [left|right]; auto. }
  assert (forall N, updated (fun p => p) ns N (nod d0) -> forall i, N i = nod d0 i) as HN.
  { intros N HN. apply (updated_id id_eq_dec _ _ _ HN). intros i p. apply Hn. }
  assert (forall dn td, dn ++ td = es -> forall o f, updated (fun e => e) dn f (view o d0) ->
    forall u, f u = view o d0 u \/ (view SPO d0 u <> None /\ f u = view SPO d0 u)) as HV.
  { intros dn td E o f [A1 A2] u. destruct (in_dec triple_eq_dec u (map fst dn)) as [Hin|Hin]; auto.
    right. apply in_map_iff in Hin. destruct Hin as ([u' e] & Eu & Hin). cbn [fst] in Eu. subst u'.
    rewrite (A1 _ _ Hin). assert (view SPO d0 u = Some e) as -> by (apply He; rewrite <- E; apply in_app_iff; auto).
    split; congruence. }
  apply (wp_both _ _ (fun p => p) (fun e => e) (fun i p => s_extend_node cn i p) (fun t e h => s_extend_edge ce t e h)
    (fun c => at_ h 0 c) (fun c => used base h 0 c) (fun c => midx (fun x => used base h 0 c x \/ x = next_ulid (at_ h 0 c)))).
  - intros d i p Hf _. now apply (wp_extend_node_at F base).
  - intros c d t e Hc Hf _.
    assert (~ used base h 0 c (next_ulid (at_ h 0 c))) as Nr by (apply (fresh_ulid base h 0 m); auto).
    eapply wp_mono; [| |apply (wp_extend_edge_at F (used base h 0 c) t e (at_ h 0 c) d Hf Nr)]; auto.
    intros [r h'] x _ Hr. cbn [fst snd] in *. destruct r as [[]|]; auto. destruct Hr as (-> & b & Hbb & ->).
    split; [apply at_ulid|]. exists (next_ulid (at_ h 0 c)), b. split; auto. split; auto. intros x. apply used_ulid.
  - apply at_00.
  - intros x Hx. now apply used_00.
  - intros dn td h' d (E & _ & Hf & Hup & Ht & _). split; [eapply fair_mono; eauto|].
    destruct (view_tables d0 d Ht) as [Hv _]. split; [|intros o u; left; apply Hv].
    apply (updated_id id_eq_dec _ _ _ Hup). intros i p Hin. apply Hn. rewrite <- E. apply in_app_iff. auto.
  - intros N HN' dn td h' d (E & _ & Hf & Hup & HNi & _).
    split; [eapply fair_mono; [|exact Hf]; intros x; apply Hu; unfold m; rewrite <- E, app_length; lia|].
    split; [intros i; rewrite HNi; now apply HN|]. intros o. eapply HV; eauto.
  - intros N HN' dn t e td h' d x HJ (Hf & Hni & Hm).
    pose proof (Je_view cn ce base d0 Hd0 es Hes (fun e => e) _ _ _ _ _ _ _ _ _ HJ) as Hv.
    destruct HJ as (E & _ & _ & Hup & HNi & _).
    split; [eapply fair_mono; [|exact Hf]; intros y Hy; apply used_ulid in Hy; revert Hy; apply Hu; unfold m; rewrite <- E, app_length; simpl; lia|].
    split; [intros i; rewrite Hni, HNi; now apply HN|]. intros o u.
    pose proof (HV _ _ E o _ (Hup o) u) as H0. destruct (Hm o) as [->| ->]; auto.
    destruct (triple_eq_dec u t) as [->|]; auto. right.
    assert (view SPO d0 t = Some e) as -> by (apply He; rewrite <- E; apply in_app_iff; simpl; auto). split; congruence.
  - intros N HN' h' d (_ & _ & _ & Hup & _) o u. destruct (Hup o) as [A1 A2].
    destruct (view SPO d0 u) as [e|] eqn:Ev; [apply A1, He; exact Ev|].
    apply A2. intros Hin. apply in_map_iff in Hin. destruct Hin as ([u' e] & Eu & Hin). cbn [fst] in Eu. subst u'.
    apply He in Hin. congruence.
Qed.

Context (mn : NP -> NP -> NP) (me : EP -> EP -> EP).

(** A first part of the vertices and then of the edges are merged with themselves. *)
Definition twice (ns1 : list (I * NP)) (es1 : list (T * EP)) (x : db) : Prop :=
  updated (fun p => mn p p) ns1 (nod x) (nod d0) /\
  forall o, updated (fun e => me e e) es1 (view o x) (view o d0).

Lemma wp_merge_self cuts cuts' : NoDup (gkeys h m) -> (forall x, In x (gkeys h m) -> ~ base x) ->
  wp F (fun x => fair (plus_keys base (gkeys h m)) x /\
          exists ns1 ns2 es1 es2, ns = ns1 ++ ns2 /\ es = es1 ++ es2 /\ (es1 = [] \/ ns2 = []) /\ twice ns1 es1 x)
    (ends (twice ns es)) (s_merge_self cn ce mn me cuts cuts' h) d0.
Proof.
  intros Hnd Hb. unfold s_merge_self.
  assert (NoDup (gkeys h m ++ ukeys h 0)) as Hnd' by (unfold ukeys; simpl; rewrite app_nil_r; auto).
  assert (forall x, In x (gkeys h m ++ ukeys h 0) -> ~ base x) as Hb' by (unfold ukeys; simpl; rewrite app_nil_r; auto).
  assert (forall x, base x -> plus_keys base (gkeys h m) x) as Hp by (intros x; left; auto).
  assert (forall c x, c <= m -> used base h c 0 x -> plus_keys base (gkeys h m) x) as Hu.
  { intros c x Hc Hx. apply (used_mono base h m 0 Hb' c 0 m 0) in Hx; [|lia|lia].
    destruct Hx as [Hx|[Hx|[]]]; [left|right]; auto. }
  assert (forall N dn td h' d, updated (fun p => mn p p) ns N (nod d0) ->
    Je cn ce d0 es (fun e => me e e) (fun c => at_ h c 0) (fun c => used base h c 0) N dn td h' d ->
    fair (plus_keys base (gkeys h m)) d /\
    exists ns1 ns2 es1 es2, ns = ns1 ++ ns2 /\ es = es1 ++ es2 /\ (es1 = [] \/ ns2 = []) /\ twice ns1 es1 d) as HJ.
  { intros N dn td h' d HN (E & _ & Hf & Hup & HNi & _).
    split; [eapply fair_mono; [|exact Hf]; intros x; apply Hu; unfold m; rewrite <- E, app_length; lia|].
    exists ns, [], dn, td. split; [now rewrite app_nil_r|]. split; auto. split; auto. split; auto.
    eapply updated_ext; [exact HNi|exact HN]. }
  apply (wp_both _ _ (fun p => mn p p) (fun e => me e e) (fun i p => s_merge_node cn mn i p) (fun t e h => s_merge_edge ce me t e h)
    (fun c => at_ h c 0) (fun c => used base h c 0)
    (fun c d t e x => x = d \/ exists b, de ce b = Ok (me e e) /\ x = d_set_edge t (next_key (at_ h c 0)) b d)).
  - intros d i p Hf Hn. now apply (wp_merge_node_at mn F base).
  - intros c d t e Hc Hf Hv.
    assert (~ used base h c 0 (next_key (at_ h c 0))) as Nr by (apply (fresh_gen base h m 0); auto).
    eapply wp_mono; [| |apply (wp_merge_edge_at me F (used base h c 0) t e (at_ h c 0) d Hf Nr Hv)]; auto.
    intros [r h'] x _ Hr. cbn [fst snd] in *. destruct r as [[]|]; auto. destruct Hr as (-> & b & Hbb & ->).
    split; [apply at_gen|]. exists (next_key (at_ h c 0)), b. split; auto. split; auto. intros x. apply used_gen.
  - apply at_00.
  - intros x Hx. now apply used_00.
  - intros dn td h' d (E & _ & Hf & Hup & Ht & _). split; [eapply fair_mono; eauto|].
    destruct (view_tables d0 d Ht) as [Hv _].
    exists dn, td, [], es. split; auto. split; auto. split; auto. split; auto. intros o. apply updated_nil. apply Hv.
  - intros N HN dn td h' d. now apply HJ.
  - intros N HN dn t e td h' d x H1 [->|(b & Hbb & ->)]; [eapply HJ; eauto|].
    pose proof (Je_view cn ce base d0 Hd0 es Hes _ _ _ _ _ _ _ _ _ _ H1) as Hv.
    assert (length dn < m) as Hl by (destruct H1 as (E & _); unfold m; rewrite <- E, app_length; simpl; lia).
    eapply (HJ N); [exact HN|]. eapply (set_edge_J cn ce (fun _ => True) base d0 Hd0 es Hes); [exact H1| | |exact Hbb].
    + apply (fresh_gen base h m 0); auto.
    + intros x. apply used_gen.
  - intros N HN h' d (_ & _ & _ & Hup & HNi & _). split; auto. eapply updated_ext; [exact HNi|exact HN].
Qed.
End One.

(** ** Any database *)
(** [x] is as [d] shows [g], but for [K]. *)
Lemma shows_view U K d (g : G) : fair U d ->
  (shows_but SE cn ce K d g <->
   (forall i, nod d i = g_node g i) /\ (forall u, view SPO d u = g_edge g u) /\
   forall o, (forall u, view o d u <> None -> g_edge g u <> None) /\
     (forall u, ~ In u K -> view o d u = g_edge g u)).
Proof.
  intros [F1 F2].
  assert (lists_nodes (now SE (s_iter_vertices cn) d) (nod d)) as Ln.
  { rewrite (rds_now _ _ _ (rds_iter_vertices cn never d)). now apply fair_vertices. }
  assert (forall o, lists_edges o (now SE (s_iter_edges ce o) d) (view o d)) as Le.
  { intros o. rewrite (rds_now _ _ _ (rds_iter_edges ce never d o)). eapply fair_edges; eauto. }
  split.
  - intros (H1 & H2 & H3). split; [|split].
    + exact (lists_fun _ _ _ _ Ln H1).
    + exact (lists_fun _ _ _ _ (Le SPO) H2).
    + intros o. destruct (H3 o) as (f & Lf & A & B). pose proof (lists_fun _ _ _ _ (Le o) Lf) as Ef.
      split; intros u; rewrite Ef; auto.
  - intros (H1 & H2 & H3). split; [|split].
    + eapply lists_ext; [exact H1|exact Ln].
    + eapply lists_ext; [exact H2|apply Le].
    + intros o. exists (view o d). split; auto.
Qed.

Lemma shows_none d (g : G) : shows_but SE cn ce [] d g <-> sled_shows SE cn ce d g.
Proof.
  split.
  - intros (H1 & _ & H3). split; auto. intros o. destruct (H3 o) as (f & Lf & _ & B).
    eapply lists_ext; [|exact Lf]. intros u. apply B. auto.
  - intros (H1 & H2). split; auto. split; auto. intros o. exists (g_edge g). split; [apply H2|]. auto.
Qed.

Lemma fair_listed U d : fair U d -> exists (ns : list (I * NP)) (es : list (T * EP)),
  map (vertex_val (SE := SE) cn) (t_node d) = map Ok ns /\ map (edge_val (SE := SE) ce d SPO) (idx SPO d) = map Ok es /\
  now SE (s_iter_vertices cn) d = map Ok ns /\ now SE (s_iter_edges ce SPO) d = map Ok es.
Proof.
  intros [F1 F2]. destruct (fair_vertices (SE := SE) cn d F1) as (ns & E1 & _). destruct (fair_edges (SE := SE) ce U d SPO F2) as (es & E2 & _).
  exists ns, es. split; auto. split; auto.
  rewrite (rds_now _ _ _ (rds_iter_vertices cn never d)), (rds_now _ _ _ (rds_iter_edges ce never d SPO)). auto.
Qed.

Lemma ends_blame F F' Q rh x : (forall y, F y -> F' y) -> ends F Q rh x -> ends F' Q rh x.
Proof.
  intros H. unfold ends. destruct (fst rh) as [|[e|e]]; auto.
  - unfold SledOps.blame. destruct e; auto.
  - intros (y & Hy & ->). eauto.
Qed.

Definition near_self U K (g : G) (x : db) : Prop := fair U x /\ shows_but SE cn ce K x g.

(** One copy, from any database. *)
Lemma self_once F base d h K (g : G) cuts cuts' :
  let m := length (now SE (s_iter_edges (k := k) ce SPO) d) in
  fair base d -> NoDup (self_keys m h) -> (forall x, In x (self_keys m h) -> ~ base x) -> shows_but SE cn ce K d g ->
  wp F (fun x => near_self (plus_keys base (self_keys m h)) K g x)
    (ends F (fun x => sled_shows SE cn ce x g)) (s_extend_self cn ce cuts cuts' h) d.
Proof.
  intros m Hf Hnd Hb Hs. destruct (fair_listed base d Hf) as (ns & es & E1 & E2 & E3 & E4).
  assert (m = length es) as Em by (unfold m; rewrite E4; apply map_length). clearbody m. subst m.
  pose proof (wp_extend_self F base d Hf h ns es E1 E2 cuts cuts' Hnd Hb) as W.
  apply (shows_view base K d g Hf) in Hs. destruct Hs as (S1 & S2 & S3).
  eapply wp_mono; [| |exact W].
  - intros x (Hx & Hn & Hv). split; auto. apply (shows_view _ _ _ _ Hx).
    split; [intros i; rewrite Hn; auto|]. split.
    + intros u. destruct (Hv SPO u) as [->|[_ ->]]; auto.
    + intros o. destruct (S3 o) as [A B].
      split; intros u; destruct (Hv o u) as [->|[_ ->]]; auto; rewrite S2; auto.
  - intros rh x (Hx & Hn & _) He. unfold ends in *. destruct (fst rh) as [[]|[e|e]]; auto.
    apply shows_none. apply (shows_view _ _ _ _ Hx). split; [intros i; rewrite Hn; auto|].
    assert (forall o u, view o x u = g_edge g u) as Hg.
    { intros o u. rewrite He, S2. destruct (g_edge g u) eqn:Eg; auto.
      destruct (view o d u) eqn:Ev; auto. exfalso. apply (proj1 (S3 o) u); congruence. }
    split; [apply Hg|]. intros o. split; intros u; rewrite Hg; auto.
Qed.

(** How many edges there are does not change. *)
Lemma lists_length {X V E1 E2} (lt : X -> X -> Prop) (l1 : list (result E1 (X * V))) (l2 : list (result E2 (X * V))) f :
  (forall a, ~ lt a a) -> (forall a b c, lt a b -> lt b c -> lt a c) ->
  lists lt l1 f -> lists lt l2 f -> length l1 = length l2.
Proof.
  intros Ir Tr H1 H2. destruct (lists_both lt l1 l2 f Ir Tr H1 H2) as (xs & -> & ->). now rewrite !map_length.
Qed.

Lemma same_count K d K' x (g : G) : shows_but SE cn ce K d g -> shows_but SE cn ce K' x g ->
  length (now SE (s_iter_edges (k := k) ce SPO) x) = length (now SE (s_iter_edges (k := k) ce SPO) d).
Proof.
  intros (_ & H1 & _) (_ & H2 & _). eapply lists_length; [| |exact H2|exact H1].
  - apply edge_lt_irr.
  - apply edge_lt_tr.
Qed.

Lemma self_many (tries : list (self_try (k := k) (SE := SE))) : forall base d K (g : G),
  let m := length (now SE (s_iter_edges (k := k) ce SPO) d) in
  let keys := flat_map (fun f => self_keys m (sf_handle f)) tries in
  fair base d -> NoDup keys -> (forall x, In x keys -> ~ base x) -> shows_but SE cn ce K d g ->
  near_self (plus_keys base keys) K g (self_tries cn ce tries d).
Proof.
  induction tries as [|f tries IH]; intros base d K g m keys Hf Hnd Hb Hs; unfold keys, self_tries in *; cbn [flat_map fold_left] in *.
  - split; auto. eapply fair_mono; [|exact Hf]. intros x; left; auto.
  - apply NoDup_app_iff in Hnd. destruct Hnd as (N1 & N2 & N3).
    assert (forall x, In x (self_keys m (sf_handle f)) -> ~ base x) as Hb1 by (intros x Hx; apply Hb, in_app_iff; auto).
    pose proof (self_once (fun _ => True) base d (sf_handle f) K g (sf_cuts f) (sf_cuts' f) Hf N1 Hb1 Hs) as W.
    pose proof (wp_crash _ _ _ _ (sf_dies f) (sf_faults f) d (allowed_all _) W) as [Hf' Hs']. fold m in Hf'.
    set (x := crash (sf_dies f) _ _ d) in *.
    pose proof (same_count _ _ _ _ _ Hs Hs') as Em. fold m in Em.
    pose proof (IH (plus_keys base (self_keys m (sf_handle f))) x K g) as H. cbv zeta in H. rewrite Em in H.
    destruct H as [H1 H2]; auto.
    { intros y Hy [Hy'|Hy']; [apply (Hb y); auto; apply in_app_iff; auto|now apply (N3 y)]. }
    split; auto. eapply fair_mono; [|exact H1]. intros y [[Hy|Hy]|Hy]; [left; auto|right|right]; apply in_app_iff; auto.
Qed.

(** ** merge *)
Section Doubled.
Context (mn : NP -> NP -> NP) (me : EP -> EP -> EP) {E : Type}.
Notation op := (op k NP EP E).

Definition merge_nodes (ns : list (I * NP)) : list op := map (fun ip => OMergeNode (fst ip) (snd ip)) ns.
Definition merge_edges (es : list (T * EP)) : list op := map (fun te => OMergeEdge (fst te) (snd te)) es.

Lemma history_snoc (l : list op) o (g : G) : spec_history mn me (l ++ [o]) g = spec_apply mn me o (spec_history mn me l g).
Proof. unfold spec_history. now rewrite fold_left_app. Qed.

Lemma doubled_nodes (g : G) ns : NoDup (map fst ns) -> (forall i p, In (i, p) ns -> g_node g i = Some p) ->
  updated (fun p => mn p p) ns (g_node (spec_history mn me (merge_nodes ns) g)) (g_node g) /\
  forall u, g_edge (spec_history mn me (merge_nodes ns) g) u = g_edge g u.
Proof.
  induction ns as [|[i p] ns IH] using rev_ind; intros Hd Hi.
  - split; auto. apply updated_nil. auto.
  - unfold merge_nodes in *. rewrite map_app in *. cbn [map fst] in Hd.
    apply NoDup_app_iff in Hd. destruct Hd as (D1 & _ & D3).
    destruct IH as [IH1 IH2]; auto. { intros j q Hj. apply Hi, in_app_iff. auto. }
    cbn [map fst snd]. rewrite history_snoc. cbn [spec_apply]. set (g1 := spec_history mn me _ g) in *.
    assert (~ In i (map fst ns)) as Ni by (intros Hn; apply (D3 i); simpl; auto).
    split; [|exact IH2].
    eapply updated_more; [exact IH1|exact Ni| |].
    + simpl. destruct (id_eq_dec i i) as [_|]; [|contradiction]. destruct IH1 as [_ IH1]. rewrite (IH1 i Ni).
      rewrite (Hi i p) by (apply in_app_iff; simpl; auto). reflexivity.
    + intros j Nj. simpl. destruct (id_eq_dec j i); congruence.
Qed.

Lemma doubled_edges (g : G) es : NoDup (map fst es) -> (forall t e, In (t, e) es -> g_edge g t = Some e) ->
  updated (fun e => me e e) es (g_edge (spec_history mn me (merge_edges es) g)) (g_edge g) /\
  forall i, g_node (spec_history mn me (merge_edges es) g) i = g_node g i.
Proof.
  induction es as [|[t e] es IH] using rev_ind; intros Hd Hi.
  - split; auto. apply updated_nil. auto.
  - unfold merge_edges in *. rewrite map_app in *. cbn [map fst] in Hd.
    apply NoDup_app_iff in Hd. destruct Hd as (D1 & _ & D3).
    destruct IH as [IH1 IH2]; auto. { intros j q Hj. apply Hi, in_app_iff. auto. }
    cbn [map fst snd]. rewrite history_snoc. cbn [spec_apply]. set (g1 := spec_history mn me _ g) in *.
    assert (~ In t (map fst es)) as Ni by (intros Hn; apply (D3 t); simpl; auto).
    split; [|exact IH2].
    eapply updated_more; [exact IH1|exact Ni| |].
    + simpl. destruct (triple_eq_dec t t) as [_|]; [|contradiction]. destruct IH1 as [_ IH1]. rewrite (IH1 t Ni).
      rewrite (Hi t e) by (apply in_app_iff; simpl; auto). reflexivity.
    + intros j Nj. simpl. destruct (triple_eq_dec j t); congruence.
Qed.

Lemma updated_same {X V} (eq_dec : forall a b : X, {a = b} + {a <> b}) (f : V -> V) dn (a b old : X -> option V) :
  updated f dn a old -> updated f dn b old -> forall x, a x = b x.
Proof.
  intros [A1 A2] [B1 B2] x. destruct (in_dec eq_dec x (map fst dn)) as [Hin|Hin].
  - apply in_map_iff in Hin. destruct Hin as ([y v] & Ey & Hin). cbn [fst] in Ey. subst y.
    now rewrite (A1 _ _ Hin), (B1 _ _ Hin).
  - now rewrite A2, B2.
Qed.

Lemma in_prefix {X V} (l1 l2 : list (X * V)) : NoDup (map fst (l1 ++ l2)) -> NoDup (map fst l1).
Proof. rewrite map_app. intros H. apply NoDup_app_iff in H. apply H. Qed.

(** One merge, from any database. *)
Lemma merge_once F base d h K (g : G) cuts cuts' ns es :
  fair base d -> now SE (s_iter_vertices cn) d = map Ok ns -> now SE (s_iter_edges ce SPO) d = map Ok es ->
  NoDup (gkeys h (length es)) -> (forall x, In x (gkeys h (length es)) -> ~ base x) -> shows_but SE cn ce K d g ->
  wp F (fun x => exists ns1 ns2 es1 es2, ns = ns1 ++ ns2 /\ es = es1 ++ es2 /\ (es1 = [] \/ ns2 = []) /\
          shows_but SE cn ce K x (spec_history mn me (merge_nodes ns1 ++ merge_edges es1) g))
    (ends F (fun x => sled_shows SE cn ce x (g_merged mn me g g))) (s_merge_self cn ce mn me cuts cuts' h) d.
Proof.
  intros Hf E3 E4 Hnd Hb Hs.
  assert (map (vertex_val (SE := SE) cn) (t_node d) = map Ok ns) as E1
    by (rewrite <- E3; symmetry; apply (rds_now _ _ _ (rds_iter_vertices cn never d))).
  assert (map (edge_val (SE := SE) ce d SPO) (idx SPO d) = map Ok es) as E2
    by (rewrite <- E4; symmetry; apply (rds_now _ _ _ (rds_iter_edges ce never d SPO))).
  pose proof (ns_in cn ce base d Hf ns E1) as Hn. pose proof (es_in cn ce base d Hf es E2) as He.
  pose proof (ns_nodup cn ce base d Hf ns E1) as Dn. pose proof (es_nodup cn ce base d Hf es E2) as De.
  pose proof (wp_merge_self F base d Hf h ns es E1 E2 mn me cuts cuts' Hnd Hb) as W.
  apply (shows_view base K d g Hf) in Hs. destruct Hs as (S1 & S2 & S3).
  assert (forall ns1 ns2 es1 es2 x, ns = ns1 ++ ns2 -> es = es1 ++ es2 -> fair (plus_keys base (gkeys h (length es))) x ->
    twice d mn me ns1 es1 x -> shows_but SE cn ce K x (spec_history mn me (merge_nodes ns1 ++ merge_edges es1) g)) as Hshow.
  { intros ns1 ns2 es1 es2 x En Ee Hx [Tn Te]. apply (shows_view _ _ _ _ Hx).
    assert (NoDup (map fst ns1)) as Dn1 by (rewrite En in Dn; eapply in_prefix; eauto).
    assert (NoDup (map fst es1)) as De1 by (rewrite Ee in De; eapply in_prefix; eauto).
    assert (forall t e, In (t, e) es1 -> g_edge g t = Some e) as He1.
    { intros t e Hin. rewrite <- S2. apply He. rewrite Ee. apply in_app_iff. auto. }
    destruct (doubled_nodes g ns1 Dn1) as [G1 G2].
    { intros i p Hin. rewrite <- S1. apply Hn. rewrite En. apply in_app_iff. auto. }
    unfold spec_history in *. rewrite fold_left_app.
    set (g1 := fold_left _ (merge_nodes ns1) g) in *.
    destruct (doubled_edges g1 es1 De1) as [G3 G4]; [intros t e Hin; rewrite G2; auto|].
    unfold spec_history in *. set (g2 := fold_left _ (merge_edges es1) g1) in *.
    assert (updated (fun e => me e e) es1 (g_edge g2) (g_edge g)) as G5.
    { destruct G3 as [A B]. split; auto. intros u Hu. rewrite B; auto. }
    split; [|split].
    - intros i. rewrite G4. apply (updated_same id_eq_dec _ _ _ _ _ Tn).
      destruct G1 as [A B]. split; auto. intros j Hj. rewrite B, S1; auto.
    - intros u. apply (updated_same triple_eq_dec _ _ _ _ _ (Te SPO)).
      destruct G5 as [A B]. split; auto. intros j Hj. rewrite B, S2; auto.
    - intros o. destruct (S3 o) as [A B]. destruct (Te o) as [T1 T2]. destruct G5 as [A5 B5]. split; intros u.
      + destruct (in_dec triple_eq_dec u (map fst es1)) as [Hin|Hin].
        * apply in_map_iff in Hin. destruct Hin as ([u' e] & Eu & Hin). cbn [fst] in Eu. subst u'.
          rewrite (A5 _ _ Hin). congruence.
        * rewrite T2, B5 by auto. apply A.
      + intros Nk. destruct (in_dec triple_eq_dec u (map fst es1)) as [Hin|Hin].
        * apply in_map_iff in Hin. destruct Hin as ([u' e] & Eu & Hin). cbn [fst] in Eu. subst u'.
          now rewrite (A5 _ _ Hin), (T1 _ _ Hin).
        * rewrite T2, B5 by auto. auto. }
  eapply wp_mono; [| |exact W].
  - intros x (Hx & ns1 & ns2 & es1 & es2 & En & Ee & Ho & Ht). exists ns1, ns2, es1, es2. split; auto. split; auto.
    split; auto. eapply Hshow; eauto.
  - intros rh x (Hx & _) Hend. unfold ends in *. destruct (fst rh) as [[]|[e|e]]; auto.
    destruct Hend as [[Tn1 Tn2] Te]. apply shows_none. apply (shows_view _ _ _ _ Hx).
    assert (forall o u, view o x u = g_edge (g_merged mn me g g) u) as Hg.
    { intros o u. cbn [g_merged g_edge]. destruct (Te o) as [T1 T2]. destruct (g_edge g u) as [e|] eqn:Eu; cbn [pointwise merged].
      - apply T1, He. now rewrite S2.
      - rewrite T2.
        + destruct (view o d u) eqn:Ev; auto. exfalso. apply (proj1 (S3 o) u); congruence.
        + intros Hin. apply in_map_iff in Hin. destruct Hin as ([u' e] & Eu' & Hin). cbn [fst] in Eu'. subst u'.
          apply He in Hin. rewrite S2 in Hin. congruence. }
    split; [|split].
    + intros i. cbn [g_merged g_node]. destruct (g_node g i) as [p|] eqn:Ei; cbn [pointwise merged].
      * apply Tn1, Hn. now rewrite S1.
      * rewrite Tn2; [now rewrite S1|]. intros Hin. apply in_map_iff in Hin. destruct Hin as ([i' p] & Ei' & Hin).
        cbn [fst] in Ei'. subst i'. apply Hn in Hin. rewrite S1 in Hin. congruence.
    + apply Hg.
    + intros o. split; intros u; rewrite Hg; auto.
Qed.
End Doubled.
End Copy.

Section Lives.
Context {k : idkind} {NP EP SE BE E : Type} (cn : codec BE NP) (ce : codec BE EP).
Context (mn : NP -> NP -> NP) (me : EP -> EP -> EP).
Notation G := (graph k NP EP).
Notation life := (life (k := k) (NP := NP) (EP := EP) (SE := SE) (E := E)).

Lemma lives_fair (ls : list life) : codec_ok cn -> codec_ok ce -> NoDup (life_keys ls) ->
  fair (k := k) cn ce (plus_keys nothing (life_keys ls)) (lives cn ce mn me ls db_new).
Proof.
  intros Hn He Hd. destruct (good_new (k := k) cn ce nothing) as [G0 _].
  apply fair_lives; auto.
Qed.

Theorem extend_self_top (ls : list life) (tries : list (self_try (k := k) (SE := SE))) (h : handle k) cuts cuts' faults n K (g : G) :
  codec_ok cn -> codec_ok ce ->
  let d := lives cn ce mn me ls db_new in
  let m := length (now SE (s_iter_edges (k := k) ce SPO) d) in
  NoDup (life_keys ls ++ flat_map (fun f => self_keys m (sf_handle f)) tries ++ self_keys m h) ->
  shows_but SE cn ce K d g ->
  let d1 := self_tries cn ce tries d in
  let p := s_extend_self (SE := SE) cn ce cuts cuts' h in
  shows_but SE cn ce K (crash n p faults d1) g /\
  shows_but SE cn ce K (db_of p faults d1) g /\
  match fst (ret_of p faults d1) with
  | Ok _ => sled_shows SE cn ce (db_of p faults d1) g
  | Err (LeftE e) => caused (E := E) cn ce faults (Err (LeftE e))
  | Err (RightE (SledError x)) => In (Some x) faults
  | Err (RightE _) => False
  end.
Proof.
  intros Hn He d m Hnd Hs d1 p. apply NoDup_app_iff in Hnd. destruct Hnd as (N1 & N2 & N3).
  apply NoDup_app_iff in N2. destruct N2 as (N4 & N5 & N6).
  pose proof (lives_fair ls Hn He N1) as Hf. fold d in Hf.
  set (base := plus_keys nothing (life_keys ls)) in *.
  assert (forall x, base x -> In x (life_keys ls)) as Hbl by (intros x [[]|Hx]; auto).
  destruct (self_many cn ce Hn He tries base d K g Hf N4) as [Hf1 Hs1]; auto.
  { intros x Hx Hy. apply (N3 x); [now apply Hbl|]. apply in_app_iff. auto. }
  fold m in Hf1. fold d1 in Hf1, Hs1.
  pose proof (same_count cn ce _ _ _ _ _ Hs Hs1) as Em. fold m in Em.
  pose proof (fun F => self_once (SE := SE) cn ce Hn He F _ d1 h K g cuts cuts' Hf1) as W. cbv zeta in W. rewrite Em in W.
  assert (forall F, wp F (near_self (SE := SE) cn ce (plus_keys (plus_keys base (flat_map (fun f => self_keys m (sf_handle f)) tries)) (self_keys m h)) K g)
    (ends cn ce F (fun x => sled_shows SE cn ce x g)) p d1) as W'.
  { intros F. apply W; auto. intros x Hx [Hy|Hy].
    - apply (N3 x); [now apply Hbl|]. apply in_app_iff. auto.
    - now apply (N6 x). }
  clear W. split; [|split].
  - apply (wp_crash _ _ _ _ n faults d1 (allowed_all _) (W' (fun _ => True))).
  - apply (wp_exec _ _ _ _ faults d1 (allowed_all _) (W' (fun _ => True))).
  - destruct (wp_exec (fun x => In (Some x) faults) _ _ _ faults d1 (fun _ H => H) (W' _)) as (_ & H & _).
    unfold ends in H. destruct (fst (ret_of p faults d1)) as [[]|[e|e]]; auto.
    destruct H as (y & Hy & ->). exact Hy.
Qed.

Theorem merge_self_top (ls : list life) (h : handle k) cuts cuts' faults n K (g : G) :
  codec_ok cn -> codec_ok ce ->
  let d := lives cn ce mn me ls db_new in
  NoDup (life_keys ls ++ map to_be_bytes (next_ids (h_gen h) (length (now SE (s_iter_edges (k := k) ce SPO) d)))) ->
  shows_but SE cn ce K d g ->
  let p := s_merge_self (SE := SE) cn ce mn me cuts cuts' h in
  exists ns es, now SE (s_iter_vertices cn) d = map Ok ns /\ now SE (s_iter_edges ce SPO) d = map Ok es /\
  (forall x, x = crash n p faults d \/ x = db_of p faults d ->
     exists ns1 ns2 es1 es2, ns = ns1 ++ ns2 /\ es = es1 ++ es2 /\ (es1 = [] \/ ns2 = []) /\
       shows_but SE cn ce K x
         (spec_history (E := E) mn me (map (fun ip => OMergeNode (fst ip) (snd ip)) ns1 ++
                                       map (fun te => OMergeEdge (fst te) (snd te)) es1) g)) /\
  match fst (ret_of p faults d) with
  | Ok _ => sled_shows SE cn ce (db_of p faults d) (g_merged mn me g g)
  | Err (LeftE e) => caused (E := E) cn ce faults (Err (LeftE e))
  | Err (RightE (SledError x)) => In (Some x) faults
  | Err (RightE _) => False
  end.
Proof.
  intros Hn He d Hnd Hs p. apply NoDup_app_iff in Hnd. destruct Hnd as (N1 & N2 & N3).
  pose proof (lives_fair ls Hn He N1) as Hf. fold d in Hf.
  destruct (fair_listed (SE := SE) cn ce _ d Hf) as (ns & es & _ & _ & E3 & E4).
  exists ns, es. split; auto. split; auto. rewrite E4, map_length in N2, N3.
  pose proof (fun F => merge_once (SE := SE) cn ce Hn He mn me (E := E) F _ d h K g cuts cuts' ns es Hf E3 E4 N2) as W.
  assert (forall x, In x (gkeys h (length es)) -> ~ plus_keys nothing (life_keys ls) x) as Hb.
  { intros x Hx [[]|Hy]. now apply (N3 x). }
  split.
  - intros x [->| ->].
    + apply (wp_crash _ _ _ _ n faults d (allowed_all _) (W (fun _ => True) Hb Hs)).
    + apply (wp_exec _ _ _ _ faults d (allowed_all _) (W (fun _ => True) Hb Hs)).
  - destruct (wp_exec (fun x => In (Some x) faults) _ _ _ faults d (fun _ H => H) (W _ Hb Hs)) as (_ & H & _).
    unfold ends in H. change (s_merge_self cn ce mn me cuts cuts' h) with p in H.
    destruct (fst (ret_of p faults d)) as [[]|[e|e]]; auto.
    destruct H as (y & Hy & ->). exact Hy.
Qed.
End Lives.
