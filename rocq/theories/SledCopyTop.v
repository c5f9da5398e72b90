(** Copies of a sled store that is in use: into a memory store and into another database. *)
From Coq Require Import Arith NArith List Bool Sorted Lia.
From Verif Require Import Bytes BytesFacts OMap OMapFacts Core IdType IdTypeFacts Store Mem Spec
  CodecFacts ListFacts MemFacts MemSim History MemTop Prog ProgFacts Sled SledHistory SledTables
  SledLeaf SledLazy SledBeside SledReaders SledCopy SledCopyFacts.
Import ListNotations.

Section Graphs.
Context {k : idkind} {NP EP E : Type}.
Notation G := (graph k NP EP).
Notation T := (triple (Id k)).

Lemma before_error_in {A} (l : list (result E A)) a : In a (before_error l) -> In (Ok a) l.
Proof. induction l as [|[b|e] l IH]; simpl; intros []; subst; auto. Qed.
Lemma in_before_error {A} (l : list (result E A)) a : first_error l = None -> In (Ok a) l -> In a (before_error l).
Proof. induction l as [|[b|e] l IH]; simpl; intros Hf H; [tauto| |discriminate]. destruct H as [[= ->]|H]; auto. Qed.
Lemma first_error_in {A} (l : list (result E A)) e : first_error l = Some e -> In (Err e) l.
Proof. induction l as [|[b|e'] l IH]; simpl; intros [=]; subst; auto. Qed.

Lemma before_error_sorted {A B} (R : B -> B -> Prop) (f : A -> B) (l : list (result E A)) : (forall x, ~ R x x) ->
  StronglySorted R (map f (ok_items l)) -> NoDup (map f (before_error l)).
Proof.
  intros HR. induction l as [|[a|e] l IH]; intros Hs; [constructor| |constructor].
  change (ok_items (Ok a :: l)) with (a :: ok_items l) in Hs. cbn [map before_error] in *. inversion Hs; subst.
  constructor; [|auto]. intros Hin. apply in_map_iff in Hin. destruct Hin as (b & Eb & Hb).
  apply before_error_in in Hb. eapply Forall_forall in H2; [|apply in_map; apply ok_items_in; exact Hb].
  rewrite Eb in H2. exact (HR _ H2).
Qed.

(** One value for each key of a list put in, joined to what was there. *)
Lemma fold_keys {X A P : Type} (eq_dec : forall a b : A, {a = b} + {a <> b}) (get : X -> A -> option P) (c : P -> P -> P)
    (put : A -> P -> X -> X) (Hput : forall a p x b, get (put a p x) b = if eq_dec b a then Some (merged c (get x a) p) else get x b)
    (l : list (A * P)) : NoDup (map fst l) -> forall x a,
  (~ In a (map fst l) /\ get (fold_left (fun x ap => put (fst ap) (snd ap) x) l x) a = get x a) \/
  exists p, In (a, p) l /\ get (fold_left (fun x ap => put (fst ap) (snd ap) x) l x) a = Some (merged c (get x a) p).
Proof.
  induction l as [|[b q] l IH]; intros Hnd x a; simpl; [auto|]. inversion Hnd; subst.
  destruct (IH H2 (put b q x) a) as [[Hn E1]|(p & Hin & E1)]; rewrite Hput in E1.
  - destruct (eq_dec a b) as [->|N].
    + right. exists q. auto.
    + left. split; auto. intros [->|Hin]; auto.
  - destruct (eq_dec a b) as [->|N].
    + exfalso. apply H1. apply in_map_iff. exists (b, p). auto.
    + right. exists p. auto.
Qed.

Lemma fold_other {X A B P Q : Type} (get : X -> B -> option Q) (put : A -> P -> X -> X)
    (Hput : forall a p x b, get (put a p x) b = get x b) (l : list (A * P)) : forall x b,
  get (fold_left (fun x ap => put (fst ap) (snd ap) x) l x) b = get x b.
Proof. induction l as [|[a p] l IH]; intros x b; simpl; auto. now rewrite IH, Hput. Qed.

Context (mn : NP -> NP -> NP) (me : EP -> EP -> EP).
Context (fn : Id k -> NP -> G -> G) (fe : T -> EP -> G -> G).
Context (Hnn : forall i p g j, g_node (fn i p g) j = if id_eq_dec j i then Some (merged mn (g_node g i) p) else g_node g j).
Context (Hne : forall i p g t, g_edge (fn i p g) t = g_edge g t).
Context (Hee : forall t e g u, g_edge (fe t e g) u = if triple_eq_dec u t then Some (merged me (g_edge g t) e) else g_edge g u).
Context (Hen : forall t e g i, g_node (fe t e g) i = g_node g i).

Lemma bulk_sorted (s : source k NP EP E) (g : G) :
  StronglySorted id_lt (map fst (ok_items (src_nodes s))) -> StronglySorted (edge_lt SPO) (map fst (ok_items (src_edges s))) ->
  let g' := g_bulk fn fe s g in
  (forall i, g_node g' i = g_node g i \/ exists p, In (Ok (i, p)) (src_nodes s) /\ g_node g' i = Some (merged mn (g_node g i) p)) /\
  (forall t, g_edge g' t = g_edge g t \/ exists e, In (Ok (t, e)) (src_edges s) /\ g_edge g' t = Some (merged me (g_edge g t) e)) /\
  (bulk_error s = None ->
    (forall i p, In (Ok (i, p)) (src_nodes s) -> exists p', In (Ok (i, p')) (src_nodes s) /\ g_node g' i = Some (merged mn (g_node g i) p')) /\
    (forall t e, In (Ok (t, e)) (src_edges s) -> exists e', In (Ok (t, e')) (src_edges s) /\ g_edge g' t = Some (merged me (g_edge g t) e'))).
Proof.
  intros Sn Se. apply (before_error_sorted id_lt fst) in Sn; [|intros x; unfold id_lt; lia].
  apply (before_error_sorted (edge_lt SPO) fst) in Se; [|intros x Hx; exact (edge_lt_irr _ _ Hx)].
  set (g1 := fold_left (fun g ip => fn (fst ip) (snd ip) g) (before_error (src_nodes s)) g).
  pose proof (fun i => fold_keys id_eq_dec g_node mn fn Hnn _ Sn g i) as Kn. fold g1 in Kn.
  assert (forall t, g_edge g1 t = g_edge g t) as On by (intros t; apply (fold_other g_edge fn); auto).
  pose proof (fun t => fold_keys triple_eq_dec g_edge me fe Hee _ Se g1 t) as Ke.
  set (g2 := fold_left (fun g te => fe (fst te) (snd te) g) (before_error (src_edges s)) g1) in *.
  assert (forall i, g_node g2 i = g_node g1 i) as Oe by (intros i; apply (fold_other g_node fe); auto).
  intros g'. assert (g' = match first_error (src_nodes s) with Some _ => g1 | None => g2 end) as Eg' by reflexivity.
  assert (forall i, g_node g' i = g_node g1 i) as En by (intros i; rewrite Eg'; destruct (first_error _); auto).
  split; [|split].
  - intros i. rewrite En. destruct (Kn i) as [[_ ->]|(p & Hin & ->)]; auto. right. exists p. split; auto. now apply before_error_in.
  - intros t. rewrite Eg'. destruct (first_error (src_nodes s)); [left; apply On|].
    destruct (Ke t) as [[_ ->]|(e & Hin & ->)]; rewrite On; auto. right. exists e. split; auto. now apply before_error_in.
  - unfold bulk_error. destruct (first_error (src_nodes s)) eqn:F1; [discriminate|]. intros F2. split.
    + intros i p Hin. rewrite En. destruct (Kn i) as [[Hn _]|(p' & Hin' & ->)].
      * exfalso. apply Hn. apply in_map_iff. exists (i, p). split; auto. now apply in_before_error.
      * exists p'. split; auto. now apply before_error_in.
    + intros t e Hin. rewrite Eg'. destruct (Ke t) as [[Hn _]|(e' & Hin' & ->)].
      * exfalso. apply Hn. apply in_map_iff. exists (t, e). split; auto. now apply in_before_error.
      * rewrite On. exists e'. split; auto. now apply before_error_in.
Qed.
End Graphs.

Section Feed.
Context {k : idkind} {NP EP E : Type}.
Notation M := (mem k NP EP).
Lemma feed_for_each {A} (f : A -> M -> M) (l : list (result E A)) : forall m,
  feed (fun a m => (Ok tt, f a m)) l m = for_each (L := unit) f l m.
Proof. induction l as [|[a|e] l IH]; simpl; intros m; auto. Qed.
Lemma feed_extend (s : source k NP EP E) (m : M) :
  feed_both (fun ip m => (Ok tt, extend_node (fst ip) (snd ip) m)) (fun te m => (Ok tt, extend_edge (fst te) (snd te) m)) s m = extend s m.
Proof. unfold feed_both, extend. rewrite feed_for_each. destruct (for_each _ (src_nodes s) m) as [[]]; auto. apply feed_for_each. Qed.
Lemma feed_merge mn me (s : source k NP EP E) (m : M) :
  feed_both (fun ip m => (Ok tt, merge_node mn (fst ip) (snd ip) m)) (fun te m => (Ok tt, merge_edge me (fst te) (snd te) m)) s m = merge mn me s m.
Proof. unfold feed_both, merge. rewrite feed_for_each. destruct (for_each _ (src_nodes s) m) as [[]]; auto. apply feed_for_each. Qed.

Context {SE' BE' : Type}.
Notation err' := (sled_error SE' BE').
Lemma feed_elsewhere {A} (p : A -> handle k -> prog db SE' (result err' unit * handle k)) (l : list (result E A)) : forall h d fs,
  feed (fun a => elsewhere (p a)) l (h, d, fs) =
  let '(a, h', d', fs') := exec (for_source p l h) fs d in (a, (h', d', fs')).
Proof.
  induction l as [|[a|e] l IH]; intros h d fs; cbn [feed for_source]; try reflexivity.
  rewrite exec_bind. cbn [elsewhere]. destruct (exec (p a h) fs d) as [[[r h1] d1] fs1]. destruct r as [[]|e]; cbn [fst snd].
  - apply IH.
  - reflexivity.
Qed.
Lemma feed_sled (pn : Id k * NP -> handle k -> prog db SE' (result err' unit * handle k)) pe (s : source k NP EP E) h d fs :
  feed_both (fun a => elsewhere (pn a)) (fun a => elsewhere (pe a)) s (h, d, fs) =
  let '(a, h', d', fs') := exec (for_nodes_edges pn pe s h) fs d in (a, (h', d', fs')).
Proof.
  unfold feed_both, for_nodes_edges. rewrite exec_bind, feed_elsewhere.
  destruct (exec (for_source pn (src_nodes s) h) fs d) as [[[r h1] d1] fs1]. destruct r as [u|e]; cbn [fst snd].
  - apply feed_elsewhere.
  - reflexivity.
Qed.
End Feed.

(** ** Into a memory store *)
Section Mem.
Context {k : idkind} {NP EP SE BE E : Type} (cn : codec BE NP) (ce : codec BE EP) (mn : NP -> NP -> NP) (me : EP -> EP -> EP).
Notation err := (sled_error SE BE).
Context (schedule : list (nat * option SE)) (X : Type) (ps : list (prog db SE X)) (d : db) (cs : list (handle k * list (op k NP EP E))).

Lemma handed_graph cn' ce' fn fe (s : source k NP EP err) (g : graph k NP EP) :
  (forall i p (g : graph k NP EP) j, g_node (fn i p g) j = if id_eq_dec j i then Some (merged cn' (g_node g i) p) else g_node g j) ->
  (forall i p (g : graph k NP EP) t, g_edge (fn i p g) t = g_edge g t) ->
  (forall t e (g : graph k NP EP) u, g_edge (fe t e g) u = if triple_eq_dec u t then Some (merged ce' (g_edge g t) e) else g_edge g u) ->
  (forall t e (g : graph k NP EP) i, g_node (fe t e g) i = g_node g i) ->
  handed cn ce schedule ps d cs s ->
  let a := match bulk_error s with Some e => Err (RightE e) | None => Ok tt end : result (lr_error unit err) unit in
  (a = Ok tt -> complete cn ce schedule ps d s) ->
  let g' := g_bulk fn fe s g in
  (a = Ok tt \/ exists x, a = Err (RightE x) /\ ((exists y, met schedule y /\ x = SledError y) \/ (x = MissingPropertyData /\ exists t, rewritten cs t))) /\
  (forall i, g_node g' i = g_node g i \/ exists p d1, during schedule ps d d1 /\ lists_node SE cn d1 i p /\
     g_node g' i = Some (merged cn' (g_node g i) p)) /\
  (forall t, g_edge g' t = g_edge g t \/ exists e d1, during schedule ps d d1 /\ lists_edge SE ce SPO d1 t e /\
     g_edge g' t = Some (merged ce' (g_edge g t) e)) /\
  (a = Ok tt ->
    (forall i, (forall d1, during schedule ps d d1 -> exists p, lists_node SE cn d1 i p) ->
       exists p d1, during schedule ps d d1 /\ lists_node SE cn d1 i p /\ g_node g' i = Some (merged cn' (g_node g i) p)) /\
    (forall t, (forall d1, during schedule ps d d1 -> exists e, lists_edge SE ce SPO d1 t e) ->
       exists e d1, during schedule ps d d1 /\ lists_edge SE ce SPO d1 t e /\ g_edge g' t = Some (merged ce' (g_edge g t) e))).
Proof.
  intros A1 A2 A3 A4 (H1 & H2 & H3 & H4 & H5 & H6) a Hc g'.
  destruct (bulk_sorted cn' ce' fn fe A1 A2 A3 A4 s g H3 H4) as (B1 & B2 & B3). fold g' in B1, B2, B3.
  split; [|split; [|split]].
  - unfold a, bulk_error. destruct (first_error (src_nodes s)) eqn:F1; [|destruct (first_error (src_edges s)) eqn:F2; auto].
    + right. eexists. split; auto. left. apply H5. now apply first_error_in.
    + right. eexists. split; auto. apply H6. now apply first_error_in.
  - intros i. destruct (B1 i) as [E1|(p & Hin & E1)]; auto. right. destruct (H1 i p Hin) as (d1 & D1 & L1). eauto.
  - intros t. destruct (B2 t) as [E1|(e & Hin & E1)]; auto. right. destruct (H2 t e Hin) as (d1 & D1 & L1). eauto.
  - intros Ea. destruct (Hc Ea) as [C1 C2]. unfold a in Ea. destruct (bulk_error s); [discriminate|]. destruct (B3 eq_refl) as [D1 D2]. split.
    + intros i Hi. destruct (C1 i Hi) as (p & Hin). destruct (D1 i p Hin) as (p' & Hin' & E1). destruct (H1 i p' Hin') as (d1 & ? & ?). eauto 6.
    + intros t Ht. destruct (C2 t Ht) as (e & Hin). destruct (D2 t e Hin) as (e' & Hin' & E1). destruct (H2 t e' Hin') as (d1 & ? & ?). eauto 6.
Qed.
End Mem.

Lemma extend_live : forall k NP EP SE BE E (cn : codec BE NP) (ce : codec BE EP) mn me
    (ls : list (life (k := k) (NP := NP) (EP := EP) (SE := SE) (E := E)))
    (cs : list (handle k * list (op k NP EP E))) (wcuts : nat -> nat -> cutting) (cuts cuts' : list bytes)
    (schedule : list (nat * option SE)) (m m' : mem k NP EP) g a,
  codec_ok cn -> codec_ok ce -> NoDup (life_keys ls ++ session_keys cs) ->
  let d := lives cn ce mn me ls db_new in
  let ps := beside (m_extend_live cn ce cuts cuts' m) (l_callers cn ce mn me wcuts 0 cs) in
  has_read (a, m') (fst (interleave schedule ps d)) ->
  reachable (sled_error SE BE) mn me m -> shows m g -> drawn_distinct (id_generator m') ->
  (a = Ok tt \/ exists x, a = Err (RightE x) /\
     ((exists y, met schedule y /\ x = SledError y) \/ (x = MissingPropertyData /\ exists t, rewritten cs t))) /\
  exists g', shows m' g' /\
  (forall i, g_node g' i = g_node g i \/ exists p d1, during schedule ps d d1 /\ lists_node SE cn d1 i p /\ g_node g' i = Some p) /\
  (forall t, g_edge g' t = g_edge g t \/ exists e d1, during schedule ps d d1 /\ lists_edge SE ce SPO d1 t e /\ g_edge g' t = Some e) /\
  (a = Ok tt ->
    (forall i, (forall d1, during schedule ps d d1 -> exists p, lists_node SE cn d1 i p) ->
       exists p d1, during schedule ps d d1 /\ lists_node SE cn d1 i p /\ g_node g' i = Some p) /\
    (forall t, (forall d1, during schedule ps d d1 -> exists e, lists_edge SE ce SPO d1 t e) ->
       exists e d1, during schedule ps d d1 /\ lists_edge SE ce SPO d1 t e /\ g_edge g' t = Some e)).
Proof.
  intros k NP EP SE BE E cn ce mn me ls cs wcuts cuts cuts' schedule m m' g a Hn He Hd d ps Hx R S D.
  destruct (taken_beside _ _ _ _ _ _ _ _ cn ce mn me _ _ ls cs wcuts cuts cuts' schedule m a m' Hn He Hd Hx) as (s & Es & Hs & Hc).
  fold d ps in Hs, Hc. rewrite feed_extend in Es.
  assert (m' = snd (extend s m)) as Em by now rewrite <- Es. rewrite Em in D.
  destruct (extend_spec mn me s m g R S D) as [Ea Sh]. rewrite <- Es in Ea. simpl in Ea. subst a. rewrite <- Em in Sh.
  destruct (handed_graph cn ce schedule _ ps d cs (fun _ p => p) (fun _ e => e) g_put_node g_put_edge s g) as (G1 & G2 & G3 & G4); auto.
  - intros i p g0 j. simpl. destruct (id_eq_dec j i) as [->|]; auto. unfold merged. now destruct (g_node g0 i).
  - intros t e g0 u. simpl. destruct (triple_eq_dec u t) as [->|]; auto. unfold merged. now destruct (g_edge g0 t).
  - assert (forall P (o : option P) p, merged (fun _ p => p) o p = p) as Em' by (intros P [o|] q; reflexivity).
    split; auto. exists (g_bulk g_put_node g_put_edge s g). split; auto. split; [|split].
    + intros i. destruct (G2 i) as [?|(p & d1 & ? & ? & E1)]; auto. right. exists p, d1. rewrite Em' in E1. auto.
    + intros t. destruct (G3 t) as [?|(p & d1 & ? & ? & E1)]; auto. right. exists p, d1. rewrite Em' in E1. auto.
    + intros Ok'. destruct (G4 Ok') as [C1 C2]. split.
      * intros i Hi. destruct (C1 i Hi) as (p & d1 & ? & ? & E1). exists p, d1. rewrite Em' in E1. auto.
      * intros t Ht. destruct (C2 t Ht) as (p & d1 & ? & ? & E1). exists p, d1. rewrite Em' in E1. auto.
Qed.

Lemma merge_live : forall k NP EP SE BE E (cn : codec BE NP) (ce : codec BE EP) mn me
    (ls : list (life (k := k) (NP := NP) (EP := EP) (SE := SE) (E := E)))
    (cs : list (handle k * list (op k NP EP E))) (wcuts : nat -> nat -> cutting) (cuts cuts' : list bytes)
    (schedule : list (nat * option SE)) (m m' : mem k NP EP) g a,
  codec_ok cn -> codec_ok ce -> NoDup (life_keys ls ++ session_keys cs) ->
  let d := lives cn ce mn me ls db_new in
  let ps := beside (m_merge_live cn ce mn me cuts cuts' m) (l_callers cn ce mn me wcuts 0 cs) in
  has_read (a, m') (fst (interleave schedule ps d)) ->
  reachable (sled_error SE BE) mn me m -> shows m g -> drawn_distinct (id_generator m') ->
  (a = Ok tt \/ exists x, a = Err (RightE x) /\
     ((exists y, met schedule y /\ x = SledError y) \/ (x = MissingPropertyData /\ exists t, rewritten cs t))) /\
  exists g', shows m' g' /\
  (forall i, g_node g' i = g_node g i \/ exists p d1, during schedule ps d d1 /\ lists_node SE cn d1 i p /\
     g_node g' i = Some (merged mn (g_node g i) p)) /\
  (forall t, g_edge g' t = g_edge g t \/ exists e d1, during schedule ps d d1 /\ lists_edge SE ce SPO d1 t e /\
     g_edge g' t = Some (merged me (g_edge g t) e)) /\
  (a = Ok tt ->
    (forall i, (forall d1, during schedule ps d d1 -> exists p, lists_node SE cn d1 i p) ->
       exists p d1, during schedule ps d d1 /\ lists_node SE cn d1 i p /\ g_node g' i = Some (merged mn (g_node g i) p)) /\
    (forall t, (forall d1, during schedule ps d d1 -> exists e, lists_edge SE ce SPO d1 t e) ->
       exists e d1, during schedule ps d d1 /\ lists_edge SE ce SPO d1 t e /\ g_edge g' t = Some (merged me (g_edge g t) e))).
Proof.
  intros k NP EP SE BE E cn ce mn me ls cs wcuts cuts cuts' schedule m m' g a Hn He Hd d ps Hx R S D.
  destruct (taken_beside _ _ _ _ _ _ _ _ cn ce mn me _ _ ls cs wcuts cuts cuts' schedule m a m' Hn He Hd Hx) as (s & Es & Hs & Hc).
  fold d ps in Hs, Hc. rewrite feed_merge in Es.
  assert (m' = snd (merge mn me s m)) as Em by now rewrite <- Es. rewrite Em in D.
  destruct (merge_spec mn me s m g R S D) as [Ea Sh]. rewrite <- Es in Ea. simpl in Ea. subst a. rewrite <- Em in Sh.
  destruct (handed_graph cn ce schedule _ ps d cs mn me (g_merge_node mn) (g_merge_edge me) s g) as (G1 & G2 & G3 & G4); auto.
  split; auto. exists (g_bulk (g_merge_node mn) (g_merge_edge me) s g). auto.
Qed.

(** ** Into another database *)
Lemma extend_live_sled : forall k NP EP SE BE SE' BE' E (cn : codec BE NP) (ce : codec BE EP) (cn' : codec BE' NP) (ce' : codec BE' EP) mn me
    (ls : list (life (k := k) (NP := NP) (EP := EP) (SE := SE) (E := E)))
    (cs : list (handle k * list (op k NP EP E))) (wcuts : nat -> nat -> cutting) (cuts cuts' : list bytes)
    (schedule : list (nat * option SE)) (h h' : handle k) (x x' : db) (fs fs' : list (option SE')) a,
  codec_ok cn -> codec_ok ce -> NoDup (life_keys ls ++ session_keys cs) ->
  let d := lives cn ce mn me ls db_new in
  let ps := beside (s_extend_live cn ce cn' ce' cuts cuts' (h, x, fs)) (l_callers cn ce mn me wcuts 0 cs) in
  has_read (a, (h', x', fs')) (fst (interleave schedule ps d)) ->
  exists s, exec (s_extend cn' ce' s h) fs x = (a, h', x', fs') /\ handed cn ce schedule ps d cs s /\ (a = Ok tt -> complete cn ce schedule ps d s).
Proof.
  intros k NP EP SE BE SE' BE' E cn ce cn' ce' mn me ls cs wcuts cuts cuts' schedule h h' x x' fs fs' a Hn He Hd d ps Hx.
  destruct (taken_beside _ _ _ _ _ _ _ _ cn ce mn me _ _ ls cs wcuts cuts cuts' schedule _ a _ Hn He Hd Hx) as (s & Es & Hs & Hc).
  exists s. split; auto. rewrite (feed_sled (fun ip h => and_handle h (s_extend_node cn' (fst ip) (snd ip))) (fun te h => s_extend_edge ce' (fst te) (snd te) h)) in Es.
  unfold s_extend. destruct (exec _ fs x) as [[[r h1] d1] fs1]. now inversion Es.
Qed.
Lemma merge_live_sled : forall k NP EP SE BE SE' BE' E (cn : codec BE NP) (ce : codec BE EP) (cn' : codec BE' NP) (ce' : codec BE' EP) mn me
    (ls : list (life (k := k) (NP := NP) (EP := EP) (SE := SE) (E := E)))
    (cs : list (handle k * list (op k NP EP E))) (wcuts : nat -> nat -> cutting) (cuts cuts' : list bytes)
    (schedule : list (nat * option SE)) (h h' : handle k) (x x' : db) (fs fs' : list (option SE')) a,
  codec_ok cn -> codec_ok ce -> NoDup (life_keys ls ++ session_keys cs) ->
  let d := lives cn ce mn me ls db_new in
  let ps := beside (s_merge_live cn ce cn' ce' mn me cuts cuts' (h, x, fs)) (l_callers cn ce mn me wcuts 0 cs) in
  has_read (a, (h', x', fs')) (fst (interleave schedule ps d)) ->
  exists s, exec (s_merge cn' ce' mn me s h) fs x = (a, h', x', fs') /\ handed cn ce schedule ps d cs s /\ (a = Ok tt -> complete cn ce schedule ps d s).
Proof.
  intros k NP EP SE BE SE' BE' E cn ce cn' ce' mn me ls cs wcuts cuts cuts' schedule h h' x x' fs fs' a Hn He Hd d ps Hx.
  destruct (taken_beside _ _ _ _ _ _ _ _ cn ce mn me _ _ ls cs wcuts cuts cuts' schedule _ a _ Hn He Hd Hx) as (s & Es & Hs & Hc).
  exists s. split; auto. rewrite (feed_sled (fun ip h => and_handle h (s_merge_node cn' mn (fst ip) (snd ip))) (fun te h => s_merge_edge ce' me (fst te) (snd te) h)) in Es.
  unfold s_merge. destruct (exec _ fs x) as [[[r h1] d1] fs1]. now inversion Es.
Qed.
