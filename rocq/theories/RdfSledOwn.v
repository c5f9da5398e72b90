(** Writers of an RDF store over sled next to each other and next to a reader: every one writes property
    records under keys of its own only, and the index only grows. *)
From Coq Require Import Arith NArith List Bool Sorted Lia.
From Verif Require Import Bytes BytesFacts OMap OMapFacts Core IdType IdTypeFacts Store Mem Spec
  CodecFacts ListFacts MemSim History Prog ProgFacts Sled SledHistory SledDb SledOps SledBulk SledRead SledTables
  SledRun SledTop SledLeaf SledLeafFacts SledBeside SledRely SledOwn SledOwnOps SledBesideTop
  SledIndex SledIndexFacts Rdf RdfSpec RdfSled RdfSledLeaf.
Import ListNotations.

Section Own.
Context {S NP EP SE BE E : Type}.
Context (cs : codec BE S) (cu : codec BE (Id KUlid)) (cn : codec BE NP) (ce : codec BE EP).
Context (Hcn : codec_ok cn) (Hce : codec_ok ce).
Context (Hcu : codec_ok cu).
Context (mn : NP -> NP -> NP) (me : EP -> EP -> EP) (keep : triple (Id KUlid) -> Prop).
Notation I := (Id KUlid).
Notation ent := (entity S).
(** [Fin] holds of the databases that occur; [den]: the identifier an entity stands for. *)
Context (Fin : rdb -> Prop) (den : entity S -> Id KUlid -> Prop).
Context (Hulid : forall i, den (EUlid i) i) (Hname : forall d n i, Fin d -> name_now (SE := SE) cs cu d n = Some i -> den (EString n) i).
Notation ierr := (sled_index_error S (Id KUlid) SE BE).
Notation gerr := (sled_error SE BE).
Notation err := (rdf_error S ierr gerr).
Notation P A := (prog rdb SE A).
Notation PR A := (prog rdb SE (result err A)).
Notation PH A := (prog rdb SE (result err A * rhandle)).
Notation keys := (bytes -> triple (Id KUlid) -> Prop).
Notation room := (bytes -> Prop).
Notation sane := (sane (k := KUlid) cn ce keep).
Notation tame := (tame (k := KUlid) cn ce keep).
Notation own := (own (k := KUlid) cn ce keep).
Notation rop := (rop S NP EP E).
Notation answer := (routcome (S := S) (SE := SE) (BE := BE) (E := E)).
Implicit Types A N U : bytes -> triple (Id KUlid) -> Prop.
Implicit Types K : bytes -> Prop.
Implicit Types d : rdb.
Implicit Types h : rhandle.

Definition rtame U N d d' : Prop := tame U N (r_trees d) (r_trees d') /\ grows cs cu (r_names d) (r_names d').

Fixpoint rown {X} (R : keys -> room -> X -> Prop) A K (p : P X) : Prop :=
  match p with
  | Ret x => R A K x
  | Look c => forall U d, within A U -> sane U (r_trees d) -> Fin d -> rown R U K (c d)
  | Act u c e => exists (N : keys) (K1 : room),
      (forall r t, N r t -> K r) /\ (forall r, K1 r -> K r) /\ (forall r t, N r t -> ~ K1 r) /\ one N /\
      (forall U d, within A U -> sane U (r_trees d) -> Fin d -> Fin (u d) -> rtame U N d (u d) /\ rown R (union U N) K1 (c d)) /\
      (forall x, rown R A K (e x))
  end.

Lemma rown_mono {X} (R R' : keys -> room -> X -> Prop) (p : P X) : forall A K,
  (forall A' K' x, within A A' -> R A' K' x -> R' A' K' x) -> rown R A K p -> rown R' A K p.
Proof.
  induction p as [x|c IH|u c IH e IHe]; simpl; intros A K HR Hp.
  - apply HR; auto. apply within_refl.
  - intros U d HU Hs Hf. apply IH; auto. intros A' K' x HA. apply HR. eapply within_trans; eauto.
  - destruct Hp as (N & K1 & H1 & H2 & H3 & H4 & H5 & H6). exists N, K1. split; auto. split; auto. split; auto. split; auto. split.
    + intros U d HU Hs Hf Hf'. destruct (H5 U d HU Hs Hf Hf') as [Ht Ho]. split; auto. apply IH; auto. intros A' K' x HA. apply HR.
      eapply within_trans; [exact HU|]. eapply within_trans; [apply within_union|exact HA].
    + intros x. apply IHe; auto.
Qed.

Lemma rown_bind {X Y} (R : keys -> room -> Y -> Prop) (p : P X) (f : X -> P Y) : forall A K,
  rown (fun A' K' x => rown R A' K' (f x)) A K p -> rown R A K (bind p f).
Proof.
  induction p as [x|c IH|u c IH e IHe]; simpl; intros A K Hp; auto.
  destruct Hp as (N & K1 & H1 & H2 & H3 & H4 & H5 & H6). exists N, K1. split; auto. split; auto. split; auto. split; auto. split; auto.
  intros U d HU Hs Hf Hf'. destruct (H5 U d HU Hs Hf Hf'). auto.
Qed.

Lemma rown_graph {X} (R : keys -> room -> X -> Prop) (p : prog db SE X) : forall A K, own R A K p -> rown R A K (on_graph p).
Proof.
  induction p as [x|c IH|u c IH e IHe]; simpl; intros A K Hp; auto.
  destruct Hp as (N & K1 & H1 & H2 & H3 & H4 & H5 & H6). exists N, K1. split; auto. split; auto. split; auto. split; auto. split; auto.
  intros U d HU Hs _ _. destruct (H5 U _ HU Hs) as [Ht Ho]. split; auto. split; [exact Ht|left; reflexivity].
Qed.

(** Steps of the index. *)
Lemma rown_names {X} (R : keys -> room -> X -> Prop) A K (u : idb -> idb) (c : idb -> prog idb SE X) (e : SE -> prog idb SE X) :
  (forall x, grows cs cu x (u x)) ->
  (forall A' d, within A A' -> Fin d -> Fin (RDb (u (r_names d)) (r_trees d)) -> rown R A' K (on_names (c (r_names d)))) ->
  (forall x, rown R A K (on_names (e x))) ->
  rown R A K (on_names (Act u c e)).
Proof.
  intros Hu Hc He. simpl. exists nokeys, K. split; [intros r t []|]. split; [auto|]. split; [intros r t []|]. split; [intros r t t' []|]. split; auto.
  intros U d HU Hs Hf Hf'. split; [split; [apply T_refl|apply Hu]|]. apply Hc; auto.
  eapply within_trans; [exact HU|apply within_union].
Qed.

(** The keys are left as they were, and the handle of the graph too; [Q] of what was found. *)
Definition same_graph {X} (Q : X -> Prop) K h : keys -> room -> result err X * rhandle -> Prop :=
  fun _ K' xh => K' = K /\ rh_graph (snd xh) = rh_graph h /\ forall x, fst xh = Ok x -> Q x.

Lemma rown_left {X} (R : keys -> room -> X -> Prop) A K s (f : result ierr (option I) -> P X) :
  (forall A' r, within A A' -> (forall i, r = Ok (Some i) -> den (EString s) i) -> rown R A' K (f r)) ->
  rown R A K (bind (on_names (si_left_to_right cs cu s)) f).
Proof.
  intros Hf. apply rown_bind. unfold si_left_to_right. destruct (ser cs s) as [b|x] eqn:Es; [|apply Hf; [apply within_refl|discriminate]].
  apply rown_names; [left; reflexivity| |]; [|intros x; apply Hf; [apply within_refl|discriminate]].
  intros A' d HA HFd _. apply Hf; auto. intros i Hi. apply (Hname d); auto.
  unfold name_now, left_now, si_left_to_right. rewrite Es. unfold ret_of. simpl. unfold de_opt in *.
  destruct (bget b (i_l2r (r_names d))) as [v|]; [|discriminate]. destruct (de cu v); congruence.
Qed.
Lemma rown_set {X} (R : keys -> room -> X -> Prop) A K s i (f : result ierr unit -> P X) :
  (forall A' r, within A A' -> (r = Ok tt -> den (EString s) i) -> rown R A' K (f r)) -> rown R A K (bind (on_names (si_set cs cu s i)) f).
Proof.
  intros Hf. apply rown_bind. unfold si_set. destruct (ser cs s) as [lb|x] eqn:El; [|apply Hf; [apply within_refl|discriminate]].
  destruct (ser cu i) as [rb|x] eqn:Er; [|apply Hf; [apply within_refl|discriminate]].
  apply rown_names; [| |intros x; apply Hf; [apply within_refl|discriminate]].
  - intros x. unfold set_body. destruct (bget lb (i_l2r x)) as [b|] eqn:E1.
    + destruct (de cu b); left; reflexivity.
    + cbn [i_l2r i_r2l]. destruct (bget rb (i_r2l x)) as [b|] eqn:E2; [destruct (de cs b); left; reflexivity|].
      right. exists s, i, lb, rb. auto.
  - intros A' d HA _ HF. apply Hf; auto. destruct (set_body cs cu s i lb rb (r_names d)) as [d'|e] eqn:Eb; [|discriminate]. intros _.
    apply (Hname (RDb d' (r_trees d))); auto. unfold set_body in Eb. destruct (bget lb (i_l2r (r_names d))) as [b|]; [destruct (de cu b); discriminate|].
    cbn [i_l2r i_r2l] in Eb. destruct (bget rb (i_r2l (r_names d))) as [b|]; [destruct (de cs b); discriminate|]. injection Eb as <-.
    unfold name_now, left_now, si_left_to_right. rewrite El. unfold ret_of. simpl. rewrite (get_insert_eq bytes_cmp_ok). simpl.
    now rewrite (Hcu _ _ Er).
Qed.

Lemma rown_create A K e h : rown (same_graph (den e) K h) A K (rs_lookup_or_create cs cu e h : PH I).
Proof.
  destruct e as [s|i]; cbn [rs_lookup_or_create].
  2:{ split; auto. split; auto. intros x [= <-]. apply Hulid. }
  apply rown_left. intros A' [[i|]|x] _ Hi.
  - split; auto. split; auto. intros y [= <-]. auto.
  - unfold fresh. apply rown_set. intros A2 [[]|x] _ Hs; (split; [auto|split; [auto|]]); intros y; [intros [= <-]; auto|discriminate].
  - split; auto. split; auto. discriminate.
Qed.

Lemma rown_bind_h {X Y} (Q : X -> Prop) (R : keys -> room -> result err Y * rhandle -> Prop) A K h (p : PH X) (f : X -> rhandle -> PH Y) :
  rown (same_graph Q K h) A K p ->
  (forall A' a h', within A A' -> rh_graph h' = rh_graph h -> Q a -> rown R A' K (f a h')) ->
  (forall A' x h', rh_graph h' = rh_graph h -> R A' K (Err x, h')) ->
  rown R A K (bind_h p f).
Proof.
  intros Hp Hf He. apply rown_bind. eapply rown_mono; [|exact Hp].
  intros A' K' [[a|x] h'] HA (-> & Hh & HQ); simpl in *; auto.
Qed.

Definition den3 (t : triple ent) (t' : triple I) : Prop := den (sub t) (sub t') /\ den (pred t) (pred t') /\ den (obj t) (obj t').

Lemma rown_create3 A K t h : rown (same_graph (den3 t) K h) A K (rs_create3 cs cu t h : PH (triple I)).
Proof.
  unfold rs_create3.
  eapply rown_bind_h with (h := h); [apply rown_create| |intros; split; auto; split; auto; discriminate]. intros A1 a h1 _ H1 Da.
  eapply rown_bind_h with (h := h1); [apply rown_create| |intros; split; auto; simpl; split; [congruence|discriminate]]. intros A2 b h2 _ H2 Db.
  eapply rown_bind_h with (h := h2); [apply rown_create| |intros; split; auto; simpl; split; [congruence|discriminate]]. intros A3 c h3 _ H3 Dc.
  split; auto. simpl. split; [congruence|]. intros x [= <-]. split; auto.
Qed.

Lemma rown_find A K e h : rown (same_graph (den e) K h) A K (bind (rs_lookup_entity cs cu e) (fun r => Ret (r, h)) : PH I).
Proof.
  destruct e as [s|i]; cbn [rs_lookup_entity].
  2:{ split; auto. split; auto. intros x [= <-]. apply Hulid. }
  apply rown_bind. apply rown_left. intros A' r _ Hr. split; auto. split; auto. intros x. simpl.
  destruct r as [[i|]|y]; try discriminate. intros [= <-]. auto.
Qed.

Lemma rown_find3 A K t h : rown (same_graph (den3 t) K h) A K
  (bind (try_map_prog (rs_lookup_entity cs cu) t) (fun r => Ret (r, h)) : PH (triple I)).
Proof.
  apply rown_bind.
  assert (forall e A (R : keys -> room -> result err (triple I) -> Prop) (f : I -> PR (triple I)), (forall A' x, R A' K (Err x)) ->
    (forall A' a, den e a -> rown R A' K (f a)) -> rown R A K (bind_ok (rs_lookup_entity cs cu e) f)) as H.
  { intros [s|i] A0 R f He Hf; unfold bind_ok; apply rown_bind; cbn [rs_lookup_entity]; [|simpl; auto].
    apply rown_left. intros A' [[i|]|x] _ Hi; simpl; auto. }
  unfold try_map_prog. apply H; [intros A' x; split; auto; split; auto; discriminate|]. intros A1 a Da.
  apply H; [intros A' x; split; auto; split; auto; discriminate|].
  intros A2 b Db. apply H; [intros A' x; split; auto; split; auto; discriminate|]. intros A3 c Dc.
  split; auto. split; auto. intros x [= <-]. split; auto.
Qed.

(** ** Calls *)
Notation glist h n := (left (rh_graph h) n 0).
Definition rspare {X} (n : nat) : keys -> room -> X * rhandle -> Prop :=
  fun _ K xh => NoDup (glist (snd xh) n) /\ forall r, In r (glist (snd xh) n) -> K r.

Lemma left_graph h h' n : rh_graph h' = rh_graph h -> glist h' n = glist h n.
Proof. now intros ->. Qed.
Lemma rspare_less {X} n n' A K (xh : X * rhandle) : n <= n' -> rspare n' A K xh -> rspare n A K xh.
Proof. intros Hn H. exact (spare_less (k := KUlid) n 0 n' 0 A K (fst xh, rh_graph (snd xh)) Hn (le_n 0) H). Qed.

Lemma rown_call n A K f h : own (spare n 0) A K (f (rh_graph h)) -> rown (rspare n) A K (graph_call f h : PH unit).
Proof.
  intros H. apply rown_bind. eapply rown_mono; [|apply rown_graph; exact H].
  intros A' K' [r g] _ Hs. exact Hs.
Qed.

(** Lookups, then a call that draws [c] identifiers. *)
Lemma rown_then {X} (Q : X -> Prop) c n A K (p : PH X) (f : X -> handle KUlid -> prog db SE (result gerr unit * handle KUlid)) h :
  rown (same_graph Q K h) A K p ->
  (forall x g A K, Q x -> NoDup (left g (c + n) 0) -> (forall r, In r (left g (c + n) 0) -> K r) -> own (spare n 0) A K (f x g)) ->
  NoDup (glist h (c + n)) -> (forall r, In r (glist h (c + n)) -> K r) ->
  rown (rspare n) A K (bind_h p (fun x => graph_call (f x))).
Proof.
  intros Hp Hf H1 H2. eapply rown_bind_h with (h := h); [exact Hp| |].
  - intros A' a h' _ Hh Qa. apply rown_call. apply Hf; auto; rewrite (left_graph h h' _ Hh); auto.
  - intros A' x h' Hh. apply (rspare_less n (c + n)); [lia|]. split; simpl; rewrite (left_graph h h' _ Hh); auto.
Qed.

Lemma rown_insert_node n A K e p h : NoDup (glist h n) -> (forall r, In r (glist h n) -> K r) ->
  rown (rspare n) A K (rs_insert_node cs cu cn e p h : PH unit).
Proof.
  intros H1 H2. apply rown_then with (Q := den e) (c := 0) (h := h); auto; [apply rown_create|].
  intros x g A' K' _ N1 N2. apply own_still; auto. now apply tames_insert_node.
Qed.
Lemma rown_merge_node n A K e p h : NoDup (glist h n) -> (forall r, In r (glist h n) -> K r) ->
  rown (rspare n) A K (rs_merge_node cs cu cn mn e p h : PH unit).
Proof.
  intros H1 H2. apply rown_then with (Q := den e) (c := 0) (h := h); auto; [apply rown_create|].
  intros x g A' K' _ N1 N2. apply own_still; auto. now apply tames_merge_node.
Qed.
Lemma rown_insert_edge n A K t p h : NoDup (glist h (1 + n)) -> (forall r, In r (glist h (1 + n)) -> K r) ->
  rown (rspare n) A K (rs_insert_edge cs cu ce t p h : PH unit).
Proof.
  intros H1 H2. apply rown_then with (Q := den3 t) (c := 1) (h := h); auto; [apply rown_create3|].
  intros x g A' K' _ N1 N2. now apply own_insert_edge.
Qed.
Lemma rown_merge_edge n A K t p h : (forall t', den3 t t' -> ~ keep t') ->
  NoDup (glist h (1 + n)) -> (forall r, In r (glist h (1 + n)) -> K r) ->
  rown (rspare n) A K (rs_merge_edge cs cu ce me t p h : PH unit).
Proof.
  intros Nk H1 H2. apply rown_then with (Q := den3 t) (c := 1) (h := h); auto; [apply rown_create3|].
  intros x g A' K' Dx N1 N2. apply own_merge_edge; auto.
Qed.

Lemma rown_each {X Er} (step : X -> rhandle -> PH unit) c (l : list (result Er X)) n :
  (forall x h n A K, In x (before_error l) -> NoDup (glist h (c + n)) -> (forall r, In r (glist h (c + n)) -> K r) -> rown (rspare n) A K (step x h)) ->
  forall h A K, NoDup (glist h (length (before_error l) * c + n)) ->
  (forall r, In r (glist h (length (before_error l) * c + n)) -> K r) ->
  rown (fun A' K' xh => rspare n A' K' xh /\ (fst xh = Ok tt -> first_error l = None)) A K (rs_for_each step l h).
Proof.
  induction l as [|[x|er] l IH]; intros Hb h A K H1 H2.
  - simpl. split; auto. split; auto.
  - cbn [rs_for_each]. apply rown_bind. cbn [before_error length Nat.mul] in H1, H2, Hb.
    rewrite <- !Nat.add_assoc in H1, H2.
    eapply rown_mono; [|exact (Hb x h _ A K (or_introl eq_refl) H1 H2)].
    cbv beta. intros A' K' [[u|er] h'] _ Hsp; simpl.
    + destruct Hsp as [S1 S2]. apply IH; auto. intros y h0 n0 A0 K0 Hy. apply Hb. right. exact Hy.
    + split; [|discriminate].
      refine (rspare_less (X := result (lr_error err Er) unit) _ _ A' K' (Err (LeftE er), h') (Nat.le_add_l n _) _). exact Hsp.
  - simpl. split; [split; auto|discriminate].
Qed.

Lemma rown_bulk fn fe (s : rdf_source S NP EP E) n :
  (forall e p h n A K, NoDup (glist h n) -> (forall r, In r (glist h n) -> K r) -> rown (rspare n) A K (fn e p h)) ->
  (forall t p h n A K, In (t, p) (used_edges s) -> NoDup (glist h (1 + n)) -> (forall r, In r (glist h (1 + n)) -> K r) -> rown (rspare n) A K (fe t p h)) ->
  forall h A K, NoDup (glist h (length (used_edges s) + n)) ->
  (forall r, In r (glist h (length (used_edges s) + n)) -> K r) ->
  rown (rspare n) A K (rs_bulk (SE := SE) (BE := BE) fn fe s h).
Proof.
  intros Hn He h A K H1 H2. apply rown_bind.
  eapply rown_mono.
  2:{ apply (rown_each (fun ip => fn (fst ip) (snd ip)) 0 (rs_nodes s) (length (used_edges s) + n)).
      - intros [e p] h0 n0 A0 K0 _. apply Hn.
      - rewrite Nat.mul_0_r. exact H1.
      - rewrite Nat.mul_0_r. exact H2. }
  cbv beta. intros A' K' [[[]|er] h'] _ [Hsp Hno]; cbn [fst snd].
  - specialize (Hno eq_refl). unfold used_edges in Hsp, He. rewrite Hno in Hsp, He. destruct Hsp as [S1 S2].
    eapply rown_mono with (R := fun A' K' xh => rspare n A' K' xh /\ _); [intros A0 K0 xh _ [H _]; exact H|].
    apply rown_each with (c := 1).
    + intros [t p] h0 n0 A0 K0. apply He.
    + now rewrite Nat.mul_1_r.
    + now rewrite Nat.mul_1_r.
  - refine (rspare_less (X := result (lr_error err E) unit) _ _ A' K' (Err er, h') (Nat.le_add_l n _) _). exact Hsp.
Qed.

Lemma rown_out n A K (p : PH unit) : rown (rspare n) A K p -> rown (rspare n) A K (left_out (E := E) p).
Proof. intros H. apply rown_bind. eapply rown_mono; [|exact H]. intros A' K' [r h'] _ Hs. exact Hs. Qed.

Lemma rown_apply n A K c (o : rop) h : (forall t, keep t -> ~ r_rewrites den o t) ->
  NoDup (glist h (r_draws o + n)) -> (forall r, In r (glist h (r_draws o + n)) -> K r) ->
  rown (rspare n) A K (rl_apply cs cu cn ce mn me c o h : P (answer * rhandle)).
Proof.
  intros Hk H1 H2. destruct o as [e p|t p|e|t|e p|t p|s|s]; cbn [r_draws rl_apply rs_apply r_rewrites Nat.add] in *.
  - apply rown_out. now apply rown_insert_node.
  - apply rown_out. now apply rown_insert_edge.
  - apply rown_out. apply rown_then with (Q := den e) (c := 0) (h := h); auto; [apply rown_find|].
    intros x g A' K' Dx N1 N2. apply own_still; auto. apply tames_remove_node.
    intros t Kt. specialize (Hk t Kt). split; intros <-; apply Hk; auto.
  - apply rown_out. apply rown_then with (Q := den3 t) (c := 0) (h := h); auto; [apply rown_find3|].
    intros x g A' K' Dx N1 N2. apply own_still; auto. apply tames_remove_edge. intros Kx. exact (Hk x Kx Dx).
  - apply rown_out. now apply rown_merge_node.
  - apply rown_out. apply rown_merge_edge; auto. intros x Dx Kx. exact (Hk x Kx Dx).
  - apply rown_bulk.
    + intros e p h0 n0 A0 K0. apply rown_insert_node.
    + intros t p h0 n0 A0 K0 _. apply rown_insert_edge.
    + exact H1.
    + exact H2.
  - apply rown_bulk.
    + intros e p h0 n0 A0 K0. apply rown_merge_node.
    + intros t p h0 n0 A0 K0 Hin. apply rown_merge_edge. intros x Dx Kx. apply (Hk x Kx). exists t, p. auto.
    + exact H1.
    + exact H2.
Qed.

Lemma rs_keys_left h (l : list rop) : rs_keys h l = glist h (sum (map r_draws l)).
Proof. unfold rs_keys, left, gk, uk. simpl. now rewrite app_nil_r. Qed.

Lemma rown_history cuts (l : list rop) : forall j A K h, Forall (fun o => forall t, keep t -> ~ r_rewrites den o t) l ->
  NoDup (rs_keys h l) -> (forall r, In r (rs_keys h l) -> K r) ->
  rown (fun _ _ _ => True) A K (rl_history cs cu cn ce mn me cuts j l h : P (list answer * rhandle)).
Proof.
  induction l as [|o l IH]; intros j A K h Ho H1 H2; simpl; auto.
  inversion Ho; subst. rewrite rs_keys_left in H1, H2. cbn [map sum] in H1, H2.
  apply rown_bind. eapply rown_mono; [|apply rown_apply; auto; [exact H1|exact H2]].
  cbv beta. intros A' K' [r h'] _ [S1 S2]. cbn [snd fst] in *. apply rown_bind.
  eapply rown_mono; [|apply IH; auto; rewrite rs_keys_left; auto]. simpl. auto.
Qed.
End Own.
