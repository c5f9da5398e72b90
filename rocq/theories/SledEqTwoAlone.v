(** Lemmas: try_eq of two sled stores that nobody else uses. *)
From Coq Require Import NArith List Bool.
From Verif Require Import Bytes OMap OMapFacts Core IdType Store Mem Spec History Prog ProgFacts Sled SledHistory SledTables SledLeaf SledLeafFacts SledLazy SledBeside
  SledCopy SledTwo SledEqTwo.
Import ListNotations.

Section Still.
Context {D SE : Type}.
Definition still {A} (p : prog D SE A) (d : D) : Prop := exec p [] d = (ret_of p [] d, d, []).
Lemma readonly_still {A} (p : prog D SE A) d : readonly p -> still p d.
Proof.
  unfold still, ret_of. induction 1 as [a|k _ IH|u k e Hu _ IHk _ IHe]; cbn [exec]; auto. rewrite Hu. apply IHk.
Qed.
End Still.

Section Sides.
Context {DA DB SE : Type}.
Lemma exec_first {A} (p : prog DA SE A) : forall fs (d : DA) (d' : DB),
  exec (on_first p) fs (d, d') = let '(a, x, fs') := exec p fs d in (a, (x, d'), fs').
Proof. induction p as [a|k IH|u k IHk e IHe]; intros fs d d'; cbn [on_first exec fst snd]; auto. destruct fs as [|[x|] fs]; auto. Qed.
Lemma exec_second {A} (p : prog DB SE A) : forall fs (d : DA) (d' : DB),
  exec (on_second p) fs (d, d') = let '(a, x, fs') := exec p fs d' in (a, (d, x), fs').
Proof. induction p as [a|k IH|u k IHk e IHe]; intros fs d d'; cbn [on_second exec fst snd]; auto. destruct fs as [|[x|] fs]; auto. Qed.
End Sides.

Section Ask.
Context {D SE ER A : Type} (entries : D -> list (bytes * bytes)) (item : bytes * bytes -> prog D SE (result ER A)) (d : D).
Context (Hs : om_sorted bytes_cmp (entries d)).
Context (Hi : forall kv, still (item kv) d).
Definition left_of (c : cursor) : list (bytes * bytes) :=
  c_have c ++ match c_next c with Some (lo, _) => piece lo None (entries d) | None => [] end.

Lemma next_leaf_alone cuts : forall lo, exists c',
  exec (next_leaf (SE := SE) entries lo cuts) [] d = ((hd_error (piece lo None (entries d)), c'), d, []) /\ left_of c' = tl (piece lo None (entries d)).
Proof.
  induction cuts as [|c cuts IH]; intros lo; cbn [next_leaf exec].
  - destruct (piece lo None (entries d)) as [|kv kvs]; eexists; cbn [exec]; split; try reflexivity. unfold left_of. cbn [c_have c_next tl]. now rewrite app_nil_r.
  - rewrite (piece_split lo c _ Hs). destruct (piece lo (Some c) (entries d)) as [|kv kvs]; cbn [app hd_error tl]; [apply IH|].
    eexists. cbn [exec]. split; reflexivity.
Qed.
Lemma ask_alone c : exists c', exec (ask entries item c) [] d = ((option_map (fun kv => ret_of (item kv) [] d) (hd_error (left_of c)), c'), d, []) /\
  left_of c' = tl (left_of c).
Proof.
  unfold ask. rewrite exec_bind.
  assert (exists c', exec (next_entry (SE := SE) entries c) [] d = ((hd_error (left_of c), c'), d, []) /\ left_of c' = tl (left_of c)) as [c' [E L]].
  { unfold next_entry, left_of at 1 3. destruct c as [[|kv kvs] n]; cbn [c_have c_next app hd_error tl].
    - destruct n as [[lo cuts]|]; [apply next_leaf_alone|]. eexists. cbn [exec]. split; reflexivity.
    - eexists. cbn [exec]. split; reflexivity. }
  rewrite E. exists c'. split; [|exact L]. destruct (left_of c) as [|kv kvs]; cbn [hd_error option_map fst snd exec]; [reflexivity|].
  rewrite exec_bind, (Hi kv). reflexivity.
Qed.
End Ask.

Section Zip.
Context {DA DB SE EA EB A : Type} (eqb : A -> A -> bool)
  (entries : DA -> list (bytes * bytes)) (item : bytes * bytes -> prog DA SE (result EA A))
  (entries' : DB -> list (bytes * bytes)) (item' : bytes * bytes -> prog DB SE (result EB A)) (d : DA) (d' : DB).
Context (Hs : om_sorted bytes_cmp (entries d)).
Context (Hs' : om_sorted bytes_cmp (entries' d')).
Context (Hi : forall kv, still (item kv) d).
Context (Hi' : forall kv, still (item' kv) d').
Notation answer := (result (lr_error EA EB) bool).
Let val kv := ret_of (item kv) [] d.
Let val' kv := ret_of (item' kv) [] d'.
Notation left' := (left_of entries' d').
Let iter (kv : bytes * bytes) := on_first (DB := DB) (item kv).
Let body := fun l c => on_second (DA := DA) (same_next (EA := EA) eqb entries' item' l c).
Notation loop_answer := (result (lr_error answer EA) unit * cursor)%type.

(** What the rest of [zip_both] makes of the end of the loop. *)
Definition after_loop (x : loop_answer) : prog (DA * DB) SE answer :=
  match fst x with
  | Err (LeftE r) => Ret r
  | Err (RightE e) => bind (on_second (ask entries' item' (snd x))) (fun y =>
      Ret (match fst y with Some _ => Err (LeftE e) | None => Ok false end))
  | Ok _ => bind (on_second (ask entries' item' (snd x))) (fun y =>
      Ret (match fst y with Some _ => Ok false | None => Ok true end))
  end.
Definition ends (p : prog (DA * DB) SE loop_answer) (r : answer) : Prop :=
  exec (bind p after_loop) [] (d, d') = (r, (d, d'), []).

Lemma ends_leaf rest more : (forall c, ends (rest c) (zip_longest_eq eqb (map val more) (map val' (left' c)))) ->
  forall kvs c, ends (leaf_loop iter body rest kvs c) (zip_longest_eq eqb (map val (kvs ++ more)) (map val' (left' c))).
Proof.
  intros H. induction kvs as [|kv kvs IH]; intros c; cbn [leaf_loop app]; [apply H|].
  unfold ends. rewrite exec_bind. rewrite exec_bind. unfold iter at 1. rewrite exec_first, (Hi kv). cbn [map].
  destruct (ask_alone entries' item' d' Hs' Hi' c) as [c' [Ec Lc]].
  change (ret_of (item kv) [] d) with (val kv). destruct (val kv) as [a|e] eqn:Ev.
  - rewrite exec_bind. unfold body at 1, same_next. rewrite exec_second, exec_bind, Ec. cbn [exec fst snd].
    destruct (left' c) as [|kv' kvs']; cbn [hd_error option_map map zip_longest_eq tl] in *.
    + cbn [exec]. unfold after_loop. cbn [fst snd exec]. reflexivity.
    + change (ret_of (item' kv') [] d') with (val' kv'). destruct (val' kv') as [b|e]; cbn [exec]; [|unfold after_loop; cbn [fst snd exec]; reflexivity].
      destruct (eqb a b); cbn [exec]; [|unfold after_loop; cbn [fst snd exec]; reflexivity].
      rewrite <- exec_bind. rewrite <- Lc. apply IH.
  - cbn [exec]. unfold after_loop. cbn [fst snd]. rewrite exec_bind, exec_second, Ec. cbn [exec fst snd].
    destruct (left' c) as [|kv' kvs']; reflexivity.
Qed.
Lemma ends_loop cuts : forall lo c, ends (loop_from (fun d => entries (fst d)) iter body lo cuts c) (zip_longest_eq eqb (map val (piece lo None (entries d))) (map val' (left' c))).
Proof.
  induction cuts as [|ct cuts IH]; intros lo c; unfold ends; cbn [loop_from bind exec fst].
  - rewrite <- (app_nil_r (piece lo None (entries d))) at 2. apply (ends_leaf _ []). clear c. intros c. unfold ends. cbn [bind exec]. unfold after_loop. cbn [fst snd].
    rewrite exec_bind, exec_second. destruct (ask_alone entries' item' d' Hs' Hi' c) as [c' [Ec Lc]]. rewrite Ec. cbn [exec fst snd].
    destruct (left' c); reflexivity.
  - rewrite (piece_split lo ct _ Hs). apply ends_leaf. intros c'. apply IH.
Qed.
Lemma zip_alone cuts cuts' : exec (zip_both eqb entries item entries' item' cuts cuts') [] (d, d') =
  (zip_longest_eq eqb (map val (entries d)) (map val' (entries' d')), (d, d'), []).
Proof. pose proof (ends_loop cuts None (cursor_new cuts')) as H. unfold left_of, cursor_new in H. cbn [c_have c_next app] in H. rewrite !piece_all in H. exact H. Qed.
End Zip.

Section Scan.
Context {SE BE : Type}.
Lemma exec_map {X Y} (f : X -> prog db SE Y) d l : (forall x, still (f x) d) -> exec (map_prog f l) [] d = (map (fun x => ret_of (f x) [] d) l, d, []).
Proof. intros H. induction l as [|x l IH]; cbn [map_prog map exec]; auto. rewrite exec_bind, (H x), exec_bind, IH. reflexivity. Qed.
Lemma now_scan {A} (entries : db -> list (bytes * bytes)) (f : bytes * bytes -> prog db SE (result (sled_error SE BE) A)) d :
  (forall kv, still (next (f kv)) d) -> now SE (scan entries f) d = map (fun kv => ret_of (next (f kv)) [] d) (entries d).
Proof. intros H. unfold now, ret_of, scan. cbn [exec]. now rewrite exec_map. Qed.
End Scan.

Lemma readonly_next {SE BE A} (q : prog db SE (result (sled_error SE BE) A)) : readonly q -> readonly (next q).
Proof. intros H. constructor; auto. intros x. constructor. Qed.
Lemma node_still {k NP SE BE} (cn : codec BE NP) kv d : still (next (node_read (k := k) (SE := SE) cn kv)) d.
Proof.
  apply readonly_still, readonly_next. unfold node_read. apply readonly_bind_ok; [constructor|]. intros i. apply readonly_bind_ok; [|intros v; constructor].
  unfold bincode. destruct (de cn (snd kv)); constructor.
Qed.
Lemma edge_still {k EP SE BE} (ce : codec BE EP) kv d : still (next (edge_read (k := k) (SE := SE) ce kv)) d.
Proof.
  apply readonly_still, readonly_next. unfold edge_read. apply readonly_bind_ok; [constructor|]. intros t. apply readonly_bind_ok.
  - constructor; auto; intros; constructor.
  - intros data. apply readonly_bind_ok; [|intros [p|]; constructor]. unfold opt_de, bincode. destruct data as [b|]; [destruct (de ce b)|]; repeat constructor.
Qed.

Lemma eq_two_alone : forall k NP EP SE BE BE' (cn : codec BE NP) (ce : codec BE EP) (cn' : codec BE' NP) (ce' : codec BE' EP)
    (neqb : NP -> NP -> bool) (eeqb : EP -> EP -> bool) (cuts ecuts cuts' ecuts' : list bytes) (d d' : db),
  (forall x, om_sorted bytes_cmp (tbl x d)) -> (forall x, om_sorted bytes_cmp (tbl x d')) ->
  ret_of (eq_both (k := k) (SE := SE) cn ce cn' ce' neqb eeqb cuts ecuts cuts' ecuts') [] (d, d') =
  try_eq id_eqb neqb eeqb (now SE (s_iter_vertices (k := k) cn) d) (now SE (s_iter_edges (k := k) ce SPO) d)
    (now SE (s_iter_vertices (k := k) cn') d') (now SE (s_iter_edges (k := k) ce' SPO) d').
Proof.
  intros k NP EP SE BE BE' cn ce cn' ce' neqb eeqb cuts ecuts cuts' ecuts' d d' Hs Hs'.
  unfold ret_of, eq_both. rewrite exec_bind, (zip_alone _ _ _ _ _ _ _ (Hs TNode) (Hs' TNode) (fun kv => node_still cn kv d) (fun kv => node_still cn' kv d')).
  unfold try_eq.
  assert (forall BE0 (c0 : codec BE0 NP) (d0 : db), now SE (s_iter_vertices (k := k) c0) d0 = map (fun kv => ret_of (next (node_read (k := k) c0 kv)) [] d0) (t_node d0)) as HN
    by (intros BE0 c0 d0; exact (now_scan t_node (node_read c0) d0 (fun kv => node_still c0 kv d0))).
  rewrite !HN.
  assert (forall BE0 (c0 : codec BE0 EP) (d0 : db), now SE (s_iter_edges (k := k) c0 SPO) d0 = map (fun kv => ret_of (next (edge_read (k := k) c0 kv)) [] d0) (t_spo d0)) as HE.
  { intros BE0 c0 d0. rewrite <- (now_scan t_spo (edge_read c0) d0 (fun kv => edge_still c0 kv d0)). reflexivity. }
  rewrite !HE. destruct (zip_longest_eq _ _ _) as [[|]|e]; cbn [exec]; auto.
  rewrite (zip_alone _ _ _ _ _ _ _ (Hs TSpo) (Hs' TSpo) (fun kv => edge_still ce kv d) (fun kv => edge_still ce' kv d')). reflexivity.
Qed.
