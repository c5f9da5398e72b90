(** C83: try_eq of two sled stores on two databases, others using both. *)
From Coq Require Import Arith NArith List Sorted.
From Verif Require Import Bytes OMap OMapFacts Core IdType IdTypeFacts Store Mem Spec History MemTop Prog Sled SledHistory SledTables SledTop
  SledLeaf SledLazy SledBeside SledCopy SledTwo SledTwoTop SledEqTwo SledEqTwoFacts SledEqTwoTop SledEqTwoAlone Ex ExSled Prop_SledReader Prop_SledTwo.
Import ListNotations.

(** ** C83.  Both databases have been through any number of earlier lives, any number of other callers are using
    each of them; the storage steps of all of them in any order, any of them failing, the leaves of the trees
    ending anywhere.

    [Ok true]: every vertex and edge was in both stores with equal properties, each at some moment during the
    call, or was missing in both, each at some moment.  [Ok false]: some vertex or edge was in one at
    some moment and missing in the other at some moment, or in both with properties that differ.
    Otherwise a storage failure was met by the call, or MissingPropertyData because another caller on that
    database rewrites an edge; it is reported on the side where it was met, or [Ok false] is answered when the
    other side had no more items. *)
Theorem C83_eq : forall k NP EP SE BE BE' E E' (cn : codec BE NP) (ce : codec BE EP) (cn' : codec BE' NP) (ce' : codec BE' EP) mn me mn' me'
    (neqb : NP -> NP -> bool) (eeqb : EP -> EP -> bool)
    (ls : list (life (k := k) (NP := NP) (EP := EP) (SE := SE) (E := E))) (cs : list (handle k * list (op k NP EP E))) (wcuts : nat -> nat -> cutting)
    (ls' : list (life (k := k) (NP := NP) (EP := EP) (SE := SE) (E := E'))) (cs' : list (handle k * list (op k NP EP E'))) (wcuts' : nat -> nat -> cutting)
    (cuts ecuts cuts' ecuts' : list bytes) (schedule : list (who * option SE)) a psA' psB' d',
  codec_ok cn -> codec_ok ce -> codec_ok cn' -> codec_ok ce' ->
  NoDup (life_keys ls ++ session_keys cs) -> NoDup (life_keys ls' ++ session_keys cs') ->
  let d := (lives cn ce mn me ls db_new, lives cn' ce' mn' me' ls' db_new) in
  let p := eq_both (k := k) cn ce cn' ce' neqb eeqb cuts ecuts cuts' ecuts' in
  let ws := l_callers cn ce mn me wcuts 0 cs in
  let ws' := l_callers cn' ce' mn' me' wcuts' 0 cs' in
  interleave2 schedule p ws ws' d = (Ret a, psA', psB', d') ->
  let seen := during2 schedule p ws ws' d in
  let seen' := during2_second schedule p ws ws' d in
  (exists x, (a = Err (LeftE x) \/ a = Ok false) /\
     ((exists y, In (Mine, Some y) schedule /\ x = SledError y) \/ (x = MissingPropertyData /\ exists t, rewritten cs t))) \/
  (exists x, (a = Err (RightE x) \/ a = Ok false) /\
     ((exists y, In (Mine, Some y) schedule /\ x = SledError y) \/ (x = MissingPropertyData /\ exists t, rewritten cs' t))) \/
  (a = Ok true /\
    (forall i, agree_at neqb (had_node (k := k) (SE := SE) cn seen) (had_node (k := k) (SE := SE) cn' seen') (lacked_node (k := k) (SE := SE) cn seen) (lacked_node (k := k) (SE := SE) cn' seen') i) /\
    (forall t, agree_at eeqb (had_edge (k := k) (SE := SE) ce seen) (had_edge (k := k) (SE := SE) ce' seen') (lacked_edge (k := k) (SE := SE) ce seen) (lacked_edge (k := k) (SE := SE) ce' seen') t)) \/
  (a = Ok false /\
    ((exists i, differ_at neqb (had_node (k := k) (SE := SE) cn seen) (had_node (k := k) (SE := SE) cn' seen') (lacked_node (k := k) (SE := SE) cn seen) (lacked_node (k := k) (SE := SE) cn' seen') i) \/
     (exists t, differ_at eeqb (had_edge (k := k) (SE := SE) ce seen) (had_edge (k := k) (SE := SE) ce' seen') (lacked_edge (k := k) (SE := SE) ce seen) (lacked_edge (k := k) (SE := SE) ce' seen') t))).
Proof. exact @eq_two. Qed.
Print Assumptions C83_eq.

(** With nobody else and no failures it is the comparison of the two stores as they are. *)
Theorem C83_alone : forall k NP EP SE BE BE' (cn : codec BE NP) (ce : codec BE EP) (cn' : codec BE' NP) (ce' : codec BE' EP)
    (neqb : NP -> NP -> bool) (eeqb : EP -> EP -> bool) (cuts ecuts cuts' ecuts' : list bytes) (d d' : db),
  (forall x, om_sorted bytes_cmp (tbl x d)) -> (forall x, om_sorted bytes_cmp (tbl x d')) ->
  ret_of (eq_both (k := k) (SE := SE) cn ce cn' ce' neqb eeqb cuts ecuts cuts' ecuts') [] (d, d') =
  try_eq id_eqb neqb eeqb (now SE (s_iter_vertices (k := k) cn) d) (now SE (s_iter_edges (k := k) ce SPO) d)
    (now SE (s_iter_vertices (k := k) cn') d') (now SE (s_iter_edges (k := k) ce' SPO) d').
Proof. exact @eq_two_alone. Qed.
Print Assumptions C83_alone.

(** ** Examples *)
Definition same_life : list (life (k := KU64) (NP := N) (EP := N) (SE := N) (E := N)) :=
  [ Life (Handle (counter 1300) (ulids 7000))
      [ OInsertEdge (tr 7 5 1) 71; OInsertNode (u 2) 2; OInsertEdge (tr 2 5 3) 23; OInsertNode (u 1) 1; OInsertEdge (tr 1 5 2) 12 ]%N [] 50%nat ].
Definition same_db : db := lives nc nc mg mg same_life db_new.
Definition comparing := eq_both (k := KU64) (SE := N) (BE := N) (BE' := N) nc nc nc nc N.eqb N.eqb [to_be_bytes (k := KU64) (u 2)] [] [] [cut].
Definition comparing' := eq_both (k := KU64) (SE := N) (BE := N) (BE' := N) nc nc nc nc N.eqb N.eqb [] [cut] [to_be_bytes (k := KU64) (u 2)] [].
Definition users (l : list exop) := l_callers (SE := N) (BE := N) nc nc mg mg no_cuts 0 [(hd2, l)].
Definition eq_case (p : prog (db * db) N (result (lr_error (sled_error N N) (sled_error N N)) bool)) (l l' : list exop) (d : db * db) schedule :=
  let '(q, _, _, _) := interleave2 schedule p (users l) (users l') d in match q with Ret a => Some a | _ => None end.
(** The first store gets a vertex and the edge it lacks after the vertices have been compared, the second one
    another vertex. *)
Definition on_b' : list exop := [OInsertNode (u 9) 90]%N.
Definition between : list (who * option N) := go Mine 7 ++ go (First 0) 30 ++ go (Second 0) 20 ++ go Mine 60.
Definition before : list (who * option N) := go Mine 4 ++ go (First 0) 30 ++ go (Second 0) 20 ++ go Mine 60.
Definition afterwards : list (who * option N) := go Mine 60 ++ go (First 0) 30 ++ go (Second 0) 20.
Example C83_case :
  NoDup (life_keys start_life ++ session_keys [(hd2, on_a)]) /\ NoDup (life_keys same_life ++ session_keys [(hd2, on_b')]) /\
  eq_case comparing on_a on_b' (start_db, same_db) between = Some (Ok true) /\
  eq_case comparing' on_b' on_a (same_db, start_db) between = Some (Ok true) /\
  eq_case comparing on_a on_b' (start_db, same_db) before = Some (Ok false) /\
  eq_case comparing on_a on_b' (start_db, same_db) afterwards = Some (Ok false) /\
  eq_case comparing on_a on_b' (same_db, same_db) afterwards = Some (Ok true).
Proof. split; [apply nodupb_ok; vm_compute; reflexivity|]. split; [apply nodupb_ok; vm_compute; reflexivity|]. vm_compute. auto 10. Qed.

(** A failure of either database; [Ok false] when the second one has no more vertices. *)
Example C83_errors_case :
  eq_case comparing on_a on_b' (start_db, same_db) (go Mine 1 ++ [(Mine, Some 13%N)] ++ between) = Some (Err (LeftE (SledError 13%N))) /\
  eq_case comparing on_a on_b' (start_db, same_db) (go Mine 3 ++ [(Mine, Some 13%N)] ++ between) = Some (Err (RightE (SledError 13%N))) /\
  eq_case comparing on_a on_b' (start_db, db_new) (go Mine 1 ++ [(Mine, Some 13%N)] ++ afterwards) = Some (Ok false).
Proof. vm_compute. auto. Qed.

(** ** [Ok true] does not say that the stores were equal at any moment. *)
Definition pairs_during (schedule : list (who * option N)) (l l' : list exop) (d : db * db) : list (db * db) :=
  map (fun n => snd (interleave2 (firstn n schedule) comparing (users l) (users l') d)) (seq 0 (Datatypes.S (length schedule))).
Lemma pairs_listed schedule l l' d s1 s2 : schedule = s1 ++ s2 ->
  In (snd (interleave2 s1 comparing (users l) (users l') d)) (pairs_during schedule l l' d).
Proof.
  intros ->. apply in_map_iff. exists (length s1). split.
  - now rewrite firstn_app, Nat.sub_diag, firstn_all, firstn_O, app_nil_r.
  - apply in_seq. rewrite app_length. split; [apply Nat.le_0_l|]. simpl. apply Nat.lt_succ_r, Nat.le_add_r.
Qed.
Definition equal_now (x : db * db) := try_eq (L := sled_error N N) (R := sled_error N N) (id_eqb (k := KU64)) N.eqb N.eqb
  (now N (s_iter_vertices nc) (fst x)) (now N (s_iter_edges nc SPO) (fst x)) (now N (s_iter_vertices nc) (snd x)) (now N (s_iter_edges nc SPO) (snd x)).
Theorem C83_moment_refuted : exists (l l' : list exop) (schedule : list (who * option N)),
  NoDup (life_keys start_life ++ session_keys [(hd2, l)]) /\ NoDup (life_keys same_life ++ session_keys [(hd2, l')]) /\
  eq_case comparing l l' (start_db, same_db) schedule = Some (Ok true) /\
  forall s1 s2, schedule = s1 ++ s2 -> equal_now (snd (interleave2 s1 comparing (users l) (users l') (start_db, same_db))) = Ok false.
Proof.
  exists on_a, on_b', between. split; [apply nodupb_ok; vm_compute; reflexivity|]. split; [apply nodupb_ok; vm_compute; reflexivity|].
  split; [vm_compute; reflexivity|]. intros s1 s2 E.
  assert (Forall (fun x => x = Ok false) (map equal_now (pairs_during between on_a on_b' (start_db, same_db)))) as F.
  { run_through. repeat (apply Forall_cons || apply Forall_nil); reflexivity. }
  eapply Forall_forall in F; [exact F|]. apply in_map. eapply pairs_listed. exact E.
Qed.
Print Assumptions C83_moment_refuted.
