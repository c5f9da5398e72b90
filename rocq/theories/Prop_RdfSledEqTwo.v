(** C84: try_eq of two RDF stores over sled on two databases, others using both. *)
From Coq Require Import Arith NArith List Sorted.
From Verif Require Import Bytes OMap OMapFacts Core IdType IdTypeFacts Store Mem MemIndex Spec GenSpec History MemTop Prog Sled SledHistory SledTables SledLeaf SledLazy
  SledIndex Rdf RdfSpec RdfSled RdfSledSpec SledTwo RdfSledTwo SledEqTwo RdfSledEqTwo RdfSledEqTwoFacts RdfSledEqTwoTop SledBeside RdfSledLeaf
  Ex ExSled Prop_SledReader Prop_RdfSled Prop_RdfSledReader.
Import ListNotations.

(** ** C84.  Both databases were left by processes that may have failed and died; [ts] and [ts'] are the others
    on them; the storage steps of all of them in any order, any of them failing, the leaves of the trees ending
    anywhere.

    The answer is the one of C23 for what the two stores hand over: everything of that was there at some
    moment, under a name it had then or got later; it is in order; and its errors are failures that were met or
    MissingPropertyData of edges that others rewrite.  On either side, what was there all the time is
    among it, or no further items would have changed the answer. *)
Theorem C84_eq : forall S NP EP SE BE BE' E E' (seqb : S -> S -> bool) (neqb : NP -> NP -> bool) (eeqb : EP -> EP -> bool)
  (cs : codec BE S) (cu : codec BE (Id KUlid)) (cn : codec BE NP) (ce : codec BE EP)
  (cs' : codec BE' S) (cu' : codec BE' (Id KUlid)) (cn' : codec BE' NP) (ce' : codec BE' EP) mn me mn' me',
  (forall a b, seqb a b = true <-> a = b) ->
  codec_ok cs -> codec_ok cu -> codec_ok cn -> codec_ok ce -> codec_total cu ->
  codec_ok cs' -> codec_ok cu' -> codec_ok cn' -> codec_ok ce' -> codec_total cu' ->
  forall (es : list (repoch (S := S) (NP := NP) (EP := EP) (SE := SE) (E := E))) (ts : list (rhandle * list (rop S NP EP E))) (wcuts : nat -> nat -> cutting)
    (es' : list (repoch (S := S) (NP := NP) (EP := EP) (SE := SE) (E := E'))) (ts' : list (rhandle * list (rop S NP EP E'))) (wcuts' : nat -> nat -> cutting)
    (cuts ecuts cuts' ecuts' : list bytes) (schedule : list (who * option SE)) a psA' psB' d',
  NoDup (flat_map epoch_keys es ++ callers_keys ts) -> Forall RdfSledSpec.calm es ->
  NoDup (flat_map epoch_keys es' ++ callers_keys ts') -> Forall RdfSledSpec.calm es' ->
  let d := (rs_epochs cs cu cn ce mn me es rdb_new, rs_epochs cs' cu' cn' ce' mn' me' es' rdb_new) in
  let p := req_both seqb neqb eeqb cs cu cn ce cs' cu' cn' ce' cuts ecuts cuts' ecuts' in
  let ws := rl_callers cs cu cn ce mn me wcuts 0 ts in
  let ws' := rl_callers cs' cu' cn' ce' mn' me' wcuts' 0 ts' in
  interleave2 schedule p ws ws' d = (Ret a, psA', psB', d') ->
  let seen := during2 schedule p ws ws' d in
  let seen' := during2_second schedule p ws ws' d in
  let eq := try_eq (entity_eqb seqb) neqb eeqb in
  exists s s', a = eq (rs_nodes s) (rs_edges s) (rs_nodes s') (rs_edges s') /\
    r_handed2 cs cu cn ce seen (fst d') (fun y => In (Mine, Some y) schedule) ts s /\
    r_handed2 cs' cu' cn' ce' seen' (snd d') (fun y => In (Mine, Some y) schedule) ts' s' /\
    (r_all_nodes2 cs cu cn seen (fst d') (rs_nodes s) \/ forall more edges edges', eq (rs_nodes s ++ more) edges (rs_nodes s') edges' = a) /\
    (r_all_nodes2 cs' cu' cn' seen' (snd d') (rs_nodes s') \/ forall more edges edges', eq (rs_nodes s) edges (rs_nodes s' ++ more) edges' = a) /\
    (r_all_edges2 cs cu ce seen (fst d') (rs_edges s) \/ forall more, eq (rs_nodes s) (rs_edges s ++ more) (rs_nodes s') (rs_edges s') = a) /\
    (r_all_edges2 cs' cu' ce' seen' (snd d') (rs_edges s') \/ forall more, eq (rs_nodes s) (rs_edges s) (rs_nodes s') (rs_edges s' ++ more) = a).
Proof. exact @req_two. Qed.
Print Assumptions C84_eq.

(** [Ok true]: what was in one of the stores all the time was in it, at some moment, with properties
    equal to those that the other store had, at some moment, for something of the same name. *)
Theorem C84_true : forall S NP EP SE BE BE' E E' (seqb : S -> S -> bool) (neqb : NP -> NP -> bool) (eeqb : EP -> EP -> bool)
  (cs : codec BE S) (cu : codec BE (Id KUlid)) (cn : codec BE NP) (ce : codec BE EP)
  (cs' : codec BE' S) (cu' : codec BE' (Id KUlid)) (cn' : codec BE' NP) (ce' : codec BE' EP) mn me mn' me',
  (forall a b, seqb a b = true <-> a = b) ->
  codec_ok cs -> codec_ok cu -> codec_ok cn -> codec_ok ce -> codec_total cu ->
  codec_ok cs' -> codec_ok cu' -> codec_ok cn' -> codec_ok ce' -> codec_total cu' ->
  forall (es : list (repoch (S := S) (NP := NP) (EP := EP) (SE := SE) (E := E))) (ts : list (rhandle * list (rop S NP EP E))) (wcuts : nat -> nat -> cutting)
    (es' : list (repoch (S := S) (NP := NP) (EP := EP) (SE := SE) (E := E'))) (ts' : list (rhandle * list (rop S NP EP E'))) (wcuts' : nat -> nat -> cutting)
    (cuts ecuts cuts' ecuts' : list bytes) (schedule : list (who * option SE))  psA' psB' d',
  NoDup (flat_map epoch_keys es ++ callers_keys ts) -> Forall RdfSledSpec.calm es ->
  NoDup (flat_map epoch_keys es' ++ callers_keys ts') -> Forall RdfSledSpec.calm es' ->
  let d := (rs_epochs cs cu cn ce mn me es rdb_new, rs_epochs cs' cu' cn' ce' mn' me' es' rdb_new) in
  let p := req_both seqb neqb eeqb cs cu cn ce cs' cu' cn' ce' cuts ecuts cuts' ecuts' in
  let ws := rl_callers cs cu cn ce mn me wcuts 0 ts in
  let ws' := rl_callers cs' cu' cn' ce' mn' me' wcuts' 0 ts' in
  interleave2 schedule p ws ws' d = (Ret (Ok true), psA', psB', d') ->
  let seen := during2 schedule p ws ws' d in
  let seen' := during2_second schedule p ws ws' d in
  let names := id_now (SE := SE) cs cu (fst d') in
  let names' := id_now (SE := SE) cs' cu' (snd d') in
  (forall e, node_stays SE cs cu cn seen names e -> exists e2 q q', by_name names e2 = by_name names e /\
     node_met SE cs cu cn seen e2 q /\ node_met SE cs' cu' cn' seen' e2 q' /\ neqb q q' = true) /\
  (forall e, node_stays SE cs' cu' cn' seen' names' e -> exists e2 q q', by_name names' e2 = by_name names' e /\
     node_met SE cs cu cn seen e2 q /\ node_met SE cs' cu' cn' seen' e2 q' /\ neqb q q' = true) /\
  (forall t, edge_stays SE cs cu ce seen names t -> exists t2 q q', triple_map (by_name names) t2 = triple_map (by_name names) t /\
     edge_met SE cs cu ce seen t2 q /\ edge_met SE cs' cu' ce' seen' t2 q' /\ eeqb q q' = true) /\
  (forall t, edge_stays SE cs' cu' ce' seen' names' t -> exists t2 q q', triple_map (by_name names') t2 = triple_map (by_name names') t /\
     edge_met SE cs cu ce seen t2 q /\ edge_met SE cs' cu' ce' seen' t2 q' /\ eeqb q q' = true).
Proof. exact @req_two_true. Qed.
Print Assumptions C84_true.

(** With nobody else and no failures it is the comparison of the two stores as they are. *)
Theorem C84_alone : forall S NP EP SE BE BE' (seqb : S -> S -> bool) (neqb : NP -> NP -> bool) (eeqb : EP -> EP -> bool)
  (cs : codec BE S) (cu : codec BE (Id KUlid)) (cn : codec BE NP) (ce : codec BE EP)
  (cs' : codec BE' S) (cu' : codec BE' (Id KUlid)) (cn' : codec BE' NP) (ce' : codec BE' EP) (cuts ecuts cuts' ecuts' : list bytes) (d d' : rdb),
  (forall x, om_sorted bytes_cmp (tbl x (r_trees d))) -> (forall x, om_sorted bytes_cmp (tbl x (r_trees d'))) ->
  ret_of (req_both (SE := SE) seqb neqb eeqb cs cu cn ce cs' cu' cn' ce' cuts ecuts cuts' ecuts') [] (d, d') =
  try_eq (entity_eqb seqb) neqb eeqb (ret_of (rs_iter_vertices cs cu cn) [] d) (ret_of (rs_iter_edges cs cu ce SPO) [] d)
    (ret_of (rs_iter_vertices cs' cu' cn') [] d') (ret_of (rs_iter_edges cs' cu' ce' SPO) [] d').
Proof. exact @req_two_alone. Qed.
Print Assumptions C84_alone.

(** ** Examples *)
Definition r_twin : list xepoch :=
  [ Alone (RLife (rh 1000 500) [ RInsertNode (nm 1) 1; RInsertNode (nm 5) 2; RInsertEdge (Triple (nm 1) (nm 4) (nm 1)) 4;
      RInsertEdge (Triple (nm 5) (nm 1) (nm 5)) 3; RInsertEdge (Triple (nm 6) (nm 4) (nm 6)) 6 ] [] 90) ].
Definition r_later : list xrop := [RInsertNode (nm 9) 90].
Definition r_comparing := req_both (SE := N) (BE := N) (BE' := N) N.eqb N.eqb N.eqb nc uc nc nc nc uc nc nc [to_be_bytes (ul 15)] [] [] [to_be_bytes (ul 505)].
Definition r_users (l : list xrop) := rl_callers (SE := N) (BE := N) nc uc nc nc mg mg no_cuts 0 [(rh 200 20, l)].
Definition r_eq_case (l l' : list xrop) (es es' : list xepoch) schedule :=
  let '(q, _, _, _) := interleave2 schedule r_comparing (r_users l) (r_users l') (xdb es, xdb es') in match q with Ret a => Some a | _ => None end.
Definition go (w : who) (n : nat) : list (who * option N) := List.repeat (w, None) n.
Definition r_between n n' : list (who * option N) := go Mine n ++ go (First 0) 40 ++ go Mine n' ++ go (Second 0) 40 ++ go Mine 90.
(** The first store gives a vertex without a name one while the vertices are compared and gets an edge; the second one gets
    a vertex after that. *)
Example C84_case :
  NoDup (flat_map epoch_keys w_life ++ callers_keys [(rh 200 20, w_ops)]) /\ Forall calm w_life /\
  NoDup (flat_map epoch_keys r_twin ++ callers_keys [(rh 200 20, r_later)]) /\ Forall calm r_twin /\
  r_eq_case w_ops r_later w_life r_twin (r_between 7 5) = Some (Ok true) /\
  r_eq_case w_ops r_later w_life r_twin (r_between 0 5) = Some (Ok false) /\
  r_eq_case w_ops r_later w_life r_twin (r_between 90 0) = Some (Ok false) /\
  r_eq_case w_ops r_later r_twin r_twin (r_between 90 0) = Some (Ok true).
Proof.
  split; [exact w_keys|]. split; [exact w_calm|]. split; [apply nodupb_ok; vm_compute; reflexivity|]. split; [repeat constructor|]. vm_compute. auto.
Qed.

(** Failures of the graph and of the names of either store; [Ok false] when the second one has no more vertices. *)
Example C84_errors_case :
  let failing n := go Mine n ++ [(Mine, Some 13)] ++ r_between 0 60 in
  r_eq_case w_ops r_later w_life r_twin (failing 1%nat) = Some (Err (LeftE (GraphStorageError (SledError 13)))) /\
  r_eq_case w_ops r_later w_life r_twin (failing 2%nat) = Some (Err (LeftE (NameIndexStorageError (ISledError 13)))) /\
  r_eq_case w_ops r_later w_life r_twin (failing 4%nat) = Some (Err (RightE (GraphStorageError (SledError 13)))) /\
  r_eq_case w_ops r_later w_life r_twin (failing 5%nat) = Some (Err (RightE (NameIndexStorageError (ISledError 13)))) /\
  r_eq_case w_ops r_later w_life [] (failing 1%nat) = Some (Ok false).
Proof. vm_compute. auto 10. Qed.

(** ** [Ok true] does not say that the stores were equal at any moment. *)
Definition r_pairs_during (schedule : list (who * option N)) (l l' : list xrop) (d : rdb * rdb) : list (rdb * rdb) :=
  map (fun n => snd (interleave2 (firstn n schedule) r_comparing (r_users l) (r_users l') d)) (seq 0 (Datatypes.S (length schedule))).
Lemma r_pairs_listed schedule l l' d s1 s2 : schedule = s1 ++ s2 ->
  In (snd (interleave2 s1 r_comparing (r_users l) (r_users l') d)) (r_pairs_during schedule l l' d).
Proof.
  intros ->. apply in_map_iff. exists (length s1). split.
  - now rewrite firstn_app, Nat.sub_diag, firstn_all, firstn_O, app_nil_r.
  - apply in_seq. rewrite app_length. split; [apply Nat.le_0_l|]. simpl. apply Nat.lt_succ_r, Nat.le_add_r.
Qed.
Definition r_edges (d : rdb) := ret_of (rs_iter_edges (SE := N) (BE := N) (EP := N) nc uc nc SPO) [] d.
Definition r_equal_now (x : rdb * rdb) := try_eq (entity_eqb N.eqb) N.eqb N.eqb (listed (fst x)) (r_edges (fst x)) (listed (snd x)) (r_edges (snd x)).
Theorem C84_moment_refuted : exists (es es' : list xepoch) (l l' : list xrop) (schedule : list (who * option N)),
  NoDup (flat_map epoch_keys es ++ callers_keys [(rh 200 20, l)]) /\ Forall calm es /\
  NoDup (flat_map epoch_keys es' ++ callers_keys [(rh 200 20, l')]) /\ Forall calm es' /\
  r_eq_case l l' es es' schedule = Some (Ok true) /\
  forall s1 s2, schedule = s1 ++ s2 -> r_equal_now (snd (interleave2 s1 r_comparing (r_users l) (r_users l') (xdb es, xdb es'))) = Ok false.
Proof.
  exists w_life, r_twin, w_ops, r_later, (r_between 7 5). split; [exact w_keys|]. split; [exact w_calm|].
  split; [apply nodupb_ok; vm_compute; reflexivity|]. split; [repeat constructor|].
  split; [vm_compute; reflexivity|]. intros s1 s2 E.
  assert (Forall (fun x => x = Ok false) (map r_equal_now (r_pairs_during (r_between 7 5) w_ops r_later (xdb w_life, xdb r_twin)))) as F.
  { run_through. repeat (apply Forall_cons || apply Forall_nil); reflexivity. }
  eapply Forall_forall in F; [exact F|]. apply in_map. eapply r_pairs_listed. exact E.
Qed.
Print Assumptions C84_moment_refuted.

