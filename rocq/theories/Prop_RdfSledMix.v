(** C49 and C50 with removals: the RDF store over sled while several callers make calls of every kind. *)
From Coq Require Import NArith List.
From Verif Require Import Bytes BytesFacts Core IdType Store Mem Spec GenSpec Prog Sled SledHistory SledSched SledLeaf SledIndex
  Rdf RdfSpec RdfSled RdfSledSpec RdfSledLeaf RdfSledMixSpec RdfSledMixMain Ex ExSled Prop_RdfSled.
Import ListNotations.

(** Any number of epochs: a process alone, or several at the same time that make calls of every kind
    but keep out of each other's way: none writes an edge that another one takes away.  Names and
    identifiers correspond one to one, and the readers list the graph over entities that single
    calls in some order, each caller's in its own, produce. *)
Theorem C49_removals : forall S NP EP SE BE E (seqb : S -> S -> bool)
  (cs : codec BE S) (cu : codec BE (Id KUlid)) (cn : codec BE NP) (ce : codec BE EP) mn me,
  (forall a b, seqb a b = true <-> a = b) ->
  codec_ok cs -> codec_ok cu -> codec_ok cn -> codec_ok ce -> codec_total cu ->
  forall es : list (mepoch (S := S) (NP := NP) (EP := EP) (SE := SE) (E := E)),
  NoDup (flat_map m_keys es) ->
  let d := m_epochs cs cu cn ce mn me es rdb_new in
  m_apart (SE := SE) cs cu cn ce mn me es rdb_new ->
  one_to_one (name_now (SE := SE) cs cu d) (id_now (SE := SE) cs cu d) /\
  exists known eg, (forall s, name_now (SE := SE) cs cu d s <> None <-> In s known) /\
    rs_shows SE cs cu cn ce d eg /\
    m_effects (BE := BE) seqb mn me (by_name (id_now (SE := SE) cs cu d)) es [] e_empty known eg.
Proof. exact @main_mixed_epochs. Qed.
Print Assumptions C49_removals.

(** Names and identifiers stay. *)
Theorem C49_removals_stable : forall S NP EP SE BE E (seqb : S -> S -> bool)
  (cs : codec BE S) (cu : codec BE (Id KUlid)) (cn : codec BE NP) (ce : codec BE EP) mn me,
  (forall a b, seqb a b = true <-> a = b) ->
  codec_ok cs -> codec_ok cu -> codec_ok cn -> codec_ok ce ->
  forall es es' : list (mepoch (S := S) (NP := NP) (EP := EP) (SE := SE) (E := E)),
  NoDup (flat_map m_keys (es ++ es')) -> m_apart (SE := SE) cs cu cn ce mn me (es ++ es') rdb_new ->
  let d := m_epochs cs cu cn ce mn me es rdb_new in
  let d' := m_epochs cs cu cn ce mn me (es ++ es') rdb_new in
  (forall s i, name_now (SE := SE) cs cu d s = Some i -> name_now (SE := SE) cs cu d' s = Some i) /\
  (forall i s, id_now (SE := SE) cs cu d i = Some s -> id_now (SE := SE) cs cu d' i = Some s).
Proof. exact @main_mixed_stable. Qed.
Print Assumptions C49_removals_stable.

(** What is true of callers that insert, merge and remove at the same time: the graph is the one that
    their single calls produce in some order, each caller's in its own.  A call that answered
    without a failure of the index or the graph answered as it should for the names that had an
    identifier at some moment between the beginning and the end; it has done nothing if it
    answered that a name has none, and all of its single calls otherwise.  A call that reported
    a failure has done a first part of its single calls (C50_remove_refuted shows that the names
    cannot be those of that place in the order).
    Missing: next to removals of an edge that another caller writes. *)
Theorem C50_removals_partial : forall S NP EP SE BE E (seqb : S -> S -> bool)
  (cs : codec BE S) (cu : codec BE (Id KUlid)) (cn : codec BE NP) (ce : codec BE EP) mn me,
  (forall a b, seqb a b = true <-> a = b) ->
  codec_ok cs -> codec_ok cu -> codec_ok cn -> codec_ok ce -> codec_total cu ->
  forall (es : list (mepoch (S := S) (NP := NP) (EP := EP) (SE := SE) (E := E))) cuts (k : rcrowd),
  NoDup (flat_map m_keys (es ++ [MTogether cuts k])) ->
  let d := m_epochs cs cu cn ce mn me es rdb_new in
  let pd := m_crowd (SE := SE) cs cu cn ce mn me cuts k d in
  let d' := snd pd in
  let ls := map snd (rc_callers k) in
  m_apart (SE := SE) cs cu cn ce mn me es rdb_new -> r_apart (by_name (id_now (SE := SE) cs cu d')) (rc_callers k) ->
  one_to_one (name_now (SE := SE) cs cu d') (id_now (SE := SE) cs cu d') /\
  (forall s i, name_now (SE := SE) cs cu d s = Some i -> name_now (SE := SE) cs cu d' s = Some i) /\
  exists known eg known' ss s,
    (forall s, name_now (SE := SE) cs cu d s <> None <-> In s known) /\
    (forall s, name_now (SE := SE) cs cu d' s <> None <-> In s known') /\
    named (flat_map given (concat ls)) known known' /\
    m_effects (BE := BE) seqb mn me (by_name (id_now (SE := SE) cs cu d')) es [] e_empty known eg /\
    Forall2 (r_log_among_so_far (SE := SE) (BE := BE) seqb known known') ls ss /\ shuffle ss s /\
    (forall i l rs h', nth_error ls i = Some l -> nth_error (fst pd) i = Some (Ret (rs, h')) ->
       exists si, nth_error ss i = Some si /\ r_log_among seqb known known' l rs si) /\
    rs_shows SE cs cu cn ce d' (e_run seqb mn me (by_name (id_now (SE := SE) cs cu d')) known' s eg).
Proof. exact @main_mixed. Qed.
Print Assumptions C50_removals_partial.

(** ** Examples *)
Definition rm_life : list (mepoch (S := N) (NP := N) (EP := N) (SE := N) (E := N)) :=
  [ MAlone (RLife (rh 100 10) [ RInsertNode (nm 1) 1; RInsertEdge (Triple (nm 1) (nm 4) (nm 2)) 12; RInsertEdge (Triple (nm 3) (nm 4) (nm 1)) 31;
      RInsertEdge (Triple (nm 2) (nm 4) (nm 3)) 23 ] [] 90) ].
Definition rm_crowd : rcrowd (S := N) (NP := N) (EP := N) (SE := N) (E := N) :=
  RCrowd [ (rh 200 20, [ RRemoveNode (nm 1); RRemoveNode (nm 9); RRemoveEdge (Triple (nm 2) (nm 4) (nm 3)) ]);
           (rh 300 30, [ RInsertEdge (Triple (nm 2) (nm 5) (nm 3)) 25; RMergeNode (nm 1) 7 ]);
           (rh 400 40, [ RMerge (RdfSource [Ok (nm 3, 3); Ok (nm 9, 9)] [Ok (Triple (nm 7) (nm 4) (nm 3), 73)]); RRemoveNode (nm 8) ]) ]
    (times [(0, 2); (1, 8); (2, 4); (0, 4); (1, 30)]%nat ++ (0%nat, Some 77) :: times [(0, 20); (2, 40)]%nat).
Definition rm_cuts (i j : nat) : cutting := ([to_be_bytes (ul 11); to_be_bytes (ul 12)], [to_be_bytes (ul 11)]).
Definition mdb es : rdb := m_epochs (SE := N) (E := N) nc uc nc nc mg mg es rdb_new.
Definition rm_run := m_crowd (SE := N) nc uc nc nc mg mg rm_cuts rm_crowd (mdb rm_life).
Definition edges_now (o : edge_order) (d : rdb) := ret_of (rs_iter_edges (SE := N) nc uc nc o) [] d.
Lemma rm_apart rho : r_apart (by_name rho) (rc_callers rm_crowd).
Proof.
  intros i j hi hj li lj o o' t Hne Hi Hj Ho Ho' He (u & p & Hu & Ht).
  destruct i as [|[|[|[|i]]]]; simpl in Hi; try discriminate; injection Hi as <- <-; simpl in Ho;
    repeat (destruct Ho as [<-|Ho]; [|try (now destruct Ho)]); simpl in He; try contradiction;
    (destruct j as [|[|[|[|j]]]]; simpl in Hj; try discriminate; injection Hj as <- <-; try (now apply Hne); simpl in Ho';
     repeat (destruct Ho' as [<-|Ho']; [|try (now destruct Ho')]); simpl in Hu;
     repeat match goal with H : _ \/ _ |- _ => destruct H end; try contradiction; try discriminate;
     try match goal with H : RInsertEdge _ _ = RInsertEdge _ _ |- _ => injection H as <- <- | H : RMergeEdge _ _ = RMergeEdge _ _ |- _ => injection H as <- <- end;
     subst t; simpl in *; discriminate).
Qed.

(** The first caller fails to remove vertex 1 because of the storage, finds name 9 but not yet the
    vertex, and removes an edge; meanwhile the second one adds an edge and merges into vertex 1, and the third
    one names and merges vertex 9 and does not find name 8. *)
Example C50_removals_case :
  NoDup (flat_map m_keys (rm_life ++ [MTogether rm_cuts rm_crowd])) /\
  m_apart (SE := N) nc uc nc nc mg mg rm_life rdb_new /\ (forall rho, r_apart (by_name rho) (rc_callers rm_crowd)) /\
  map answers (fst rm_run) =
    [ Some [Err (LeftE (GraphStorageError (SledError 77))); Ok tt; Ok tt]; Some [Ok tt; Ok tt];
      Some [Ok tt; Err (LeftE (NameNotFound 8))] ] /\
  listed (snd rm_run) = [Ok (nm 1, 17); Ok (nm 3, 3); Ok (nm 9, 9)] /\
  edges_now SPO (snd rm_run) =
    [ Ok (Triple (nm 1) (nm 4) (nm 2), 12); Ok (Triple (nm 2) (nm 5) (nm 3), 25);
      Ok (Triple (nm 3) (nm 4) (nm 1), 31); Ok (Triple (nm 7) (nm 4) (nm 3), 73) ] /\
  edges_now OSP (snd rm_run) =
    [ Ok (Triple (nm 3) (nm 4) (nm 1), 31); Ok (Triple (nm 1) (nm 4) (nm 2), 12);
      Ok (Triple (nm 2) (nm 5) (nm 3), 25); Ok (Triple (nm 7) (nm 4) (nm 3), 73) ].
Proof.
  split; [apply nodupb_ok; vm_compute; reflexivity|]. split; [simpl; auto|]. split; [exact rm_apart|]. vm_compute. repeat split.
Qed.

(** ** Next to a removal of an edge that another caller writes the lists disagree, as after no calls in any order. *)
Theorem C50_edge_refuted : exists (callers : list (rhandle * list xrop)) schedule t e,
  NoDup (flat_map m_keys rm_life ++ callers_keys callers) /\
  let pd := m_crowd (SE := N) nc uc nc nc mg mg (fun _ _ => ([], [])) (RCrowd callers schedule) (mdb rm_life) in
  map answers (fst pd) = [Some [Ok tt]; Some [Ok tt]] /\
  In (Ok (t, e)) (edges_now SPO (snd pd)) /\ forall e', ~ In (Ok (t, e')) (edges_now POS (snd pd)).
Proof.
  exists [ (rh 200 20, [RRemoveEdge (Triple (nm 1) (nm 4) (nm 2))]); (rh 300 30, [RInsertEdge (Triple (nm 1) (nm 4) (nm 2)) 33]) ],
    (times [(0, 5); (1, 20); (0, 20)]%nat), (Triple (nm 1) (nm 4) (nm 2)), 33.
  split; [apply nodupb_ok; vm_compute; reflexivity|]. cbv zeta. split; [vm_compute; reflexivity|]. split; [vm_compute; auto|].
  match goal with |- forall e', ~ In _ ?l => assert (l = [Ok (Triple (nm 3) (nm 4) (nm 1), 31); Ok (Triple (nm 2) (nm 4) (nm 3), 23)]) as -> by (vm_compute; reflexivity) end.
  intros e' H. repeat (destruct H as [H|H]; [discriminate|]). destruct H.
Qed.
Print Assumptions C50_edge_refuted.

Example C49_removals_case :
  NoDup (flat_map m_keys (rm_life ++ [MTogether rm_cuts rm_crowd])) /\
  m_apart (SE := N) nc uc nc nc mg mg (rm_life ++ [MTogether rm_cuts rm_crowd]) rdb_new /\
  let d := mdb (rm_life ++ [MTogether rm_cuts rm_crowd]) in
  map (name_now (SE := N) nc uc d) [1; 5; 7; 8; 9] = [Some (ul 10); Some (ul 30); Some (ul 41); None; Some (ul 40)].
Proof.
  split; [apply nodupb_ok; vm_compute; reflexivity|]. split; [|vm_compute; reflexivity].
  split; [exact I|]. split; [|exact I]. apply rm_apart.
Qed.
