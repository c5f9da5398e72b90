(** C76: why calls and readers of an RDF store over sled fail, whatever other processes do at the same time. *)
From Coq Require Import Arith NArith List.
From Verif Require Import Bytes OMap Core IdType Store Mem MemIndex Spec GenSpec History Prog Sled SledHistory SledLeaf SledBeside SledIndex
  Rdf RdfSpec RdfSled RdfSledSpec RdfSledLeaf RdfSledCrowd RdfSledTame Ex ExSled Prop_RdfSled.
Import ListNotations.

(** ** C76.  Crowds of processes with RdfTripleStores have worked on a database, one after another, each with any
    calls, each handle with any Ulids, failing and dying anywhere; another crowd is at work.  A call of one of its
    processes that is through has answered what it answers alone on a storage that works, for some set of known names
    that holds the names it asks for that were known before and no names but those known afterwards; or it reports one
    of these: a failure of the storage in one of the steps of that process; a failure of a serialiser; the
    identifier that a new name of the call has got from another process that gives the same name; or that an
    identifier drawn for a name was in use, which needs Ulids that are not all different. *)
Theorem C76_calls : forall S NP EP SE BE E (seqb : S -> S -> bool)
    (cs : codec BE S) (cu : codec BE (Id KUlid)) (cn : codec BE NP) (ce : codec BE EP) mn me
    (past : list (name_crowd (S := S) (NP := NP) (EP := EP) (SE := SE) (E := E))) (c : name_crowd (S := S) (NP := NP) (EP := EP) (SE := SE) (E := E)) i h l rs h',
  (forall a b, seqb a b = true <-> a = b) -> codec_ok cs -> codec_ok cu -> codec_ok cn -> codec_ok ce ->
  let d := name_crowds cs cu cn ce mn me past rdb_new in
  let after := name_now (SE := SE) cs cu (snd (name_run cs cu cn ce mn me c d)) in
  nth_error (nc_callers c) i = Some (h, l) ->
  nth_error (fst (name_run cs cu cn ce mn me c d)) i = Some (Ret (rs, h')) ->
  Forall2 (r_answers_well seqb cs cu cn ce c d i after) l rs.
Proof. exact @name_answers. Qed.
Print Assumptions C76_calls.

(** So a process none of whose storage steps fails, with serialisers that accept everything, with Ulids that are all
    different, and with new names that no other process gives, gets the answers of a process that is alone. *)
Theorem C76_alike : forall S NP EP SE BE E (seqb : S -> S -> bool)
    (cs : codec BE S) (cu : codec BE (Id KUlid)) (cn : codec BE NP) (ce : codec BE EP) mn me
    (past : list (name_crowd (S := S) (NP := NP) (EP := EP) (SE := SE) (E := E))) (c : name_crowd (S := S) (NP := NP) (EP := EP) (SE := SE) (E := E)) i h l rs h',
  (forall a b, seqb a b = true <-> a = b) -> codec_ok cs -> codec_ok cu -> codec_ok cn -> codec_ok ce ->
  codec_total cs -> codec_total cu -> codec_total cn -> codec_total ce ->
  let d := name_crowds cs cu cn ce mn me past rdb_new in
  let after := name_now (SE := SE) cs cu (snd (name_run cs cu cn ce mn me c d)) in
  nth_error (nc_callers c) i = Some (h, l) -> (forall x, ~ In (i, Some x) (nc_schedule c)) ->
  fresh_names (SE := SE) cs cu c d ->
  (forall s j, In s (flat_map given l) -> name_now (SE := SE) cs cu d s = None -> j <> i -> ~ names_it c j s) ->
  nth_error (fst (name_run cs cu cn ce mn me c d)) i = Some (Ret (rs, h')) ->
  Forall2 (fun o r => exists known, (forall s, In s known -> after s <> None) /\
     (forall s, In s (sought o) -> name_now (SE := SE) cs cu d s <> None -> In s known) /\ r = r_answer seqb known o) l rs.
Proof. exact @name_alike. Qed.
Print Assumptions C76_alike.

(** Readers next to such a crowd: iterations over vertices report storage failures, and identifiers that cannot be
    serialised; iterations over edges also missing property data; queries also names that were not known when
    they started, and, from the store of their results, names that they met twice (see C42). *)
Theorem C76_readers : forall S NP EP SE BE E (seqb : S -> S -> bool)
    (cs : codec BE S) (cu : codec BE (Id KUlid)) (cn : codec BE NP) (ce : codec BE EP) mn me
    (past : list (name_crowd (S := S) (NP := NP) (EP := EP) (SE := SE) (E := E))) (c : name_crowd (S := S) (NP := NP) (EP := EP) (SE := SE) (E := E)),
  (forall a b, seqb a b = true <-> a = b) -> codec_ok cs -> codec_ok cu -> codec_ok cn -> codec_ok ce ->
  let d := name_crowds cs cu cn ce mn me past rdb_new in
  let next_to := fun A (reader : prog rdb SE A) =>
    interleave (nc_schedule c) (beside reader (name_programs cs cu cn ce mn me c)) d in
  (forall cuts xs e, has_read xs (fst (next_to _ (rl_iter_vertices cs cu cn cuts))) -> In (Err e) xs -> r_troubled cu (nc_schedule c) e) /\
  (forall cuts e, has_read (Err e) (fst (next_to _ (rl_vertices cs cu cuts))) -> r_troubled cu (nc_schedule c) e) /\
  (forall cuts o xs e, has_read xs (fst (next_to _ (rl_iter_edges cs cu ce cuts o))) -> In (Err e) xs ->
     r_troubled cu (nc_schedule c) e \/ e = GraphStorageError MissingPropertyData) /\
  (forall cuts o xs e, has_read xs (fst (next_to _ (rl_iter_edges_with_props cs cu cn ce cuts o))) -> In (Err e) xs ->
     r_troubled cu (nc_schedule c) e \/ e = GraphStorageError MissingPropertyData) /\
  (forall cuts g u (q : query (entity S)) e, has_read (Err e) (fst (next_to _ (rl_run cs cu cn ce cuts seqb g u q))) ->
     match e with
     | LeftE e => q_troubled cs cu (nc_schedule c) d q e
     | RightE (NameIndexStorageError e) => exists s i, e = DuplicateRight s i i /\
         name_now (SE := SE) cs cu (snd (next_to _ (rl_run cs cu cn ce cuts seqb g u q))) s = Some i
     | RightE _ => True
     end).
Proof. exact @name_readers. Qed.
Print Assumptions C76_readers.

(** ** Examples *)
Notation x_crowd := (name_crowd (S := N) (NP := N) (EP := N) (SE := N) (E := N)).
Definition no_cuts (i j : nat) : cutting := ([], []).
(** The second process dies after looking for a name. *)
Definition first_crowd : x_crowd := NameCrowd
  [ (rh 100 10, [RInsertNode (nm 1) 11; RInsertEdge (Triple (nm 1) (nm 4) (nm 2)) 12; RInsertNode (nm 3) 13]); (rh 150 60, [RInsertNode (nm 7) 70]) ]
  no_cuts (times [(0, 9); (1, 1); (0, 60)]%nat).
(** Two processes name 9 at the same time; the third one has Ulids that are in use. *)
Definition second_crowd : x_crowd := NameCrowd
  [ (rh 200 20, [RInsertNode (nm 9) 91; RRemoveNode (nm 1); RRemoveNode (nm 8)]);
    (rh 300 30, [RInsertNode (nm 9) 92; RMergeNode (nm 3) 5; RRemoveEdge (Triple (nm 1) (nm 4) (nm 2))]);
    (rh 400 10, [RInsertNode (nm 5) 50; RInsertNode (nm 1) 15]) ]
  no_cuts (times [(0, 1); (1, 1); (0, 1); (1, 1); (2, 9)]%nat ++ [(1%nat, Some 77)] ++ times [(0, 40); (1, 40); (2, 40)]%nat).
Definition db_1 : rdb := name_crowds (SE := N) nc uc nc nc mg mg [first_crowd] rdb_new.
Definition run_2 := name_run (SE := N) nc uc nc nc mg mg second_crowd db_1.
Example C76_case :
  map answers (fst (name_run (SE := N) nc uc nc nc mg mg first_crowd rdb_new)) = [Some [Ok tt; Ok tt; Ok tt]; None] /\
  map (name_now (SE := N) nc uc db_1) [1; 2; 3; 4; 7; 9] = [Some (ul 10); Some (ul 12); Some (ul 13); Some (ul 11); None; None] /\
  map answers (fst run_2) =
    [ Some [Ok tt; Ok tt; Err (LeftE (NameNotFound 8))];
      Some [Err (LeftE (NameIndexStorageError (SDuplicateRight 9 (ul 20) (ul 30)))); Err (LeftE (NameIndexStorageError (ISledError 77))); Ok tt];
      Some [Err (LeftE (NameIndexStorageError (SDuplicateLeft (ul 10) 1 5))); Ok tt] ] /\
  map (name_now (SE := N) nc uc (snd run_2)) [1; 2; 3; 4; 5; 7; 9] =
    [Some (ul 10); Some (ul 12); Some (ul 13); Some (ul 11); None; None; Some (ul 20)] /\
  listed (snd run_2) = [Ok (nm 3, 13); Ok (nm 9, 91)].
Proof. repeat split; vm_compute; reflexivity. Qed.

(** The premises of [C76_alike] for the second process of this crowd: the first one meets a storage failure, the third one gives other names. *)
Definition third_crowd : x_crowd := NameCrowd
  [ (rh 200 20, [RInsertNode (nm 8) 91]);
    (rh 300 30, [RInsertEdge (Triple (nm 9) (nm 4) (nm 2)) 92; RMergeNode (nm 3) 5; RRemoveNode (nm 8)]);
    (rh 400 40, [RInsertNode (nm 5) 50; RInsertNode (nm 1) 15]) ]
  no_cuts ([(0%nat, None); (0%nat, Some 55)] ++ times [(1, 4); (2, 3); (1, 40); (2, 40)]%nat).
Definition run_3 := name_run (SE := N) nc uc nc nc mg mg third_crowd db_1.
Example C76_alike_case :
  (forall x, ~ In (1%nat, Some x) (nc_schedule third_crowd)) /\
  fresh_names (SE := N) nc uc third_crowd db_1 /\
  (forall s j, In s (flat_map given [RInsertEdge (E := N) (Triple (nm 9) (nm 4) (nm 2)) 92; RMergeNode (nm 3) 5; RRemoveNode (nm 8)]) ->
     name_now (SE := N) nc uc db_1 s = None -> j <> 1%nat -> ~ names_it third_crowd j s) /\
  map answers (fst run_3) = [Some [Err (LeftE (NameIndexStorageError (ISledError 55)))]; Some [Ok tt; Ok tt; Err (LeftE (NameNotFound 8))]; Some [Ok tt; Ok tt]].
Proof.
  split; [|split; [|split]].
  - assert (forallb (fun p : nat * option N => match p with (1%nat, Some _) => false | _ => true end) (nc_schedule third_crowd) = true) as H by (vm_compute; reflexivity).
    rewrite forallb_forall in H. intros x Hx. specialize (H _ Hx). discriminate.
  - split.
    { apply (NoDup_map_inv to_be_bytes), nodupb_ok. vm_compute. reflexivity. }
    assert (forallb (fun i => match id_now (SE := N) nc uc db_1 i with None => true | _ => false end) (callers_ulids (nc_callers third_crowd)) = true) as H
      by (vm_compute; reflexivity).
    rewrite forallb_forall in H. intros i Hi. specialize (H i Hi). destruct (id_now nc uc db_1 i); [discriminate|reflexivity].
  - intros s j Hs _ Hj (h & l & Hl & Hin). apply (f_equal (option_map snd)) in Hl. cbn [third_crowd nc_callers] in Hl. simpl in Hs.
    destruct j as [|[|[|j]]]; cbn [nth_error option_map snd] in Hl.
    + injection Hl as <-. simpl in Hin. destruct Hin as [<-|[]]. repeat (destruct Hs as [Hs|Hs]; [discriminate|]). destruct Hs.
    + now apply Hj.
    + injection Hl as <-. simpl in Hin. destruct Hin as [<-|[<-|[]]]; repeat (destruct Hs as [Hs|Hs]; [discriminate|]); destruct Hs.
    + destruct j; discriminate.
  - vm_compute. reflexivity.
Qed.

(** Readers next to a process that removes an edge and one that names 9: an iteration over the edges is told of missing
    property data, a query that asks for 9 too early is told so, and another one meets a storage failure. *)
Definition fourth_crowd (schedule : list (nat * option N)) : x_crowd := NameCrowd
  [ (rh 200 20, [RRemoveEdge (Triple (nm 1) (nm 4) (nm 2))]); (rh 300 30, [RInsertNode (nm 9) 92]) ] no_cuts schedule.
Definition seen_by {A} (reader : prog rdb N A) schedule :=
  fst (interleave schedule (beside reader (name_programs nc uc nc nc mg mg (fourth_crowd schedule))) db_1).
Definition q_9 : query (entity N) := QNodeProps [nm 1; nm 9].
Example C76_readers_case :
  has_read [Err (GraphStorageError MissingPropertyData)]
    (seen_by (rl_iter_edges (BE := N) nc uc nc [] SPO) (times [(0, 1); (1, 40); (0, 40)]%nat)) /\
  has_read (Err (LeftE (NameNotFound 9)))
    (seen_by (rl_run nc uc nc nc (fun _ => []) N.eqb (ulids 500) (ulids 600) q_9) (times [(0, 2); (2, 40); (0, 40)]%nat)) /\
  has_read (Err (LeftE (NameIndexStorageError (ISledError 66))))
    (seen_by (rl_run nc uc nc nc (fun _ => []) N.eqb (ulids 500) (ulids 600) q_9) (times [(0, 1); (2, 40)]%nat ++ [(0%nat, Some 66)] ++ times [(0, 40)]%nat)).
Proof. repeat split; vm_compute; reflexivity. Qed.
