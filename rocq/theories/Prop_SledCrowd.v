(** C75: why calls and readers of a sled store fail, whatever other processes do to the database at the same time. *)
From Coq Require Import Arith NArith List.
From Verif Require Import Bytes OMap Core IdType Store Mem Spec History Prog Sled SledHistory SledLeaf SledBeside
  SledCrowd SledTame Ex ExSled.
Import ListNotations.

(** ** C75.  Crowds of processes have worked on a database, one after another, each process with any
    calls, each handle with any generators (the record keys need not be distinct), failing and dying
    anywhere; another crowd is at work.  A call of one of its processes that is through has answered what it
    answers alone on a storage that works (Ok, or the error of the source it was given), or reports a failure
    of the storage in one of the steps of that process, or of a serialiser.  No call reports a key or a
    record that cannot be decoded, or missing property data. *)
Theorem C75_calls : forall k NP EP SE BE E (cn : codec BE NP) (ce : codec BE EP) mn me
    (past : list (crowd (k := k) (NP := NP) (EP := EP) (SE := SE) (E := E))) (c : crowd (k := k) (NP := NP) (EP := EP) (SE := SE) (E := E)) i h l rs h',
  codec_ok cn -> codec_ok ce ->
  nth_error (c_callers c) i = Some (h, l) ->
  nth_error (fst (crowd_run cn ce mn me c (crowds cn ce mn me past db_new))) i = Some (Ret (rs, h')) ->
  Forall2 (answers_well cn ce (c_schedule c) i) l rs.
Proof. exact @crowd_answers. Qed.
Print Assumptions C75_calls.

(** So if the serialisers accept everything and no storage step of a process fails, its calls answer as if it
    were alone. *)
Theorem C75_alike : forall k NP EP SE BE E (cn : codec BE NP) (ce : codec BE EP) mn me
    (past : list (crowd (k := k) (NP := NP) (EP := EP) (SE := SE) (E := E))) (c : crowd (k := k) (NP := NP) (EP := EP) (SE := SE) (E := E)) i h l rs h',
  codec_ok cn -> codec_ok ce -> codec_total cn -> codec_total ce ->
  nth_error (c_callers c) i = Some (h, l) -> (forall x, ~ In (i, Some x) (c_schedule c)) ->
  nth_error (fst (crowd_run cn ce mn me c (crowds cn ce mn me past db_new))) i = Some (Ret (rs, h')) ->
  rs = map expected l.
Proof. exact @crowd_alike. Qed.
Print Assumptions C75_alike.

(** Readers next to such a crowd: iterations over vertices, and queries, report nothing but storage failures;
    iterations over edges may also report missing property data. *)
Theorem C75_readers : forall k NP EP SE BE E (cn : codec BE NP) (ce : codec BE EP) mn me
    (past : list (crowd (k := k) (NP := NP) (EP := EP) (SE := SE) (E := E))) (c : crowd (k := k) (NP := NP) (EP := EP) (SE := SE) (E := E)),
  codec_ok cn -> codec_ok ce ->
  let next_to := fun A (reader : prog db SE A) =>
    fst (interleave (c_schedule c) (beside reader (crowd_programs cn ce mn me c)) (crowds cn ce mn me past db_new)) in
  (forall cuts xs e, has_read xs (next_to _ (l_iter_vertices (k := k) cn cuts)) -> In (Err e) xs ->
     exists x, met (c_schedule c) x /\ e = SledError x) /\
  (forall cuts e, has_read (Err e) (next_to _ (l_vertices (k := k) (BE := BE) cuts)) ->
     exists x, met (c_schedule c) x /\ e = SledError x) /\
  (forall cuts o xs e, has_read xs (next_to _ (l_iter_edges (k := k) ce cuts o)) -> In (Err e) xs ->
     (exists x, met (c_schedule c) x /\ e = SledError x) \/ e = MissingPropertyData) /\
  (forall cuts o xs e, has_read xs (next_to _ (l_iter_edges_with_props (k := k) cn ce cuts o)) -> In (Err e) xs ->
     (exists x, met (c_schedule c) x /\ e = SledError x) \/ e = MissingPropertyData) /\
  (forall cuts g (q : query (Id k)) e, has_read (Err e) (next_to _ (l_run cn ce cuts g q)) ->
     exists x, met (c_schedule c) x /\ e = SledError x).
Proof. exact @beside_errors. Qed.
Print Assumptions C75_readers.

(** ** Examples *)
Notation ex_crowd := (crowd (k := KU64) (NP := N) (EP := N) (SE := N) (E := N)).
(** The second process dies within its first call. *)
Definition old_callers : list (handle KU64 * list exop) := [(hd1, s_ops); (hd1, [OInsertEdge (tr 1 5 2) 40; ORemoveNode (u 2)])].
Definition old_crowd : ex_crowd := Crowd old_callers (fun _ _ => ([encode_spo (k := KU64) (tr 2 0 0)], [])) (repeat (0%nat, None) 30 ++ repeat (1%nat, None) 2 ++ repeat (0%nat, None) 30).
(** Two processes whose Ulids are the same, removing and adding the same edges, the second with a storage failure. *)
Definition now_callers : list (handle KU64 * list exop) :=
  [(hd1, [OInsertEdge (tr 2 5 2) 1; ORemoveNode (u 1); OExtend ex_source]);
   (hd1, [OMergeEdge (tr 1 5 2) 7; ORemoveEdge (tr 1 5 2); OMerge ex_source])].
Fixpoint turns (n : nat) : list (nat * option N) := match n with O => [] | Datatypes.S n => (0%nat, None) :: (1%nat, None) :: turns n end.
Definition now_crowd : ex_crowd := Crowd now_callers (fun _ _ => ([encode_spo (k := KU64) (tr 2 0 0)], [])) (turns 2 ++ [(1%nat, Some 77)] ++ turns 40).
Definition answers_of (c : ex_crowd) (d : db) : list (option (list (outcome (SE := N) (BE := N) (E := N)))) :=
  map (fun p => match p with Ret (rs, _) => Some rs | _ => None end) (fst (crowd_run nc nc mg mg c d)).

Example C75_case :
  answers_of old_crowd db_new = [Some (map expected s_ops); None] /\
  answers_of now_crowd (crowds nc nc mg mg [old_crowd] db_new) =
    [Some [Ok tt; Ok tt; Err (RightE 404)]; Some [Ok tt; Err (LeftE (SledError 77)); Err (RightE 404)]].
Proof. split; vm_compute; reflexivity. Qed.

(** A reader among them loses an item to a storage failure, and is told of missing property data. *)
Definition reads_steps : list (nat * option N) :=
  repeat (1%nat, None) 1 ++ repeat (0%nat, None) 3 ++ repeat (2%nat, None) 40 ++ repeat (1%nat, None) 60 ++ [(0%nat, Some 66)] ++ repeat (0%nat, None) 40.
Example C75_readers_case :
  has_read [Ok (tr 1 5 2, 1); Err (SledError 66); Err MissingPropertyData; Err MissingPropertyData; Err MissingPropertyData]
    (fst (interleave reads_steps (beside (l_iter_edges (k := KU64) (BE := N) nc [] SPO) (crowd_programs nc nc mg mg now_crowd))
      (crowds nc nc mg mg [old_crowd] db_new))).
Proof. vm_compute. auto. Qed.
