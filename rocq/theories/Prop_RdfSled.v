(** C49-C52: the RDF store over sled. *)
From Coq Require Import NArith List Sorted.
From Verif Require Import Bytes BytesFacts Core IdType Store Mem MemIndex Spec GenSpec History MemTop Prog Sled SledHistory SledSched SledIndex
  Rdf RdfSpec RdfSled RdfSledSpec RdfSledMain RdfSledRace Ex ExSled.
Import ListNotations.

(** ** C49 *)

(** Any number of epochs: a process alone that makes calls while the storage fails here and
    there and dies after any number of steps, or several processes that insert and merge at the
    same time.  Names and identifiers correspond one to one, and the readers list the graph over
    entities that the calls, the last one perhaps in part, should have produced. *)
Theorem C49_epochs : forall S NP EP SE BE E (seqb : S -> S -> bool)
  (cs : codec BE S) (cu : codec BE (Id KUlid)) (cn : codec BE NP) (ce : codec BE EP) mn me,
  (forall a b, seqb a b = true <-> a = b) ->
  codec_ok cs -> codec_ok cu -> codec_ok cn -> codec_ok ce -> codec_total cu ->
  forall es : list (repoch (S := S) (NP := NP) (EP := EP) (SE := SE) (E := E)),
  NoDup (flat_map epoch_keys es) -> Forall calm es ->
  let d := rs_epochs cs cu cn ce mn me es rdb_new in
  one_to_one (name_now (SE := SE) cs cu d) (id_now (SE := SE) cs cu d) /\
  exists known eg, (forall s, name_now (SE := SE) cs cu d s <> None <-> In s known) /\
    rs_shows SE cs cu cn ce d eg /\
    r_epochs (BE := BE) seqb mn me (by_name (id_now (SE := SE) cs cu d)) es [] e_empty known eg.
Proof. exact @main_epochs. Qed.
Print Assumptions C49_epochs.

(** A name keeps its identifier and an identifier its name, for ever. *)
Theorem C49_stable : forall S NP EP SE BE E (seqb : S -> S -> bool)
  (cs : codec BE S) (cu : codec BE (Id KUlid)) (cn : codec BE NP) (ce : codec BE EP) mn me,
  (forall a b, seqb a b = true <-> a = b) ->
  codec_ok cs -> codec_ok cu -> codec_ok cn -> codec_ok ce ->
  forall es es' : list (repoch (S := S) (NP := NP) (EP := EP) (SE := SE) (E := E)),
  NoDup (flat_map epoch_keys (es ++ es')) -> Forall calm (es ++ es') ->
  let d := rs_epochs cs cu cn ce mn me es rdb_new in
  let d' := rs_epochs cs cu cn ce mn me (es ++ es') rdb_new in
  (forall s i, name_now (SE := SE) cs cu d s = Some i -> name_now (SE := SE) cs cu d' s = Some i) /\
  (forall i s, id_now (SE := SE) cs cu d i = Some s -> id_now (SE := SE) cs cu d' i = Some s).
Proof. exact @main_stable. Qed.
Print Assumptions C49_stable.

(** A process alone: every call answers as it should and does what it should, or reports a
    failure of the index or the graph. *)
Theorem C49_answers : forall S NP EP SE BE E (seqb : S -> S -> bool)
  (cs : codec BE S) (cu : codec BE (Id KUlid)) (cn : codec BE NP) (ce : codec BE EP) mn me,
  (forall a b, seqb a b = true <-> a = b) ->
  codec_ok cs -> codec_ok cu -> codec_ok cn -> codec_ok ce -> codec_total cu ->
  forall (es : list (repoch (S := S) (NP := NP) (EP := EP) (SE := SE) (E := E))) h (l : list (rop S NP EP E)) fs,
  NoDup (flat_map epoch_keys es ++ rs_keys h l) -> Forall calm es ->
  let d := rs_epochs cs cu cn ce mn me es rdb_new in
  let p := rs_history (SE := SE) cs cu cn ce mn me l h in
  let d' := db_of p fs d in
  one_to_one (name_now (SE := SE) cs cu d') (id_now (SE := SE) cs cu d') /\
  (forall s i, name_now (SE := SE) cs cu d s = Some i -> name_now (SE := SE) cs cu d' s = Some i) /\
  exists known eg known' eg',
    (forall s, name_now (SE := SE) cs cu d s <> None <-> In s known) /\
    (forall s, name_now (SE := SE) cs cu d' s <> None <-> In s known') /\
    r_epochs (BE := BE) seqb mn me (by_name (id_now (SE := SE) cs cu d')) es [] e_empty known eg /\
    r_tracks seqb mn me (by_name (id_now (SE := SE) cs cu d')) l (fst (ret_of p fs d)) known eg known' eg' /\
    rs_shows SE cs cu cn ce d' eg'.
Proof. exact @main_answers. Qed.
Print Assumptions C49_answers.

(** If the Ulids it draws for names are new, the failures it reports are those of the storage
    and of the serialisers. *)
Theorem C49_caused : forall S NP EP SE BE E (seqb : S -> S -> bool)
  (cs : codec BE S) (cu : codec BE (Id KUlid)) (cn : codec BE NP) (ce : codec BE EP) mn me,
  (forall a b, seqb a b = true <-> a = b) ->
  codec_ok cs -> codec_ok cu -> codec_ok cn -> codec_ok ce ->
  forall (es : list (repoch (S := S) (NP := NP) (EP := EP) (SE := SE) (E := E))) h (l : list (rop S NP EP E)) fs,
  NoDup (flat_map epoch_keys es ++ rs_keys h l) -> Forall calm es ->
  let d := rs_epochs cs cu cn ce mn me es rdb_new in
  NoDup (next_ids (rh_ulids h) (length (flat_map given l))) ->
  (forall i, In i (next_ids (rh_ulids h) (length (flat_map given l))) -> id_now (SE := SE) cs cu d i = None) ->
  forall r, In r (fst (ret_of (rs_history (SE := SE) cs cu cn ce mn me l h) fs d)) -> r_caused cs cu cn ce fs r.
Proof. exact @main_caused. Qed.
Print Assumptions C49_caused.

Theorem C49_works : forall S NP EP SE BE E (seqb : S -> S -> bool)
  (cs : codec BE S) (cu : codec BE (Id KUlid)) (cn : codec BE NP) (ce : codec BE EP) mn me,
  (forall a b, seqb a b = true <-> a = b) ->
  codec_ok cs -> codec_ok cu -> codec_ok cn -> codec_ok ce -> codec_total cu ->
  forall (es : list (repoch (S := S) (NP := NP) (EP := EP) (SE := SE) (E := E))) h (l : list (rop S NP EP E)),
  codec_total cs -> codec_total cn -> codec_total ce ->
  NoDup (flat_map epoch_keys es ++ rs_keys h l) -> Forall calm es ->
  let d := rs_epochs cs cu cn ce mn me es rdb_new in
  NoDup (next_ids (rh_ulids h) (length (flat_map given l))) ->
  (forall i, In i (next_ids (rh_ulids h) (length (flat_map given l))) -> id_now (SE := SE) cs cu d i = None) ->
  forall r, In r (fst (ret_of (rs_history (SE := SE) cs cu cn ce mn me l h) [] d)) -> r_failed r = false.
Proof. exact @main_works. Qed.
Print Assumptions C49_works.

(** The other readers. *)
Theorem C49_with_props : forall S NP EP SE BE E (seqb : S -> S -> bool)
  (cs : codec BE S) (cu : codec BE (Id KUlid)) (cn : codec BE NP) (ce : codec BE EP) mn me,
  (forall a b, seqb a b = true <-> a = b) ->
  codec_ok cs -> codec_ok cu -> codec_ok cn -> codec_ok ce -> codec_total cu ->
  forall (es : list (repoch (S := S) (NP := NP) (EP := EP) (SE := SE) (E := E))) eg o,
  NoDup (flat_map epoch_keys es) -> Forall calm es ->
  let d := rs_epochs cs cu cn ce mn me es rdb_new in
  rs_shows SE cs cu cn ce d eg ->
  exists items, ret_of (rs_iter_edges (SE := SE) cs cu ce o) [] d = map Ok items /\
    ret_of (rs_iter_edges_with_props (SE := SE) cs cu cn ce o) [] d = map (e_full_item eg) items.
Proof. exact @main_props. Qed.
Print Assumptions C49_with_props.

Theorem C49_vertices : forall S NP EP SE BE E (seqb : S -> S -> bool)
  (cs : codec BE S) (cu : codec BE (Id KUlid)) (cn : codec BE NP) (ce : codec BE EP) mn me,
  (forall a b, seqb a b = true <-> a = b) ->
  codec_ok cs -> codec_ok cu -> codec_ok cn -> codec_ok ce -> codec_total cu ->
  forall es : list (repoch (S := S) (NP := NP) (EP := EP) (SE := SE) (E := E)),
  NoDup (flat_map epoch_keys es) -> Forall calm es ->
  let d := rs_epochs cs cu cn ce mn me es rdb_new in
  exists ns, ret_of (rs_iter_vertices (SE := SE) cs cu cn) [] d = map Ok ns /\
    ret_of (rs_vertices (SE := SE) cs cu) [] d = Ok (map fst ns).
Proof. exact @main_vertices. Qed.
Print Assumptions C49_vertices.

(** The storage fails while they read: the items it fails for are errors, the others are the same. *)
Theorem C49_faults : forall S NP EP SE BE E (seqb : S -> S -> bool)
  (cs : codec BE S) (cu : codec BE (Id KUlid)) (cn : codec BE NP) (ce : codec BE EP) mn me,
  (forall a b, seqb a b = true <-> a = b) ->
  codec_ok cs -> codec_ok cu -> codec_ok cn -> codec_ok ce -> codec_total cu ->
  forall (es : list (repoch (S := S) (NP := NP) (EP := EP) (SE := SE) (E := E))) fs,
  NoDup (flat_map epoch_keys es) -> Forall calm es ->
  let d := rs_epochs cs cu cn ce mn me es rdb_new in
  (let p := rs_iter_vertices (SE := SE) cs cu cn in
     db_of p fs d = d /\ but_for_faults fs (ret_of p [] d) (ret_of p fs d)) /\
  (forall o, let p := rs_iter_edges (SE := SE) cs cu ce o in
     db_of p fs d = d /\ but_for_faults fs (ret_of p [] d) (ret_of p fs d)) /\
  (forall o, let p := rs_iter_edges_with_props (SE := SE) cs cu cn ce o in
     db_of p fs d = d /\ but_for_faults fs (ret_of p [] d) (ret_of p fs d)).
Proof. exact @main_faults. Qed.
Print Assumptions C49_faults.

(** Names are numbers here, written with a digit per byte; so are the Ulids in the index. *)
Definition uc : codec N (Id KUlid) :=
  Codec (fun i => n_ser (uval i)) (fun b => match n_de b with Ok n => Ok (ul n) | Err e => Err e end).
Lemma uc_ok : codec_ok uc.
Proof. intros i b H. injection H as <-. simpl. rewrite n_round. f_equal. apply (uint_mk_uval i). Qed.
Lemma uc_total : codec_total uc.
Proof. intros i. eexists. reflexivity. Qed.
Notation nm := EString.
Notation xrop := (rop N N N N).
Notation xepoch := (repoch (S := N) (NP := N) (EP := N) (SE := N) (E := N)).
Definition rh (edges names : N) : rhandle := RHandle (Handle (ulids edges) (ulids 9000)) (ulids names).
Definition xhist (l : list xrop) h := rs_history (SE := N) nc uc nc nc mg mg l h.
Definition xdb (es : list xepoch) : rdb := rs_epochs nc uc nc nc mg mg es rdb_new.

(** A life with a failing call and a crash in the middle of extend; two callers that name the
    same entity; then a process that removes. *)
Definition times (l : list (nat * nat)) : list (nat * option N) := flat_map (fun p => repeat (fst p, None) (snd p)) l.
Definition r_lives : list xepoch :=
  [ Alone (RLife (rh 100 10)
      [ RInsertNode (nm 1) 11; RInsertEdge (Triple (nm 1) (nm 2) (EUlid (ul 7))) 5; RMergeNode (nm 3) 2;
        RExtend (RdfSource [Ok (nm 1, 12); Ok (nm 4, 44)] [Ok (Triple (nm 4) (nm 2) (nm 1), 6)]) ]
      (repeat None 9 ++ [Some 77])%list 17);
    Together (RCrowd [ (rh 200 20, [RInsertNode (nm 5) 1; RInsertNode (nm 6) 2]); (rh 300 30, [RMergeNode (nm 5) 7; RMergeNode (nm 1) 3]) ]
      (times [(0, 2); (1, 1); (0, 2); (1, 20); (0, 20)]%nat)) ]%N.
Example C49_case :
  NoDup (flat_map epoch_keys r_lives) /\ Forall calm r_lives /\
  let d := xdb r_lives in
  let x := xhist [RRemoveNode (nm 9); RRemoveNode (nm 5); RInsertNode (EUlid (ul 7)) 8] (rh 400 40) in
  map (name_now (SE := N) nc uc d) [1; 2; 3; 4; 5; 6; 9] =
    map (option_map ul) [Some 10; Some 11; Some 12; Some 13; Some 20; Some 21; None] /\
  ret_of (rs_iter_vertices (SE := N) nc uc nc) [] d = [Ok (nm 1, 123); Ok (nm 4, 44); Ok (nm 5, 17); Ok (nm 6, 2)] /\
  ret_of (rs_iter_edges (SE := N) nc uc nc POS) [] d = [Ok (Triple (nm 1) (nm 2) (EUlid (ul 7)), 5)] /\
  fst (ret_of x [] d) = [Err (LeftE (NameNotFound 9)); Ok tt; Ok tt] /\
  ret_of (rs_vertices (SE := N) nc uc) [] (db_of x [] d) = Ok [EUlid (ul 7); nm 1; nm 4; nm 6].
Proof.
  split; [apply nodupb_ok; vm_compute; reflexivity|]. split; [repeat constructor|]. vm_compute. repeat split.
Qed.

(** ** C50 is false.  Two callers give the same new name at the same time: one of them gets an
    error though the storage works (/repo/src/rdf.rs:76-87 looks and then sets). *)
Definition answers {A} (p : prog rdb N (A * rhandle)) : option A := match p with Ret (rs, _) => Some rs | _ => None end.
Definition two (a b : list xrop) schedule :=
  rs_crowd (SE := N) nc uc nc nc mg mg (RCrowd [(rh 200 20, a); (rh 300 30, b)] (times schedule)) rdb_new.
Theorem C50_create_refuted : exists (a b : xrop) schedule i j,
  NoDup (map to_be_bytes (next_ids (ulids 20) 1 ++ next_ids (ulids 30) 1)) /\
  map answers (fst (two [a] [b] schedule)) =
    [Some [Err (LeftE (NameIndexStorageError (SDuplicateRight 1 i j)))]; Some [Ok tt]] /\
  fst (ret_of (xhist [a] (rh 200 20)) [] rdb_new) = [Ok tt] /\
  fst (ret_of (xhist [a] (rh 200 20)) [] (db_of (xhist [b] (rh 300 30)) [] rdb_new)) = [Ok tt].
Proof.
  exists (RInsertNode (nm 1) 1), (RInsertNode (nm 1) 2), [(0, 1); (1, 2); (0, 1); (1, 1)]%nat, (ul 30), (ul 20).
  split; [apply nodupb_ok; vm_compute; reflexivity|]. vm_compute. auto.
Qed.
Print Assumptions C50_create_refuted.

(** A removal finds a name that another caller has set and not yet used: it answers Ok and
    removes nothing, which happens in neither order of the two calls. *)
Definition both (a b : xrop) (ha hb : rhandle) :=
  bind (xhist [a] ha) (fun x => bind (xhist [b] hb) (fun y => Ret (fst x, fst y))).
Definition listed (d : rdb) := ret_of (rs_iter_vertices (SE := N) nc uc nc) [] d.
Theorem C50_remove_refuted : exists (a b : xrop) schedule ra rb,
  let x := two [a] [b] schedule in
  map answers (fst x) = [Some ra; Some rb] /\
  (ra, rb, listed (snd x)) <>
    (let p := both a b (rh 200 20) (rh 300 30) in let r := ret_of p [] rdb_new in (fst r, snd r, listed (db_of p [] rdb_new))) /\
  (ra, rb, listed (snd x)) <>
    (let p := both b a (rh 300 30) (rh 200 20) in let r := ret_of p [] rdb_new in (snd r, fst r, listed (db_of p [] rdb_new))).
Proof.
  exists (RInsertNode (nm 1) 1), (RRemoveNode (nm 1)), [(0, 2); (1, 10); (0, 1)]%nat, [Ok tt], [Ok tt].
  cbv zeta. split; [vm_compute; reflexivity|]. vm_compute. split; discriminate.
Qed.
Print Assumptions C50_remove_refuted.

(** A call that fails leaves its name behind. *)
Theorem C50_failed_refuted : exists (a b : xrop) fs e,
  fst (ret_of (xhist [a; b] (rh 200 20)) fs rdb_new) = [Err (LeftE (GraphStorageError (SledError e))); Ok tt] /\
  fst (ret_of (xhist [b] (rh 200 20)) [] rdb_new) = [Err (LeftE (NameNotFound 1))].
Proof.
  exists (RInsertNode (nm 1) 1), (RRemoveNode (nm 1)), [None; None; Some 7], 7. vm_compute. auto.
Qed.
Print Assumptions C50_failed_refuted.

(** What is true of callers that insert and merge at the same time: the graph is the one that
    their single calls produce in some order, each caller's in its own; a call that answered
    without a failure of the index or the graph has done all of its single calls and answered
    as it should, one that reported a failure a first part of them.
    Missing: next to removals, for which see C50_removals_partial. *)
Theorem C50_together_partial : forall S NP EP SE BE E (seqb : S -> S -> bool)
  (cs : codec BE S) (cu : codec BE (Id KUlid)) (cn : codec BE NP) (ce : codec BE EP) mn me,
  (forall a b, seqb a b = true <-> a = b) ->
  codec_ok cs -> codec_ok cu -> codec_ok cn -> codec_ok ce -> codec_total cu ->
  forall (es : list (repoch (S := S) (NP := NP) (EP := EP) (SE := SE) (E := E))) (k : rcrowd),
  NoDup (flat_map epoch_keys (es ++ [Together k])) -> Forall calm (es ++ [Together k]) ->
  let d := rs_epochs cs cu cn ce mn me es rdb_new in
  let pd := rs_crowd (SE := SE) cs cu cn ce mn me k d in
  let d' := snd pd in
  let ls := map snd (rc_callers k) in
  one_to_one (name_now (SE := SE) cs cu d') (id_now (SE := SE) cs cu d') /\
  (forall s i, name_now (SE := SE) cs cu d s = Some i -> name_now (SE := SE) cs cu d' s = Some i) /\
  exists known eg known' ss s,
    (forall s, name_now (SE := SE) cs cu d s <> None <-> In s known) /\
    (forall s, name_now (SE := SE) cs cu d' s <> None <-> In s known') /\
    named (flat_map given (concat ls)) known known' /\
    r_epochs (BE := BE) seqb mn me (by_name (id_now (SE := SE) cs cu d')) es [] e_empty known eg /\
    Forall2 (r_log_so_far (SE := SE) (BE := BE) seqb) ls ss /\ shuffle ss s /\
    (forall i l rs h', nth_error ls i = Some l -> nth_error (fst pd) i = Some (Ret (rs, h')) ->
       exists si, nth_error ss i = Some si /\ r_log seqb l rs si) /\
    rs_shows SE cs cu cn ce d' (e_run seqb mn me (by_name (id_now (SE := SE) cs cu d')) [] s eg).
Proof. exact @main_together. Qed.
Print Assumptions C50_together_partial.

(** What is true of their failures, if the Ulids that they draw for names are new: one is a
    failure of the storage in a step of that caller or of a serialiser, or it is the race over
    a name that nobody had given before and another of the callers gives too; the error tells
    the identifier that the name has got.
    Missing: next to removals. *)
Theorem C50_caused_partial : forall S NP EP SE BE E (seqb : S -> S -> bool)
  (cs : codec BE S) (cu : codec BE (Id KUlid)) (cn : codec BE NP) (ce : codec BE EP) mn me,
  (forall a b, seqb a b = true <-> a = b) ->
  codec_ok cs -> codec_ok cu -> codec_ok cn -> codec_ok ce ->
  forall (es : list (repoch (S := S) (NP := NP) (EP := EP) (SE := SE) (E := E))) (k : rcrowd),
  NoDup (flat_map epoch_keys (es ++ [Together k])) -> Forall calm (es ++ [Together k]) ->
  let d := rs_epochs cs cu cn ce mn me es rdb_new in
  let pd := rs_crowd (SE := SE) cs cu cn ce mn me k d in
  NoDup (crowd_ulids k) -> (forall i, In i (crowd_ulids k) -> id_now (SE := SE) cs cu d i = None) ->
  forall i rs h', nth_error (fst pd) i = Some (Ret (rs, h')) ->
  forall r, In r rs ->
  r_caused_together cs cu cn ce k i (name_now (SE := SE) cs cu d) (name_now (SE := SE) cs cu (snd pd)) r.
Proof. exact @main_raced. Qed.
Print Assumptions C50_caused_partial.

(** So a caller that shares no new name with another one gets through, however the steps are
    scheduled and whatever happens to the others. *)
Theorem C50_apart_partial : forall S NP EP SE BE E (seqb : S -> S -> bool)
  (cs : codec BE S) (cu : codec BE (Id KUlid)) (cn : codec BE NP) (ce : codec BE EP) mn me,
  (forall a b, seqb a b = true <-> a = b) ->
  codec_ok cs -> codec_ok cu -> codec_ok cn -> codec_ok ce ->
  forall (es : list (repoch (S := S) (NP := NP) (EP := EP) (SE := SE) (E := E))) (k : rcrowd) i,
  codec_total cs -> codec_total cu -> codec_total cn -> codec_total ce ->
  NoDup (flat_map epoch_keys (es ++ [Together k])) -> Forall calm (es ++ [Together k]) ->
  let d := rs_epochs cs cu cn ce mn me es rdb_new in
  let pd := rs_crowd (SE := SE) cs cu cn ce mn me k d in
  NoDup (crowd_ulids k) -> (forall i, In i (crowd_ulids k) -> id_now (SE := SE) cs cu d i = None) ->
  (forall x, ~ In (i, Some x) (rc_schedule k)) ->
  (forall s j, gives k i s -> gives k j s -> j <> i -> name_now (SE := SE) cs cu d s <> None) ->
  forall rs h', nth_error (fst pd) i = Some (Ret (rs, h')) ->
  forall r, In r rs -> r_failed r = false.
Proof. exact @main_apart. Qed.
Print Assumptions C50_apart_partial.

(** Two callers race over name 1 while the storage fails the second one once; the third shares
    only a name that was there before. *)
Definition race_life : list xepoch := [Alone (RLife (rh 100 10) [RInsertNode (nm 3) 3] [] 9)].
Definition race_crowd : rcrowd (S := N) (NP := N) (EP := N) (SE := N) (E := N) :=
  RCrowd [ (rh 200 20, [RInsertNode (nm 1) 1; RInsertNode (nm 2) 2]);
           (rh 300 30, [RInsertNode (nm 1) 5; RMergeNode (nm 3) 6]);
           (rh 400 40, [RInsertEdge (Triple (nm 3) (nm 4) (nm 3)) 7; RMergeNode (nm 3) 8]) ]
    ((2%nat, None) :: (0%nat, None) :: (1%nat, None) :: (1%nat, None) :: (1%nat, Some 77) :: times [(0, 9); (1, 9); (2, 12)]%nat).
Example C50_caused_case :
  NoDup (flat_map epoch_keys (race_life ++ [Together race_crowd])) /\ Forall calm (race_life ++ [Together race_crowd]) /\
  NoDup (map to_be_bytes (crowd_ulids race_crowd)) /\
  let d := xdb race_life in
  forallb (fun i => match id_now (SE := N) nc uc d i with None => true | Some _ => false end) (crowd_ulids race_crowd) = true /\
  let x := rs_crowd (SE := N) nc uc nc nc mg mg race_crowd d in
  map answers (fst x) =
    [ Some [Err (LeftE (NameIndexStorageError (SDuplicateRight 1 (ul 30) (ul 20)))); Ok tt];
      Some [Err (LeftE (GraphStorageError (SledError 77))); Ok tt];
      Some [Ok tt; Ok tt] ] /\
  name_now (SE := N) nc uc d 1 = None /\ name_now (SE := N) nc uc (snd x) 1 = Some (ul 30) /\
  listed (snd x) = [Ok (nm 3, 368); Ok (nm 2, 2)].
Proof.
  split; [apply nodupb_ok; vm_compute; reflexivity|]. split; [repeat constructor|].
  split; [apply nodupb_ok; vm_compute; reflexivity|]. vm_compute. repeat split.
Qed.

(** Both callers replace and merge into the same vertices. *)
Example C50_case :
  let x := two [RInsertNode (nm 1) 1; RMergeNode (nm 2) 2] [RMergeNode (nm 2) 3; RMergeNode (nm 1) 4]
             [(0, 3); (1, 3); (0, 1); (1, 10); (0, 10)]%nat in
  map answers (fst x) = [Some [Ok tt; Ok tt]; Some [Ok tt; Ok tt]] /\
  listed (snd x) = [Ok (nm 1, 14); Ok (nm 2, 32)].
Proof. vm_compute. auto. Qed.

(** ** C51.  False like C42: a name in two matching edges. *)
Definition q_life : list xepoch :=
  [ Alone (RLife (rh 100 10) [ RInsertEdge (Triple (nm 1) (nm 2) (nm 3)) 1; RInsertEdge (Triple (nm 3) (nm 4) (nm 5)) 2;
                               RInsertNode (nm 3) 33 ] [] 50) ].
Lemma q_keys : NoDup (flat_map epoch_keys q_life).
Proof. apply nodupb_ok. vm_compute. reflexivity. Qed.
Lemma q_calm : Forall calm q_life.
Proof. repeat constructor. Qed.
Lemma q_unique (rho : Id KUlid -> option N) qi s t :
  query_map (shown rho) qi = query_map (by_name rho) (QP [nm s; nm t]) ->
  exists a b, qi = QP [a; b] /\ rho a = Some s /\ rho b = Some t.
Proof.
  destruct qi as [l|l|l|l|l|l|l|l]; simpl; intros H; try discriminate. injection H as H.
  destruct l as [|a [|b [|]]]; try discriminate. simpl in H. injection H as Ha Hb. unfold shown in *.
  exists a, b. destruct (rho a), (rho b); try discriminate. injection Ha as ->. injection Hb as ->. auto.
Qed.

Theorem C51_refuted : exists (es : list xepoch) q g u s i,
  NoDup (flat_map epoch_keys es) /\ Forall calm es /\
  let d := xdb es in
  (forall s, In (EString s) (mentioned q) -> name_now (SE := N) nc uc d s <> None) /\
  (forall qi m, query_map (shown (id_now (SE := N) nc uc d)) qi = query_map (by_name (id_now (SE := N) nc uc d)) q ->
     now N (s_run nc nc g qi) (r_trees d) = Ok m -> drawn_distinct (id_generator m)) /\
  ret_of (rs_run (SE := N) nc uc nc nc N.eqb g u q) [] d = Err (RightE (NameIndexStorageError (DuplicateRight s i i))).
Proof.
  exists q_life, (QP [nm 2; nm 4]), (ulids 2000), (ulids 3000), 3, (ul 12).
  split; [exact q_keys|]. split; [exact q_calm|]. split; [|split].
  - intros s [H|[H|[]]]; inversion H; vm_compute; discriminate.
  - destruct (C49_epochs _ _ _ _ _ _ N.eqb nc uc nc nc mg mg N.eqb_eq nc_ok uc_ok nc_ok nc_ok uc_total q_life q_keys q_calm) as [One _].
    intros qi m Hq Hm. destruct (q_unique _ _ _ _ Hq) as (a & b & -> & Ha & Hb).
    apply One in Ha. apply One in Hb. vm_compute in Ha. vm_compute in Hb. injection Ha as <-. injection Hb as <-.
    apply drawn_distinct_check.
    assert (match now N (s_run (BE := N) nc nc (ulids 2000) (QP [ul 11; ul 13])) (r_trees (xdb q_life)) with
            | Ok m => distinctb (map (g_seq (id_generator m)) (seq 0 (g_pos (id_generator m)))) | Err _ => true end = true) as B
      by (vm_compute; reflexivity).
    change (now N (s_run (BE := N) nc nc (ulids 2000) (QP [ul 11; ul 13])) (r_trees (xdb q_life)) = Ok m) in Hm.
    rewrite Hm in B. exact B.
  - vm_compute. reflexivity.
Qed.
Print Assumptions C51_refuted.

(** What is true: as C42, on any database that epochs of calls have left, whatever the storage
    does in the meantime; a query never changes the database. *)
Theorem C51_run_partial : forall S NP EP SE BE E (seqb : S -> S -> bool)
  (cs : codec BE S) (cu : codec BE (Id KUlid)) (cn : codec BE NP) (ce : codec BE EP) mn me,
  (forall a b, seqb a b = true <-> a = b) ->
  codec_ok cs -> codec_ok cu -> codec_ok cn -> codec_ok ce -> codec_total cu ->
  forall (es : list (repoch (S := S) (NP := NP) (EP := EP) (SE := SE) (E := E))) eg q g u fs,
  NoDup (flat_map epoch_keys es) -> Forall calm es ->
  let d := rs_epochs cs cu cn ce mn me es rdb_new in
  rs_shows SE cs cu cn ce d eg ->
  (forall s, In (EString s) (mentioned q) -> name_now (SE := SE) cs cu d s <> None) ->
  let q' := query_map (by_name (id_now (SE := SE) cs cu d)) q in
  (forall qi m, query_map (shown (id_now (SE := SE) cs cu d)) qi = q' ->
     now SE (s_run cn ce g qi) (r_trees d) = Ok m -> drawn_distinct (id_generator m)) ->
  let p := rs_run (SE := SE) cs cu cn ce seqb g u q in
  db_of p fs d = d /\
  (ret_of p fs d = ret_of p [] d \/ exists e, faulty fs e /\ ret_of p fs d = Err (LeftE e)) /\
  (forall es, matching q' eg es -> ((exists r', ret_of p [] d = Ok r') <-> NoDup (flat_map names_of es))) /\
  match ret_of p [] d with
  | Ok r' => exists eg', rdf_shows r' eg' /\ e_answers q' eg eg' /\
      forall s i, left_to_right seqb (name_index r') s = Some i -> name_now (SE := SE) cs cu d s = Some i
  | Err x => exists s i, x = RightE (NameIndexStorageError (DuplicateRight s i i)) /\ name_now (SE := SE) cs cu d s = Some i
  end.
Proof. exact @main_run. Qed.
Print Assumptions C51_run_partial.

Theorem C51_unknown : forall S NP EP SE BE E (seqb : S -> S -> bool)
  (cs : codec BE S) (cu : codec BE (Id KUlid)) (cn : codec BE NP) (ce : codec BE EP) mn me,
  (forall a b, seqb a b = true <-> a = b) ->
  codec_ok cs -> codec_ok cu -> codec_ok cn -> codec_ok ce ->
  forall (es : list (repoch (S := S) (NP := NP) (EP := EP) (SE := SE) (E := E))) q g u s,
  codec_total cs -> NoDup (flat_map epoch_keys es) -> Forall calm es ->
  let d := rs_epochs cs cu cn ce mn me es rdb_new in
  In (EString s) (mentioned q) -> name_now (SE := SE) cs cu d s = None ->
  let p := rs_run (NP := NP) (EP := EP) (SE := SE) cs cu cn ce seqb g u q in
  exists s', In (EString s') (mentioned q) /\ name_now (SE := SE) cs cu d s' = None /\
    forall fs, db_of p fs d = d /\
      (ret_of p fs d = Err (LeftE (NameNotFound s')) \/ exists e, faulty fs e /\ ret_of p fs d = Err (LeftE e)).
Proof. exact @main_run_unknown. Qed.
Print Assumptions C51_unknown.

Example C51_case :
  let ask q fs := match ret_of (rs_run (SE := N) nc uc nc nc N.eqb (ulids 2000) (ulids 3000) q) fs (xdb q_life) with
                  | Ok r => Ok (rdf_iter_vertices r, rdf_iter_edges SPO r)
                  | Err e => Err e
                  end in
  ask (QNodeProps [nm 3; nm 5]) [] = Ok ([Ok (nm 3, 33)], []) /\
  ask (QS [nm 3; nm 5]) [] = Ok ([], [Ok (Triple (nm 3) (nm 4) (nm 5), 2)]) /\
  ask (QS [nm 3; nm 5]) [None; None; Some 6] = Err (LeftE (GraphStorageError (SledError 6))) /\
  ask (QO [nm 3; nm 5]) [] = Err (RightE (NameIndexStorageError (DuplicateRight 3 (ul 12) (ul 12)))) /\
  ask (QSO [(nm 1, nm 8)]) [] = Err (LeftE (NameNotFound 8)).
Proof. vm_compute. repeat split. Qed.

(** ** C52 *)

(** The same calls on a new store over Mem and on one over sled, the latter without failures
    and neither drawing an Ulid for a name that the caller uses itself: the same answers, and
    they list the same graph over entities. *)
Theorem C52_backends : forall S NP EP SE BE E (seqb : S -> S -> bool)
  (cs : codec BE S) (cu : codec BE (Id KUlid)) (cn : codec BE NP) (ce : codec BE EP) mn me,
  (forall a b, seqb a b = true <-> a = b) ->
  codec_ok cs -> codec_ok cu -> codec_ok cn -> codec_ok ce -> codec_total cu ->
  forall h (l : list (rop S NP EP E)) fs g u xs (r : rdf S NP EP),
  NoDup (rs_keys h l) ->
  let p := rs_history (SE := SE) cs cu cn ce mn me l h in
  let rs := fst (ret_of p fs rdb_new) in
  let d := db_of p fs rdb_new in
  (forall x, In x rs -> r_failed x = false) ->
  (forall i, In (EUlid i) (flat_map entities_of l) -> id_now (SE := SE) cs cu d i = None) ->
  rdf_history seqb mn me l (rdf_new g u) = (xs, r) ->
  drawn_distinct (r_ulids r) -> drawn_distinct (id_generator (r_graph r)) ->
  (forall i n, In (EUlid i) (flat_map entities_of l) -> n < g_pos (r_ulids r) -> g_seq (r_ulids r) n <> i)%nat ->
  Forall2 same_answer xs rs /\ exists eg, rdf_shows r eg /\ rs_shows SE cs cu cn ce d eg.
Proof. exact @main_backends. Qed.
Print Assumptions C52_backends.

(** Without failures: as if nothing could fail. *)
Theorem C52_history : forall S NP EP SE BE E (seqb : S -> S -> bool)
  (cs : codec BE S) (cu : codec BE (Id KUlid)) (cn : codec BE NP) (ce : codec BE EP) mn me,
  (forall a b, seqb a b = true <-> a = b) ->
  codec_ok cs -> codec_ok cu -> codec_ok cn -> codec_ok ce -> codec_total cu ->
  forall h (l : list (rop S NP EP E)) fs,
  NoDup (rs_keys h l) ->
  let p := rs_history (SE := SE) cs cu cn ce mn me l h in
  let rs := fst (ret_of p fs rdb_new) in
  let d := db_of p fs rdb_new in
  (forall x, In x rs -> r_failed x = false) ->
  one_to_one (name_now (SE := SE) cs cu d) (id_now (SE := SE) cs cu d) /\
  (forall s, name_now (SE := SE) cs cu d s <> None <-> In s (flat_map given l)) /\
  Forall2 same_answer (fst (e_history seqb mn me (by_name (id_now (SE := SE) cs cu d)) [] l e_empty)) rs /\
  rs_shows SE cs cu cn ce d (snd (e_history seqb mn me (by_name (id_now (SE := SE) cs cu d)) [] l e_empty)).
Proof. exact @main_history. Qed.
Print Assumptions C52_history.

Definition c52_ops : list xrop :=
  [ RInsertNode (nm 1) 1; RRemoveNode (nm 4); RInsertNode (EUlid (ul 7)) 3; RMergeEdge (Triple (nm 1) (nm 2) (EUlid (ul 7))) 123;
    RExtend (RdfSource [Ok (nm 3, 9)] [Ok (Triple (nm 3) (nm 2) (nm 1), 5); Err 404]); RRemoveNode (EUlid (ul 7)) ].
Example C52_case :
  let x := rdf_history N.eqb mg mg c52_ops (rdf_new (ulids 1000) (ulids 50)) in
  let p := xhist c52_ops (rh 100 10) in
  fst (ret_of p [] rdb_new) = [Ok tt; Err (LeftE (NameNotFound 4)); Ok tt; Ok tt; Err (RightE 404); Ok tt] /\
  fst x = [Ok tt; Err (LeftE (NameNotFound 4)); Ok tt; Ok tt; Err (RightE 404); Ok tt] /\
  rdf_iter_edges SPO (snd x) = [Ok (Triple (nm 3) (nm 2) (nm 1), 5)] /\
  ret_of (rs_iter_edges (SE := N) nc uc nc SPO) [] (db_of p [] rdb_new) = [Ok (Triple (nm 3) (nm 2) (nm 1), 5)].
Proof. vm_compute. repeat split. Qed.
