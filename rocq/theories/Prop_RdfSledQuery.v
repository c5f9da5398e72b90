(** C65, C66: queries of an RDF store over sled while other processes work on the same database.  The names
    in the query are looked up one after another, then the graph is searched leaf by leaf, then the names of
    what was found are looked up one after another (RdfSledLeaf.v: [rl_run]). *)
From Coq Require Import Arith NArith List.
From Verif Require Import Bytes OMap Core IdType Store Mem MemIndex Spec GenSpec History MemTop Prog Sled SledHistory SledTables SledLeaf SledBeside SledAny
  SledIndex Rdf RdfSpec RdfSled RdfSledSpec RdfSledLeaf RdfSledReadTop RdfSledExactTop RdfSledQueryTop Ex ExSled Prop_SledReader Prop_RdfSled Prop_RdfSledReader.
Import ListNotations.

(** ** C65.  A query next to any number of other callers making any calls, the storage steps of all of them in
    any order, any of them failing, the leaves of the trees ending anywhere; on a database that processes, which
    may have failed and died, have left.  [names] are the names at the end, [q'] is the query by them.
    A name that an identifier had at some moment it has at the end.
    The query fails only with a storage failure, with a name it mentions that was unknown at some moment or
    does not serialise, or with DuplicateRight for an identifier that occurs twice among matching edges (or
    with a repetition among the identifiers drawn for the records of the result).
    If it succeeds all names it mentions were known, and the result shows: only matching vertices and edges
    that were there with these properties at some moment, under what they were called at some moment; in its
    index only names of the store; a name twice only if its entity had no name when the edges were found; and
    every matching vertex that was there all the time.
    Missing: the edges that were there all the time, where the refutation below lives. *)
Theorem C65_run_partial : forall S NP EP SE BE E (seqb : S -> S -> bool)
  (cs : codec BE S) (cu : codec BE (Id KUlid)) (cn : codec BE NP) (ce : codec BE EP) mn me,
  (forall a b, seqb a b = true <-> a = b) ->
  codec_ok cs -> codec_ok cu -> codec_ok cn -> codec_ok ce -> codec_total cu ->
  forall (es : list (repoch (S := S) (NP := NP) (EP := EP) (SE := SE) (E := E))) (ts : list (rhandle * list (rop S NP EP E)))
    (wcuts : nat -> nat -> cutting) (rcuts : bytes * bytes -> list bytes) (g u : gen KUlid) (q : query (entity S))
    (schedule : list (nat * option SE)) r,
  NoDup (flat_map epoch_keys es ++ callers_keys ts) -> Forall calm es ->
  let d := rs_epochs cs cu cn ce mn me es rdb_new in
  let ps := beside (rl_run (NP := NP) (EP := EP) (SE := SE) cs cu cn ce rcuts seqb g u q) (rl_callers cs cu cn ce mn me wcuts 0 ts) in
  let seen := during schedule ps d in
  let names := id_now (SE := SE) cs cu (snd (interleave schedule ps d)) in
  let q' := query_map (by_name names) q in
  has_read r (fst (interleave schedule ps d)) ->
  (forall d1 i s, seen d1 -> id_now (SE := SE) cs cu d1 i = Some s -> names i = Some s) /\
  match r with
  | Err (LeftE x) => is_fault (met schedule) x \/
      exists s, In (EString s) (mentioned q) /\
        ((x = NameNotFound s /\ exists d1, seen d1 /\ name_now (SE := SE) cs cu d1 s = None) \/
         exists b, ser cs s = Err b /\ x = NameIndexStorageError (ISerializationError b))
  | Err (RightE x) =>
      (exists s i us l1 l2, x = NameIndexStorageError (DuplicateRight s i i) /\ names i = Some s /\ NoDup us /\
         (forall t, In t us -> selects q' (triple_map (shown names) t) /\
            exists d1 p, seen d1 /\ r_lists_edge SE cs cu ce (order_of q) d1 (triple_map (shown (id_now (SE := SE) cs cu d1)) t) p) /\
         flat_map (fun t => [sub t; pred t; obj t]) us = l1 ++ i :: l2 /\ In i l1) \/
      exists n, ~ drawn_distinct (Gen (g_seq g) n)
  | Ok r' =>
      (forall s, In (EString s) (mentioned q) -> exists d1 i, seen d1 /\ name_now (SE := SE) cs cu d1 s = Some i) /\
      (drawn_distinct (id_generator (r_graph r')) -> exists eg', rdf_shows r' eg' /\
        (forall e p, e_node eg' e = Some p -> selects_node q' (by_name names e) /\ exists i d1, seen d1 /\
           r_lists_node SE cs cu cn d1 (shown (id_now (SE := SE) cs cu d1) i) p /\ called SE cs cu (knowing SE cs cu seen d1) i e) /\
        (forall t p, e_edge eg' t = Some p -> selects q' (triple_map (by_name names) t) /\ exists v d1, seen d1 /\
           r_lists_edge SE cs cu ce (order_of q) d1 (triple_map (shown (id_now (SE := SE) cs cu d1)) v) p /\
           called3 SE cs cu (knowing SE cs cu seen d1) v t) /\
        (forall s i, left_to_right seqb (name_index r') s = Some i -> names i = Some s) /\
        (forall vs, NoDup vs -> (forall t, In t vs <-> e_edge eg' t <> None) -> NoDup (flat_map names_of vs) \/
           exists v i s d1 d2 p, seen d1 /\ r_lists_edge SE cs cu ce (order_of q) d1 (triple_map (shown (id_now (SE := SE) cs cu d1)) v) p /\
             (i = sub v \/ i = pred v \/ i = obj v) /\ knowing SE cs cu seen d1 d2 /\
             id_now (SE := SE) cs cu d2 i = None /\ names i = Some s) /\
        (forall e, selects_node q' (by_name names e) ->
           (forall d1, seen d1 -> exists e1 p, by_name names e1 = by_name names e /\ r_lists_node SE cs cu cn d1 e1 p) ->
           exists e2, by_name names e2 = by_name names e /\ e_node eg' e2 <> None))
  end.
Proof. exact @run_next_to. Qed.
Print Assumptions C65_run_partial.

(** Next to callers that insert, merge vertices and extend, matching edges that were there all the time are found
    too.  Missing: the other calls. *)
Theorem C65_adding_partial : forall S NP EP SE BE E (seqb : S -> S -> bool)
  (cs : codec BE S) (cu : codec BE (Id KUlid)) (cn : codec BE NP) (ce : codec BE EP) mn me,
  (forall a b, seqb a b = true <-> a = b) ->
  codec_ok cs -> codec_ok cu -> codec_ok cn -> codec_ok ce -> codec_total cu ->
  forall (es : list (repoch (S := S) (NP := NP) (EP := EP) (SE := SE) (E := E))) (ts : list (rhandle * list (rop S NP EP E)))
    (wcuts : nat -> nat -> cutting) (rcuts : bytes * bytes -> list bytes) (g u : gen KUlid) (q : query (entity S))
    (schedule : list (nat * option SE)) r,
  NoDup (flat_map epoch_keys es ++ callers_keys ts) -> Forall calm es ->
  Forall (fun hl => Forall r_adds_only (snd hl)) ts ->
  let d := rs_epochs cs cu cn ce mn me es rdb_new in
  let ps := beside (rl_run (NP := NP) (EP := EP) (SE := SE) cs cu cn ce rcuts seqb g u q) (rl_callers cs cu cn ce mn me wcuts 0 ts) in
  let seen := during schedule ps d in
  let names := id_now (SE := SE) cs cu (snd (interleave schedule ps d)) in
  let q' := query_map (by_name names) q in
  has_read r (fst (interleave schedule ps d)) ->
  (forall d1 i s, seen d1 -> id_now (SE := SE) cs cu d1 i = Some s -> names i = Some s) /\
  match r with
  | Err (LeftE x) => is_fault (met schedule) x \/
      exists s, In (EString s) (mentioned q) /\
        ((x = NameNotFound s /\ exists d1, seen d1 /\ name_now (SE := SE) cs cu d1 s = None) \/
         exists b, ser cs s = Err b /\ x = NameIndexStorageError (ISerializationError b))
  | Err (RightE x) =>
      (exists s i us l1 l2, x = NameIndexStorageError (DuplicateRight s i i) /\ names i = Some s /\ NoDup us /\
         (forall t, In t us -> selects q' (triple_map (shown names) t) /\
            exists d1 p, seen d1 /\ r_lists_edge SE cs cu ce (order_of q) d1 (triple_map (shown (id_now (SE := SE) cs cu d1)) t) p) /\
         flat_map (fun t => [sub t; pred t; obj t]) us = l1 ++ i :: l2 /\ In i l1) \/
      exists n, ~ drawn_distinct (Gen (g_seq g) n)
  | Ok r' =>
      (forall s, In (EString s) (mentioned q) -> exists d1 i, seen d1 /\ name_now (SE := SE) cs cu d1 s = Some i) /\
      (drawn_distinct (id_generator (r_graph r')) -> exists eg', rdf_shows r' eg' /\
        (forall e p, e_node eg' e = Some p -> selects_node q' (by_name names e) /\ exists i d1, seen d1 /\
           r_lists_node SE cs cu cn d1 (shown (id_now (SE := SE) cs cu d1) i) p /\ called SE cs cu (knowing SE cs cu seen d1) i e) /\
        (forall t p, e_edge eg' t = Some p -> selects q' (triple_map (by_name names) t) /\ exists v d1, seen d1 /\
           r_lists_edge SE cs cu ce (order_of q) d1 (triple_map (shown (id_now (SE := SE) cs cu d1)) v) p /\
           called3 SE cs cu (knowing SE cs cu seen d1) v t) /\
        (forall s i, left_to_right seqb (name_index r') s = Some i -> names i = Some s) /\
        (forall vs, NoDup vs -> (forall t, In t vs <-> e_edge eg' t <> None) -> NoDup (flat_map names_of vs) \/
           exists v i s d1 d2 p, seen d1 /\ r_lists_edge SE cs cu ce (order_of q) d1 (triple_map (shown (id_now (SE := SE) cs cu d1)) v) p /\
             (i = sub v \/ i = pred v \/ i = obj v) /\ knowing SE cs cu seen d1 d2 /\
             id_now (SE := SE) cs cu d2 i = None /\ names i = Some s) /\
        (forall e, selects_node q' (by_name names e) ->
           (forall d1, seen d1 -> exists e1 p, by_name names e1 = by_name names e /\ r_lists_node SE cs cu cn d1 e1 p) ->
           exists e2, by_name names e2 = by_name names e /\ e_node eg' e2 <> None) /\
        (forall t, selects q' (triple_map (by_name names) t) ->
           (forall d1, seen d1 -> exists t1 p, triple_map (by_name names) t1 = triple_map (by_name names) t /\
              r_lists_edge SE cs cu ce (order_of q) d1 t1 p) ->
           exists t2, triple_map (by_name names) t2 = triple_map (by_name names) t /\ e_edge eg' t2 <> None))
  end.
Proof. exact @run_adding_next_to. Qed.
Print Assumptions C65_adding_partial.

(** ** C66.  When no Ulid that a caller draws for a name is mentioned by a call, or is in the database without a
    name, every vertex and edge of the result is listed exactly so at some moment; no name occurs twice among its
    edges, and DuplicateRight means that one does among the matching edges; and what is listed under the same
    entities all the time is found.  Missing: callers that draw an identifier that is in use, where the
    refutation below lives; and edges next to calls that take records away, as for C65. *)
Theorem C66_run_partial : forall S NP EP SE BE E (seqb : S -> S -> bool)
  (cs : codec BE S) (cu : codec BE (Id KUlid)) (cn : codec BE NP) (ce : codec BE EP) mn me,
  (forall a b, seqb a b = true <-> a = b) ->
  codec_ok cs -> codec_ok cu -> codec_ok cn -> codec_ok ce -> codec_total cu ->
  forall (es : list (repoch (S := S) (NP := NP) (EP := EP) (SE := SE) (E := E))) (ts : list (rhandle * list (rop S NP EP E)))
    (wcuts : nat -> nat -> cutting) (rcuts : bytes * bytes -> list bytes) (g u : gen KUlid) (q : query (entity S))
    (schedule : list (nat * option SE)) r,
  NoDup (flat_map epoch_keys es ++ callers_keys ts) -> Forall calm es ->
  let d := rs_epochs cs cu cn ce mn me es rdb_new in
  apart_from_names SE cs cu cn ce d ts ->
  let ps := beside (rl_run (NP := NP) (EP := EP) (SE := SE) cs cu cn ce rcuts seqb g u q) (rl_callers cs cu cn ce mn me wcuts 0 ts) in
  let seen := during schedule ps d in
  let names := id_now (SE := SE) cs cu (snd (interleave schedule ps d)) in
  let q' := query_map (by_name names) q in
  has_read r (fst (interleave schedule ps d)) ->
  match r with
  | Err (LeftE x) => is_fault (met schedule) x \/
      exists s, In (EString s) (mentioned q) /\
        ((x = NameNotFound s /\ exists d1, seen d1 /\ name_now (SE := SE) cs cu d1 s = None) \/
         exists b, ser cs s = Err b /\ x = NameIndexStorageError (ISerializationError b))
  | Err (RightE x) =>
      (exists s i vs l1 l2, x = NameIndexStorageError (DuplicateRight s i i) /\ names i = Some s /\ NoDup vs /\
         (forall t, In t vs -> selects q' t /\ exists d1 p, seen d1 /\ r_lists_edge SE cs cu ce (order_of q) d1 t p) /\
         flat_map names_of vs = l1 ++ s :: l2 /\ In s l1) \/
      exists n, ~ drawn_distinct (Gen (g_seq g) n)
  | Ok r' =>
      drawn_distinct (id_generator (r_graph r')) -> exists eg', rdf_shows r' eg' /\
        (forall e p, e_node eg' e = Some p -> selects_node q' e /\ exists d1, seen d1 /\ r_lists_node SE cs cu cn d1 e p) /\
        (forall t p, e_edge eg' t = Some p -> selects q' t /\ exists d1, seen d1 /\ r_lists_edge SE cs cu ce (order_of q) d1 t p) /\
        (forall vs, NoDup vs -> (forall t, In t vs <-> e_edge eg' t <> None) -> NoDup (flat_map names_of vs)) /\
        (forall e, selects_node q' e -> (forall d1, seen d1 -> exists p, r_lists_node SE cs cu cn d1 e p) -> e_node eg' e <> None)
  end.
Proof. exact @run_exactly. Qed.
Print Assumptions C66_run_partial.

Theorem C66_adding_partial : forall S NP EP SE BE E (seqb : S -> S -> bool)
  (cs : codec BE S) (cu : codec BE (Id KUlid)) (cn : codec BE NP) (ce : codec BE EP) mn me,
  (forall a b, seqb a b = true <-> a = b) ->
  codec_ok cs -> codec_ok cu -> codec_ok cn -> codec_ok ce -> codec_total cu ->
  forall (es : list (repoch (S := S) (NP := NP) (EP := EP) (SE := SE) (E := E))) (ts : list (rhandle * list (rop S NP EP E)))
    (wcuts : nat -> nat -> cutting) (rcuts : bytes * bytes -> list bytes) (g u : gen KUlid) (q : query (entity S))
    (schedule : list (nat * option SE)) r,
  NoDup (flat_map epoch_keys es ++ callers_keys ts) -> Forall calm es ->
  Forall (fun hl => Forall r_adds_only (snd hl)) ts ->
  let d := rs_epochs cs cu cn ce mn me es rdb_new in
  apart_from_names SE cs cu cn ce d ts ->
  let ps := beside (rl_run (NP := NP) (EP := EP) (SE := SE) cs cu cn ce rcuts seqb g u q) (rl_callers cs cu cn ce mn me wcuts 0 ts) in
  let seen := during schedule ps d in
  let names := id_now (SE := SE) cs cu (snd (interleave schedule ps d)) in
  let q' := query_map (by_name names) q in
  has_read r (fst (interleave schedule ps d)) ->
  match r with
  | Err (LeftE x) => is_fault (met schedule) x \/
      exists s, In (EString s) (mentioned q) /\
        ((x = NameNotFound s /\ exists d1, seen d1 /\ name_now (SE := SE) cs cu d1 s = None) \/
         exists b, ser cs s = Err b /\ x = NameIndexStorageError (ISerializationError b))
  | Err (RightE x) =>
      (exists s i vs l1 l2, x = NameIndexStorageError (DuplicateRight s i i) /\ names i = Some s /\ NoDup vs /\
         (forall t, In t vs -> selects q' t /\ exists d1 p, seen d1 /\ r_lists_edge SE cs cu ce (order_of q) d1 t p) /\
         flat_map names_of vs = l1 ++ s :: l2 /\ In s l1) \/
      exists n, ~ drawn_distinct (Gen (g_seq g) n)
  | Ok r' =>
      drawn_distinct (id_generator (r_graph r')) -> exists eg', rdf_shows r' eg' /\
        (forall e p, e_node eg' e = Some p -> selects_node q' e /\ exists d1, seen d1 /\ r_lists_node SE cs cu cn d1 e p) /\
        (forall t p, e_edge eg' t = Some p -> selects q' t /\ exists d1, seen d1 /\ r_lists_edge SE cs cu ce (order_of q) d1 t p) /\
        (forall vs, NoDup vs -> (forall t, In t vs <-> e_edge eg' t <> None) -> NoDup (flat_map names_of vs)) /\
        (forall e, selects_node q' e -> (forall d1, seen d1 -> exists p, r_lists_node SE cs cu cn d1 e p) -> e_node eg' e <> None) /\
        (forall t, selects q' t -> (forall d1, seen d1 -> exists p, r_lists_edge SE cs cu ce (order_of q) d1 t p) -> e_edge eg' t <> None)
  end.
Proof. exact @run_adding_exactly. Qed.
Print Assumptions C66_adding_partial.

(** ** Examples *)

(** Two edges over five entities; vertex 21 and vertex 20 have no names. *)
Definition y_life : list xepoch :=
  [ Alone (RLife (rh 100 10) [ RInsertNode (nm 1) 1; RInsertNode (nm 2) 2; RInsertEdge (Triple (nm 1) (nm 4) (nm 2)) 12;
      RInsertEdge (Triple (EUlid (ul 20)) (nm 3) (EUlid (ul 21))) 34 ] [] 90) ].
Definition y_next names (q : query (entity N)) (l : list xrop) :=
  beside (rl_run (NP := N) (EP := N) (SE := N) nc uc nc nc (fun _ => []) N.eqb (ulids 2000) (ulids 3000) q)
    (rl_callers (BE := N) nc uc nc nc mg mg no_cuts 0 [(rh 200 names, l)]).
Definition found_by {A B C} (ps : list (prog rdb N (result A (rdf N N N) + B))) (f : rdf N N N -> C) : option (result A C) :=
  match nth_error ps 0 with Some (Ret (inl (Ok r))) => Some (Ok (f r)) | Some (Ret (inl (Err x))) => Some (Err x) | _ => None end.
Definition y_ask names q l schedule :=
  found_by (fst (interleave schedule (y_next names q l) (xdb y_life))) (fun r => (rdf_iter_vertices r, rdf_iter_edges SPO r)).
Definition y_ops : list xrop := [RInsertNode (nm 2) 22; RInsertEdge (Triple (nm 5) (nm 6) (nm 7)) 56; RInsertEdge (Triple (nm 1) (nm 8) (nm 7)) 18].
Definition y_then (n : nat) : list (nat * option N) := times [(0, n); (1, 60); (0, 60)]%nat.
Lemma y_calm : Forall calm y_life.
Proof. repeat constructor. Qed.
Lemma unfailing l x : ~ met (times l) x.
Proof.
  unfold met, times. intros H. apply in_flat_map in H. destruct H as (p & _ & H).
  apply repeat_spec in H. discriminate.
Qed.

(** With the new properties of vertex 2; before and after the second edge of vertex 1 (the vertex then occurs
    twice); before and after vertex 5 has its name; and with a failure. *)
Example C65_case :
  NoDup (flat_map epoch_keys y_life ++ callers_keys [(rh 200 30, y_ops)]) /\ Forall calm y_life /\ Forall r_adds_only y_ops /\
  y_ask 30 (QNodeProps [nm 1; nm 2]) y_ops (y_then 3) = Some (Ok ([Ok (nm 1, 1); Ok (nm 2, 22)], [])) /\
  y_ask 30 (QS [nm 1]) y_ops (y_then 5) = Some (Ok ([], [Ok (Triple (nm 1) (nm 4) (nm 2), 12)])) /\
  y_ask 30 (QS [nm 1]) y_ops (y_then 0) = Some (Err (RightE (NameIndexStorageError (DuplicateRight 1 (ul 10) (ul 10))))) /\
  y_ask 30 (QS [nm 5]) y_ops (y_then 0) = Some (Ok ([], [Ok (Triple (nm 5) (nm 6) (nm 7), 56)])) /\
  y_ask 30 (QS [nm 5]) y_ops (y_then 1) = Some (Err (LeftE (NameNotFound 5))) /\
  y_ask 30 (QS [nm 5]) y_ops (times [(1, 60); (0, 2)]%nat ++ [(0%nat, Some 7)] ++ times [(0, 60)]%nat) = Some (Err (LeftE (GraphStorageError (SledError 7)))).
Proof. split; [apply nodupb_ok; vm_compute; reflexivity|]. split; [exact y_calm|]. split; [repeat constructor|]. vm_compute. repeat split. Qed.

(** ** C65 is false: merge_edge gives the edge a new record (/repo/src/sled/merge.rs:85-150); a query that has read
    the entry before looks for the old record, and leaves the edge out without saying so. *)
Theorem C65_refuted : exists (es : list xepoch) h (l : list xrop) schedule q t,
  let ps := beside (rl_run (NP := N) (EP := N) (SE := N) nc uc nc nc (fun _ => []) N.eqb (ulids 2000) (ulids 3000) q)
    (rl_callers (BE := N) nc uc nc nc mg mg no_cuts 0 [(h, l)]) in
  NoDup (flat_map epoch_keys es ++ callers_keys [(h, l)]) /\ Forall calm es /\ (forall x, ~ met schedule x) /\ selects q t /\
  (forall d1, during schedule ps (xdb es) d1 -> exists p, r_lists_edge N nc uc nc SPO d1 t p) /\
  found_by (fst (interleave schedule ps (xdb es))) (fun r => rdf_iter_edges SPO r) = Some (Ok []).
Proof.
  exists y_life, (rh 200 30), [RMergeEdge (Triple (nm 1) (nm 4) (nm 2)) 5], (y_then 2), (QS [nm 1]), (Triple (nm 1) (nm 4) (nm 2)).
  cbv zeta. split; [apply nodupb_ok; vm_compute; reflexivity|]. split; [exact y_calm|]. split; [apply unfailing|]. split; [simpl; auto|]. split.
  - apply (rdf_check_during (fun d => ret_of (rs_iter_edges (SE := N) nc uc nc SPO) [] d)
      (fun l => exists p, In (Ok (Triple (nm 1) (nm 4) (nm 2), p)) l)).
    run_through. repeat constructor; eexists; left; reflexivity.
  - vm_compute. reflexivity.
Qed.
Print Assumptions C65_refuted.

(** ** C66 is false: the caller draws for two new names the Ulids of the two ends of an edge, which had none; the
    query has looked up the first end before and looks up the second end after that, and returns an edge that the
    store lists at no moment. *)
Theorem C66_refuted : exists (es : list xepoch) h (l : list xrop) schedule q t p,
  let ps := beside (rl_run (NP := N) (EP := N) (SE := N) nc uc nc nc (fun _ => []) N.eqb (ulids 2000) (ulids 3000) q)
    (rl_callers (BE := N) nc uc nc nc mg mg no_cuts 0 [(h, l)]) in
  NoDup (flat_map epoch_keys es ++ callers_keys [(h, l)]) /\ Forall calm es /\ Forall r_adds_only l /\ (forall x, ~ met schedule x) /\
  found_by (fst (interleave schedule ps (xdb es))) (fun r => rdf_iter_edges SPO r) = Some (Ok [Ok (t, p)]) /\
  forall d1, during schedule ps (xdb es) d1 -> ~ r_lists_edge N nc uc nc SPO d1 t p.
Proof.
  exists y_life, (rh 200 20), [RInsertNode (nm 5) 5; RInsertNode (nm 6) 6], (y_then 5), (QP [nm 3]),
    (Triple (EUlid (ul 20)) (nm 3) (nm 6)), 34.
  cbv zeta. split; [apply nodupb_ok; vm_compute; reflexivity|]. split; [exact y_calm|]. split; [repeat constructor|]. split; [apply unfailing|].
  split; [vm_compute; reflexivity|].
  apply (rdf_check_during (fun d => ret_of (rs_iter_edges (SE := N) nc uc nc SPO) [] d)
    (fun l => ~ In (Ok (Triple (EUlid (ul 20)) (nm 3) (nm 6), 34)) l)).
  run_through. repeat constructor; intros H; repeat (destruct H as [H|H]; try discriminate H); exact H.
Qed.
Print Assumptions C66_refuted.

(** With a caller whose Ulids are not in use. *)
Example C66_case :
  apart_from_names N nc uc nc nc (xdb y_life) [(rh 200 30, y_ops)] /\
  y_ask 30 (QP [nm 3]) y_ops (y_then 5) = Some (Ok ([], [Ok (Triple (EUlid (ul 20)) (nm 3) (EUlid (ul 21)), 34)])) /\
  y_ask 30 (QNodeProps [nm 1; nm 2]) y_ops (y_then 2) = Some (Ok ([Ok (nm 1, 1); Ok (nm 2, 22)], [])).
Proof.
  split; [|vm_compute; repeat split].
  unfold apart_from_names.
  assert (forall i, In i (callers_ulids [(rh 200 30, y_ops)]) -> In i (map ul [30; 31; 32; 33; 34; 35; 36])) as Hd.
  { intros i Hi. vm_compute in Hi. vm_compute. tauto. }
  intros i Hi. apply Hd in Hi. split.
  - intros H. vm_compute in H. repeat (destruct H as [H|H]; [discriminate H|]). exact H.
  - unfold r_nameless, r_lists_node, r_lists_edge. intros [(p & H)|(t & p & H & He)].
    + assert (ret_of (rs_iter_vertices (SE := N) nc uc nc) [] (xdb y_life) = [Ok (nm 1, 1); Ok (nm 2, 2)]) as R by (vm_compute; reflexivity).
      rewrite R in H. destruct H as [[=]|[[=]|[]]].
    + assert (ret_of (rs_iter_edges (SE := N) nc uc nc SPO) [] (xdb y_life) =
        [Ok (Triple (nm 1) (nm 4) (nm 2), 12); Ok (Triple (EUlid (ul 20)) (nm 3) (EUlid (ul 21)), 34)]) as R by (vm_compute; reflexivity).
      rewrite R in H.
      destruct H as [[= <- _]|[[= <- _]|[]]]; simpl in He; repeat (destruct He as [He|He]; [try discriminate He; injection He as <-;
        vm_compute in Hi; repeat (destruct Hi as [Hi|Hi]; [discriminate Hi|]); exact Hi|]); exact He.
Qed.
