(** C63, C64: iterations of an RDF store over sled while other processes work on the same database.  The
    iterators are read leaf by leaf (RdfSledLeaf.v), the names are looked up item by item. *)
From Coq Require Import Arith NArith List Sorted.
From Verif Require Import Bytes OMap Core IdType Store Mem MemIndex Spec GenSpec History MemTop Prog Sled SledHistory SledTables SledLeaf SledBeside
  SledIndex Rdf RdfSpec RdfSled RdfSledSpec RdfSledLeaf RdfSledReadTop RdfSledExactTop Ex ExSled Prop_SledReader Prop_RdfSled.
Import ListNotations.

(** ** C63.  A reader iterates over the vertices while any number of other callers make any calls,
    each with its own handle; the storage steps of all of them in any order, any of them failing,
    the leaves of the trees ending anywhere; on a database that processes, which may have failed and
    died, have left.  Once the reader is through:
    a name that an identifier had at some moment it has at the end;
    every item is an identifier that was listed with these properties at some moment, under what
    it was called at some moment;
    under the names of the end, the items come in the order of the identifiers, none twice;
    the only errors are the storage failures the reader met;
    and a vertex that was there all the time has been listed, unless the reader has been told of an
    error. *)
Theorem C63_nodes : forall S NP EP SE BE E (seqb : S -> S -> bool)
  (cs : codec BE S) (cu : codec BE (Id KUlid)) (cn : codec BE NP) (ce : codec BE EP) mn me,
  (forall a b, seqb a b = true <-> a = b) ->
  codec_ok cs -> codec_ok cu -> codec_ok cn -> codec_ok ce -> codec_total cu ->
  forall (es : list (repoch (S := S) (NP := NP) (EP := EP) (SE := SE) (E := E))) (ts : list (rhandle * list (rop S NP EP E)))
    (wcuts : nat -> nat -> cutting) (rcuts : list bytes) (schedule : list (nat * option SE)) xs,
  NoDup (flat_map epoch_keys es ++ callers_keys ts) -> Forall calm es ->
  let d := rs_epochs cs cu cn ce mn me es rdb_new in
  let ps := beside (rl_iter_vertices (SE := SE) cs cu cn rcuts) (rl_callers cs cu cn ce mn me wcuts 0 ts) in
  let seen := during schedule ps d in
  let names := id_now (SE := SE) cs cu (snd (interleave schedule ps d)) in
  has_read xs (fst (interleave schedule ps d)) ->
  (forall d1 i s, seen d1 -> id_now (SE := SE) cs cu d1 i = Some s -> names i = Some s) /\
  (forall e p, In (Ok (e, p)) xs -> exists i d1, seen d1 /\
     r_lists_node SE cs cu cn d1 (shown (id_now (SE := SE) cs cu d1) i) p /\ called SE cs cu (knowing SE cs cu seen d1) i e) /\
  StronglySorted (behind_lt names) (map (fun ep => by_name names (fst ep)) (ok_items xs)) /\
  (forall x, In (Err x) xs -> is_fault (met schedule) x) /\
  (forall e, (forall d1, seen d1 -> exists e1 p, by_name names e1 = by_name names e /\ r_lists_node SE cs cu cn d1 e1 p) ->
     In (by_name names e) (map (fun ep => by_name names (fst ep)) (ok_items xs)) \/ exists x, In (Err x) xs).
Proof. exact @nodes_next_to. Qed.
Print Assumptions C63_nodes.

(** The entities alone (/repo/src/rdf/iter.rs:18-26): one error stops the call; otherwise no vertex
    that was there all the time is missing. *)
Theorem C63_vertices : forall S NP EP SE BE E (seqb : S -> S -> bool)
  (cs : codec BE S) (cu : codec BE (Id KUlid)) (cn : codec BE NP) (ce : codec BE EP) mn me,
  (forall a b, seqb a b = true <-> a = b) ->
  codec_ok cs -> codec_ok cu -> codec_ok cn -> codec_ok ce -> codec_total cu ->
  forall (es : list (repoch (S := S) (NP := NP) (EP := EP) (SE := SE) (E := E))) (ts : list (rhandle * list (rop S NP EP E)))
    (wcuts : nat -> nat -> cutting) (rcuts : list bytes) (schedule : list (nat * option SE)) r,
  NoDup (flat_map epoch_keys es ++ callers_keys ts) -> Forall calm es ->
  let d := rs_epochs cs cu cn ce mn me es rdb_new in
  let ps := beside (rl_vertices (SE := SE) cs cu rcuts) (rl_callers cs cu cn ce mn me wcuts 0 ts) in
  let seen := during schedule ps d in
  let names := id_now (SE := SE) cs cu (snd (interleave schedule ps d)) in
  has_read r (fst (interleave schedule ps d)) ->
  (forall d1 i s, seen d1 -> id_now (SE := SE) cs cu d1 i = Some s -> names i = Some s) /\
  match r with
  | Err x => is_fault (met schedule) x
  | Ok es =>
      (forall e, In e es -> exists i d1 p, seen d1 /\
         r_lists_node SE cs cu cn d1 (shown (id_now (SE := SE) cs cu d1) i) p /\ called SE cs cu (knowing SE cs cu seen d1) i e) /\
      StronglySorted (behind_lt names) (map (by_name names) es) /\
      (forall e, (forall d1, seen d1 -> exists e1 p, by_name names e1 = by_name names e /\ r_lists_node SE cs cu cn d1 e1 p) ->
         In (by_name names e) (map (by_name names) es))
  end.
Proof. exact @vertices_next_to. Qed.
Print Assumptions C63_vertices.

(** The edges, in any order: MissingPropertyData can occur as well (C46). *)
Theorem C63_edges : forall S NP EP SE BE E (seqb : S -> S -> bool)
  (cs : codec BE S) (cu : codec BE (Id KUlid)) (cn : codec BE NP) (ce : codec BE EP) mn me,
  (forall a b, seqb a b = true <-> a = b) ->
  codec_ok cs -> codec_ok cu -> codec_ok cn -> codec_ok ce -> codec_total cu ->
  forall (es : list (repoch (S := S) (NP := NP) (EP := EP) (SE := SE) (E := E))) (ts : list (rhandle * list (rop S NP EP E)))
    (wcuts : nat -> nat -> cutting) (rcuts : list bytes) o (schedule : list (nat * option SE)) xs,
  NoDup (flat_map epoch_keys es ++ callers_keys ts) -> Forall calm es ->
  let d := rs_epochs cs cu cn ce mn me es rdb_new in
  let ps := beside (rl_iter_edges (SE := SE) cs cu ce rcuts o) (rl_callers cs cu cn ce mn me wcuts 0 ts) in
  let seen := during schedule ps d in
  let names := id_now (SE := SE) cs cu (snd (interleave schedule ps d)) in
  has_read xs (fst (interleave schedule ps d)) ->
  (forall d1 i s, seen d1 -> id_now (SE := SE) cs cu d1 i = Some s -> names i = Some s) /\
  (forall t p, In (Ok (t, p)) xs -> exists u d1, seen d1 /\
     r_lists_edge SE cs cu ce o d1 (triple_map (shown (id_now (SE := SE) cs cu d1)) u) p /\ called3 SE cs cu (knowing SE cs cu seen d1) u t) /\
  StronglySorted (behind_edge_lt names o) (map (fun tp => triple_map (by_name names) (fst tp)) (ok_items xs)) /\
  (forall x, In (Err x) xs -> x = GraphStorageError MissingPropertyData \/ is_fault (met schedule) x) /\
  (forall t, (forall d1, seen d1 -> exists t1 p, triple_map (by_name names) t1 = triple_map (by_name names) t /\ r_lists_edge SE cs cu ce o d1 t1 p) ->
     In (triple_map (by_name names) t) (map (fun tp => triple_map (by_name names) (fst tp)) (ok_items xs)) \/ exists x, In (Err x) xs).
Proof. exact @edges_next_to. Qed.
Print Assumptions C63_edges.

(** If the others only insert edges, insert vertices, merge vertices and extend, it does not. *)
Theorem C63_edges_adding : forall S NP EP SE BE E (seqb : S -> S -> bool)
  (cs : codec BE S) (cu : codec BE (Id KUlid)) (cn : codec BE NP) (ce : codec BE EP) mn me,
  (forall a b, seqb a b = true <-> a = b) ->
  codec_ok cs -> codec_ok cu -> codec_ok cn -> codec_ok ce -> codec_total cu ->
  forall (es : list (repoch (S := S) (NP := NP) (EP := EP) (SE := SE) (E := E))) (ts : list (rhandle * list (rop S NP EP E)))
    (wcuts : nat -> nat -> cutting) (rcuts : list bytes) o (schedule : list (nat * option SE)) xs,
  NoDup (flat_map epoch_keys es ++ callers_keys ts) -> Forall calm es ->
  Forall (fun hl => Forall r_adds_only (snd hl)) ts ->
  let d := rs_epochs cs cu cn ce mn me es rdb_new in
  let ps := beside (rl_iter_edges (SE := SE) cs cu ce rcuts o) (rl_callers cs cu cn ce mn me wcuts 0 ts) in
  let seen := during schedule ps d in
  let names := id_now (SE := SE) cs cu (snd (interleave schedule ps d)) in
  has_read xs (fst (interleave schedule ps d)) ->
  (forall d1 i s, seen d1 -> id_now (SE := SE) cs cu d1 i = Some s -> names i = Some s) /\
  (forall t p, In (Ok (t, p)) xs -> exists u d1, seen d1 /\
     r_lists_edge SE cs cu ce o d1 (triple_map (shown (id_now (SE := SE) cs cu d1)) u) p /\ called3 SE cs cu (knowing SE cs cu seen d1) u t) /\
  StronglySorted (behind_edge_lt names o) (map (fun tp => triple_map (by_name names) (fst tp)) (ok_items xs)) /\
  (forall x, In (Err x) xs -> is_fault (met schedule) x) /\
  (forall t, (forall d1, seen d1 -> exists t1 p, triple_map (by_name names) t1 = triple_map (by_name names) t /\ r_lists_edge SE cs cu ce o d1 t1 p) ->
     In (triple_map (by_name names) t) (map (fun tp => triple_map (by_name names) (fst tp)) (ok_items xs)) \/ exists x, In (Err x) xs).
Proof. exact @edges_adding_next_to. Qed.
Print Assumptions C63_edges_adding.

(** The edges with the properties of their ends: each of the three parts was there at some moment. *)
Theorem C63_props : forall S NP EP SE BE E (seqb : S -> S -> bool)
  (cs : codec BE S) (cu : codec BE (Id KUlid)) (cn : codec BE NP) (ce : codec BE EP) mn me,
  (forall a b, seqb a b = true <-> a = b) ->
  codec_ok cs -> codec_ok cu -> codec_ok cn -> codec_ok ce -> codec_total cu ->
  forall (es : list (repoch (S := S) (NP := NP) (EP := EP) (SE := SE) (E := E))) (ts : list (rhandle * list (rop S NP EP E)))
    (wcuts : nat -> nat -> cutting) (rcuts : list bytes) o (schedule : list (nat * option SE)) xs,
  NoDup (flat_map epoch_keys es ++ callers_keys ts) -> Forall calm es ->
  let d := rs_epochs cs cu cn ce mn me es rdb_new in
  let ps := beside (rl_iter_edges_with_props (SE := SE) cs cu cn ce rcuts o) (rl_callers cs cu cn ce mn me wcuts 0 ts) in
  let seen := during schedule ps d in
  let names := id_now (SE := SE) cs cu (snd (interleave schedule ps d)) in
  has_read xs (fst (interleave schedule ps d)) ->
  (forall d1 i s, seen d1 -> id_now (SE := SE) cs cu d1 i = Some s -> names i = Some s) /\
  (forall s p ob, In (Ok (PropsTriple s p ob)) xs -> exists u d1 d2 d3,
     seen d1 /\ r_lists_edge SE cs cu ce o d1 (triple_map (shown (id_now (SE := SE) cs cu d1)) u) (snd p) /\
     seen d2 /\ r_lists_node SE cs cu cn d2 (shown (id_now (SE := SE) cs cu d2) (sub u)) (snd s) /\
     seen d3 /\ r_lists_node SE cs cu cn d3 (shown (id_now (SE := SE) cs cu d3) (obj u)) (snd ob) /\
     called3 SE cs cu (knowing SE cs cu (knowing SE cs cu (knowing SE cs cu seen d1) d2) d3) u (Triple (fst s) (fst p) (fst ob))) /\
  StronglySorted (behind_edge_lt names o) (map (fun x => triple_map (by_name names) (edge_of x)) (ok_items xs)) /\
  (forall x, In (Err x) xs -> x = GraphStorageError MissingPropertyData \/ is_fault (met schedule) x) /\
  (forall t, (forall d1, seen d1 -> exists t1 p, triple_map (by_name names) t1 = triple_map (by_name names) t /\ r_lists_edge SE cs cu ce o d1 t1 p) ->
     In (triple_map (by_name names) t) (map (fun x => triple_map (by_name names) (edge_of x)) (ok_items xs)) \/
     exists x, In (Err x) xs).
Proof. exact @props_next_to. Qed.
Print Assumptions C63_props.

(** If the others only insert edges, insert vertices, merge vertices and extend, MissingPropertyData
    means that some edge met an end that was not there, and a missing edge is such an edge or met a
    storage failure. *)
Theorem C63_props_adding : forall S NP EP SE BE E (seqb : S -> S -> bool)
  (cs : codec BE S) (cu : codec BE (Id KUlid)) (cn : codec BE NP) (ce : codec BE EP) mn me,
  (forall a b, seqb a b = true <-> a = b) ->
  codec_ok cs -> codec_ok cu -> codec_ok cn -> codec_ok ce -> codec_total cu ->
  forall (es : list (repoch (S := S) (NP := NP) (EP := EP) (SE := SE) (E := E))) (ts : list (rhandle * list (rop S NP EP E)))
    (wcuts : nat -> nat -> cutting) (rcuts : list bytes) o (schedule : list (nat * option SE)) xs,
  NoDup (flat_map epoch_keys es ++ callers_keys ts) -> Forall calm es ->
  Forall (fun hl => Forall r_adds_only (snd hl)) ts ->
  let d := rs_epochs cs cu cn ce mn me es rdb_new in
  let ps := beside (rl_iter_edges_with_props (SE := SE) cs cu cn ce rcuts o) (rl_callers cs cu cn ce mn me wcuts 0 ts) in
  let seen := during schedule ps d in
  let names := id_now (SE := SE) cs cu (snd (interleave schedule ps d)) in
  has_read xs (fst (interleave schedule ps d)) ->
  (forall d1 i s, seen d1 -> id_now (SE := SE) cs cu d1 i = Some s -> names i = Some s) /\
  (forall s p ob, In (Ok (PropsTriple s p ob)) xs -> exists u d1 d2 d3,
     seen d1 /\ r_lists_edge SE cs cu ce o d1 (triple_map (shown (id_now (SE := SE) cs cu d1)) u) (snd p) /\
     seen d2 /\ r_lists_node SE cs cu cn d2 (shown (id_now (SE := SE) cs cu d2) (sub u)) (snd s) /\
     seen d3 /\ r_lists_node SE cs cu cn d3 (shown (id_now (SE := SE) cs cu d3) (obj u)) (snd ob) /\
     called3 SE cs cu (knowing SE cs cu (knowing SE cs cu (knowing SE cs cu seen d1) d2) d3) u (Triple (fst s) (fst p) (fst ob))) /\
  StronglySorted (behind_edge_lt names o) (map (fun x => triple_map (by_name names) (edge_of x)) (ok_items xs)) /\
  (forall x, In (Err x) xs -> (x = GraphStorageError MissingPropertyData /\ exists u, was_bare SE cs cu cn ce seen o u) \/ is_fault (met schedule) x) /\
  (forall t, (forall d1, seen d1 -> exists t1 p, triple_map (by_name names) t1 = triple_map (by_name names) t /\ r_lists_edge SE cs cu ce o d1 t1 p) ->
     In (triple_map (by_name names) t) (map (fun x => triple_map (by_name names) (edge_of x)) (ok_items xs)) \/
     exists x, In (Err x) xs /\
       ((x = GraphStorageError MissingPropertyData /\ exists u, triple_map (by_name names) t = triple_map (shown names) u /\ was_bare SE cs cu cn ce seen o u) \/
        is_fault (met schedule) x)).
Proof. exact @props_adding_next_to. Qed.
Print Assumptions C63_props_adding.

(** ** Examples *)

(** An entity that has no name; then another process draws the same identifier for a name. *)
Definition w_life : list xepoch :=
  [ Alone (RLife (rh 100 10) [ RInsertNode (nm 1) 1; RInsertNode (EUlid (ul 20)) 2; RInsertEdge (Triple (EUlid (ul 20)) (nm 1) (EUlid (ul 20))) 3;
      RInsertEdge (Triple (nm 1) (nm 4) (nm 1)) 4 ] [] 90) ].
Definition w_ops : list xrop := [RInsertNode (nm 5) 5; RInsertEdge (Triple (nm 6) (nm 4) (nm 6)) 6].
Definition w_next {A} (reader : prog rdb N A) :=
  beside reader (rl_callers (BE := N) nc uc nc nc mg mg no_cuts 0 [(rh 200 20, w_ops)]).
Definition w_then (n : nat) : list (nat * option N) := times [(0, n); (1, 30); (0, 30)]%nat.

Lemma w_keys : NoDup (flat_map epoch_keys w_life ++ callers_keys [(rh 200 20, w_ops)]).
Proof. apply nodupb_ok. vm_compute. reflexivity. Qed.
Lemma w_calm : Forall calm w_life.
Proof. repeat constructor. Qed.

Example C63_case :
  NoDup (flat_map epoch_keys w_life ++ callers_keys [(rh 200 20, w_ops)]) /\ Forall calm w_life /\
  listed (xdb w_life) = [Ok (nm 1, 1); Ok (EUlid (ul 20), 2)] /\
  has_read [Ok (nm 1, 1); Ok (nm 5, 2)]
    (fst (interleave (w_then 4) (w_next (rl_iter_vertices (SE := N) nc uc nc [to_be_bytes (ul 15)])) (xdb w_life))) /\
  has_read (Ok [nm 1; nm 5]) (fst (interleave (w_then 4) (w_next (rl_vertices (SE := N) nc uc [])) (xdb w_life))) /\
  has_read [Ok (Triple (nm 1) (nm 4) (nm 1), 4); Ok (Triple (EUlid (ul 20)) (nm 1) (nm 5), 3)]
    (fst (interleave (w_then 9) (w_next (rl_iter_edges (SE := N) nc uc nc [] SPO)) (xdb w_life))) /\
  has_read [Ok (Triple (nm 1) (nm 4) (nm 1), 4); Ok (Triple (nm 5) (nm 1) (nm 5), 3); Ok (Triple (nm 6) (nm 4) (nm 6), 6)]
    (fst (interleave (w_then 0) (w_next (rl_iter_edges (SE := N) nc uc nc [] SPO)) (xdb w_life))).
Proof. split; [exact w_keys|]. split; [exact w_calm|]. vm_compute. repeat split. Qed.

(** The third edge has no properties at its ends; and failures of the index and of the graph. *)
Example C63_props_case :
  has_read [Ok (PropsTriple (nm 1, 1) (nm 4, 4) (nm 1, 1)); Ok (PropsTriple (nm 5, 5) (nm 1, 3) (nm 5, 5)); Err (GraphStorageError MissingPropertyData)]
    (fst (interleave (w_then 0) (w_next (rl_iter_edges_with_props (SE := N) nc uc nc nc [] SPO)) (xdb w_life))) /\
  has_read [Err (GraphStorageError (SledError 7)); Ok (Triple (nm 5) (nm 1) (nm 5), 3); Ok (Triple (nm 6) (nm 4) (nm 6), 6)]
    (fst (interleave (times [(1, 30); (0, 1)]%nat ++ [(0%nat, Some 7)] ++ times [(0, 30)]%nat) (w_next (rl_iter_edges (SE := N) nc uc nc [] SPO)) (xdb w_life))).
Proof. vm_compute. repeat split. Qed.

Lemma rdf_check_during {A B} (f : rdb -> B) (P : B -> Prop) schedule (ps : list (prog rdb N A)) d :
  Forall P (map f (map (fun n => snd (interleave (firstn n schedule) ps d)) (seq 0 (Datatypes.S (length schedule))))) ->
  forall d1, during schedule ps d d1 -> P (f d1).
Proof.
  intros H d1 (s1 & s2 & -> & ->). eapply Forall_forall in H; [exact H|]. apply in_map, in_map_iff. exists (length s1). split.
  - now rewrite firstn_app, Nat.sub_diag, firstn_all, firstn_O, app_nil_r.
  - apply in_seq. rewrite app_length. split; [apply Nat.le_0_l|]. simpl. apply Nat.lt_succ_r, Nat.le_add_r.
Qed.

(** ** C64.  An item is no picture of any moment: the subject and the object of the edge are the same vertex, which
    has no name when the first is looked up and has one when the second is. *)
Theorem C64_moment_refuted : exists (es : list xepoch) h (l : list xrop) schedule t p,
  let ps := beside (rl_iter_edges (SE := N) nc uc nc [] SPO) (rl_callers (BE := N) nc uc nc nc mg mg no_cuts 0 [(h, l)]) in
  NoDup (flat_map epoch_keys es ++ callers_keys [(h, l)]) /\ Forall calm es /\ Forall r_adds_only l /\
  (exists xs, has_read xs (fst (interleave schedule ps (xdb es))) /\ In (Ok (t, p)) xs) /\
  forall d1, during schedule ps (xdb es) d1 -> ~ r_lists_edge N nc uc nc SPO d1 t p.
Proof.
  exists w_life, (rh 200 20), w_ops, (w_then 9), (Triple (EUlid (ul 20)) (nm 1) (nm 5)), 3. cbv zeta.
  split; [exact w_keys|]. split; [exact w_calm|]. split; [repeat constructor|]. split.
  - eexists. split; [vm_compute; reflexivity|]. right. left. reflexivity.
  - apply (rdf_check_during (fun d => ret_of (rs_iter_edges (SE := N) nc uc nc SPO) [] d) (fun l => ~ In (Ok (Triple (EUlid (ul 20)) (nm 1) (nm 5), 3)) l)).
    run_through. repeat constructor; intros H; repeat (destruct H as [H|H]; try discriminate H); exact H.
Qed.
Print Assumptions C64_moment_refuted.

(** When no Ulid that a caller draws for a name is mentioned by a call, or is in the database without a
    name, the items are pictures: every entity is listed, under the name it is returned with and with
    these properties, at some moment; they come in the order of the identifiers; and an entity that is
    listed at every moment is returned, unless the reader has been told of an error.  Missing: callers
    whose generators draw an identifier that is in use, where the refutation above lives. *)
Theorem C64_nodes_partial : forall S NP EP SE BE E (seqb : S -> S -> bool)
  (cs : codec BE S) (cu : codec BE (Id KUlid)) (cn : codec BE NP) (ce : codec BE EP) mn me,
  (forall a b, seqb a b = true <-> a = b) ->
  codec_ok cs -> codec_ok cu -> codec_ok cn -> codec_ok ce -> codec_total cu ->
  forall (es : list (repoch (S := S) (NP := NP) (EP := EP) (SE := SE) (E := E))) (ts : list (rhandle * list (rop S NP EP E)))
    (wcuts : nat -> nat -> cutting) (rcuts : list bytes) (schedule : list (nat * option SE)) xs,
  NoDup (flat_map epoch_keys es ++ callers_keys ts) -> Forall calm es ->
  let d := rs_epochs cs cu cn ce mn me es rdb_new in
  apart_from_names SE cs cu cn ce d ts ->
  let ps := beside (rl_iter_vertices (SE := SE) cs cu cn rcuts) (rl_callers cs cu cn ce mn me wcuts 0 ts) in
  let seen := during schedule ps d in
  let names := id_now (SE := SE) cs cu (snd (interleave schedule ps d)) in
  has_read xs (fst (interleave schedule ps d)) ->
  (forall e p, In (Ok (e, p)) xs -> exists d1, seen d1 /\ r_lists_node SE cs cu cn d1 e p) /\
  StronglySorted (behind_lt names) (map fst (ok_items xs)) /\
  (forall e, (forall d1, seen d1 -> exists p, r_lists_node SE cs cu cn d1 e p) ->
     In e (map fst (ok_items xs)) \/ exists x, In (Err x) xs).
Proof. exact @nodes_exactly. Qed.
Print Assumptions C64_nodes_partial.

Theorem C64_vertices_partial : forall S NP EP SE BE E (seqb : S -> S -> bool)
  (cs : codec BE S) (cu : codec BE (Id KUlid)) (cn : codec BE NP) (ce : codec BE EP) mn me,
  (forall a b, seqb a b = true <-> a = b) ->
  codec_ok cs -> codec_ok cu -> codec_ok cn -> codec_ok ce -> codec_total cu ->
  forall (es : list (repoch (S := S) (NP := NP) (EP := EP) (SE := SE) (E := E))) (ts : list (rhandle * list (rop S NP EP E)))
    (wcuts : nat -> nat -> cutting) (rcuts : list bytes) (schedule : list (nat * option SE)) vs,
  NoDup (flat_map epoch_keys es ++ callers_keys ts) -> Forall calm es ->
  let d := rs_epochs cs cu cn ce mn me es rdb_new in
  apart_from_names SE cs cu cn ce d ts ->
  let ps := beside (rl_vertices (SE := SE) cs cu rcuts) (rl_callers cs cu cn ce mn me wcuts 0 ts) in
  let seen := during schedule ps d in
  let names := id_now (SE := SE) cs cu (snd (interleave schedule ps d)) in
  has_read (Ok vs) (fst (interleave schedule ps d)) ->
  (forall e, In e vs -> exists d1 p, seen d1 /\ r_lists_node SE cs cu cn d1 e p) /\
  StronglySorted (behind_lt names) vs /\
  (forall e, (forall d1, seen d1 -> exists p, r_lists_node SE cs cu cn d1 e p) -> In e vs).
Proof. exact @vertices_exactly. Qed.
Print Assumptions C64_vertices_partial.

Theorem C64_edges_partial : forall S NP EP SE BE E (seqb : S -> S -> bool)
  (cs : codec BE S) (cu : codec BE (Id KUlid)) (cn : codec BE NP) (ce : codec BE EP) mn me,
  (forall a b, seqb a b = true <-> a = b) ->
  codec_ok cs -> codec_ok cu -> codec_ok cn -> codec_ok ce -> codec_total cu ->
  forall (es : list (repoch (S := S) (NP := NP) (EP := EP) (SE := SE) (E := E))) (ts : list (rhandle * list (rop S NP EP E)))
    (wcuts : nat -> nat -> cutting) (rcuts : list bytes) o (schedule : list (nat * option SE)) xs,
  NoDup (flat_map epoch_keys es ++ callers_keys ts) -> Forall calm es ->
  let d := rs_epochs cs cu cn ce mn me es rdb_new in
  apart_from_names SE cs cu cn ce d ts ->
  let ps := beside (rl_iter_edges (SE := SE) cs cu ce rcuts o) (rl_callers cs cu cn ce mn me wcuts 0 ts) in
  let seen := during schedule ps d in
  let names := id_now (SE := SE) cs cu (snd (interleave schedule ps d)) in
  has_read xs (fst (interleave schedule ps d)) ->
  (forall t p, In (Ok (t, p)) xs -> exists d1, seen d1 /\ r_lists_edge SE cs cu ce o d1 t p) /\
  StronglySorted (behind_edge_lt names o) (map fst (ok_items xs)) /\
  (forall t, (forall d1, seen d1 -> exists p, r_lists_edge SE cs cu ce o d1 t p) ->
     In t (map fst (ok_items xs)) \/ exists x, In (Err x) xs).
Proof. exact @edges_exactly. Qed.
Print Assumptions C64_edges_partial.

(** The edge and its two ends are three moments. *)
Theorem C64_props_partial : forall S NP EP SE BE E (seqb : S -> S -> bool)
  (cs : codec BE S) (cu : codec BE (Id KUlid)) (cn : codec BE NP) (ce : codec BE EP) mn me,
  (forall a b, seqb a b = true <-> a = b) ->
  codec_ok cs -> codec_ok cu -> codec_ok cn -> codec_ok ce -> codec_total cu ->
  forall (es : list (repoch (S := S) (NP := NP) (EP := EP) (SE := SE) (E := E))) (ts : list (rhandle * list (rop S NP EP E)))
    (wcuts : nat -> nat -> cutting) (rcuts : list bytes) o (schedule : list (nat * option SE)) xs,
  NoDup (flat_map epoch_keys es ++ callers_keys ts) -> Forall calm es ->
  let d := rs_epochs cs cu cn ce mn me es rdb_new in
  apart_from_names SE cs cu cn ce d ts ->
  let ps := beside (rl_iter_edges_with_props (SE := SE) cs cu cn ce rcuts o) (rl_callers cs cu cn ce mn me wcuts 0 ts) in
  let seen := during schedule ps d in
  let names := id_now (SE := SE) cs cu (snd (interleave schedule ps d)) in
  has_read xs (fst (interleave schedule ps d)) ->
  (forall s p ob, In (Ok (PropsTriple s p ob)) xs -> exists d1 d2 d3,
     seen d1 /\ r_lists_edge SE cs cu ce o d1 (Triple (fst s) (fst p) (fst ob)) (snd p) /\
     seen d2 /\ r_lists_node SE cs cu cn d2 (fst s) (snd s) /\
     seen d3 /\ r_lists_node SE cs cu cn d3 (fst ob) (snd ob)) /\
  StronglySorted (behind_edge_lt names o) (map edge_of (ok_items xs)) /\
  (forall t, (forall d1, seen d1 -> exists p, r_lists_edge SE cs cu ce o d1 t p) ->
     In t (map edge_of (ok_items xs)) \/ exists x, In (Err x) xs).
Proof. exact @props_exactly. Qed.
Print Assumptions C64_props_partial.

(** The same database; the other process draws other Ulids for its names.  What the reader returns has
    the vertex without a name as it is. *)
Definition w_apart {A} (reader : prog rdb N A) :=
  beside reader (rl_callers (BE := N) nc uc nc nc mg mg no_cuts 0 [(rh 200 30, w_ops)]).
Lemma w_apart_ok : apart_from_names N nc uc nc nc (xdb w_life) [(rh 200 30, w_ops)].
Proof.
  unfold apart_from_names.
  assert (forall i, In i (callers_ulids [(rh 200 30, w_ops)]) -> In i [ul 30; ul 31; ul 32; ul 33]) as Hd.
  { intros i Hi. vm_compute in Hi. vm_compute. tauto. }
  intros i Hi. apply Hd in Hi. split.
  - intros H. vm_compute in H. repeat (destruct H as [H|H]; [discriminate H|]). exact H.
  - unfold r_nameless, r_lists_node, r_lists_edge. intros [(p & H)|(t & p & H & He)].
    + assert (ret_of (rs_iter_vertices (SE := N) nc uc nc) [] (xdb w_life) = [Ok (nm 1, 1); Ok (EUlid (ul 20), 2)]) as R by (vm_compute; reflexivity).
      rewrite R in H.
      destruct H as [[=]|[[= E _]|[]]]. subst i. vm_compute in Hi. repeat (destruct Hi as [Hi|Hi]; [discriminate Hi|]). exact Hi.
    + assert (ret_of (rs_iter_edges (SE := N) nc uc nc SPO) [] (xdb w_life) =
        [Ok (Triple (nm 1) (nm 4) (nm 1), 4); Ok (Triple (EUlid (ul 20)) (nm 1) (EUlid (ul 20)), 3)]) as R by (vm_compute; reflexivity).
      rewrite R in H.
      destruct H as [[= <- _]|[[= <- _]|[]]]; simpl in He; repeat (destruct He as [He|He]; [try discriminate He; injection He as <-;
        vm_compute in Hi; repeat (destruct Hi as [Hi|Hi]; [discriminate Hi|]); exact Hi|]); exact He.
Qed.

Example C64_case :
  NoDup (flat_map epoch_keys w_life ++ callers_keys [(rh 200 30, w_ops)]) /\ Forall calm w_life /\
  apart_from_names N nc uc nc nc (xdb w_life) [(rh 200 30, w_ops)] /\
  has_read [Ok (nm 1, 1); Ok (EUlid (ul 20), 2); Ok (nm 5, 5)]
    (fst (interleave (w_then 4) (w_apart (rl_iter_vertices (SE := N) nc uc nc [to_be_bytes (ul 25)])) (xdb w_life))) /\
  has_read [Ok (Triple (nm 1) (nm 4) (nm 1), 4); Ok (Triple (EUlid (ul 20)) (nm 1) (EUlid (ul 20)), 3)]
    (fst (interleave (w_then 9) (w_apart (rl_iter_edges (SE := N) nc uc nc [] SPO)) (xdb w_life))).
Proof.
  split; [apply nodupb_ok; vm_compute; reflexivity|]. split; [exact w_calm|]. split; [exact w_apart_ok|]. vm_compute. repeat split.
Qed.
