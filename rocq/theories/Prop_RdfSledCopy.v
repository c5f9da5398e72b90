(** C78: a copy taken of an RDF store over sled while others are writing to it. *)
From Coq Require Import Arith NArith List Sorted.
From Verif Require Import Bytes OMap Core IdType Store Mem MemIndex Spec GenSpec History MemTop Prog Sled SledHistory SledTables SledLeaf SledBeside
  SledIndex Rdf RdfSpec RdfSled RdfSledSpec RdfSledLeaf SledCopy RdfSledCopy RdfSledCopyTop Ex ExSled Prop_SledReader Prop_RdfSled Prop_RdfSledReader.
Import ListNotations.

(** ** C78.  extend and merge of an RDF store by an RDF store over sled that any number of other
    callers are using, where the store that is written is in memory or on another database.  The
    database that is read has been left by processes that may have failed and died.

    Whatever is done with an item, the call does what it does with some source fixed beforehand.  Every
    vertex and edge of that source was listed at some moment during the call and is under what it was
    called then or later; under the names of the end, they are in order and none twice; its errors are
    storage failures that were met, or MissingPropertyData when one of the other callers rewrites an
    edge; and if the call succeeds the source has all that was there all the time. *)
Theorem C78_handed : forall S NP EP SE BE E H EL (seqb : S -> S -> bool)
  (cs : codec BE S) (cu : codec BE (Id KUlid)) (cn : codec BE NP) (ce : codec BE EP) mn me
  (fn : entity S * NP -> H -> result EL unit * H) (fe : triple (entity S) * EP -> H -> result EL unit * H),
  (forall a b, seqb a b = true <-> a = b) ->
  codec_ok cs -> codec_ok cu -> codec_ok cn -> codec_ok ce -> codec_total cu ->
  forall (es : list (repoch (S := S) (NP := NP) (EP := EP) (SE := SE) (E := E))) (ts : list (rhandle * list (rop S NP EP E)))
    (wcuts : nat -> nat -> cutting) (cuts cuts' : list bytes) (schedule : list (nat * option SE)) (h : H) a h',
  NoDup (flat_map epoch_keys es ++ callers_keys ts) -> Forall calm es ->
  let d := rs_epochs cs cu cn ce mn me es rdb_new in
  let ps := beside (rs_take_over cs cu cn ce fn fe cuts cuts' h) (rl_callers cs cu cn ce mn me wcuts 0 ts) in
  let names := id_now (SE := SE) cs cu (snd (interleave schedule ps d)) in
  has_read (a, h') (fst (interleave schedule ps d)) ->
  (forall d1 i s, during schedule ps d d1 -> id_now (SE := SE) cs cu d1 i = Some s -> names i = Some s) /\
  one_to_one (name_now (SE := SE) cs cu (snd (interleave schedule ps d))) names /\
  exists s, (a, h') = r_feed_both fn fe s h /\ r_handed cs cu cn ce schedule ps d ts s /\
    (a = Ok tt -> r_complete cs cu cn ce schedule ps d s).
Proof. exact @rtaken_beside. Qed.
Print Assumptions C78_handed.

(** Into a new store in memory.  Its graph has what was listed at some moment, under what that was
    called then or later, and if the call succeeds it has, under some name, all that was there all the
    time.  The Ulids the new store has drawn must not be those of a vertex that was listed without a
    name, or it would take one for the other (C41). *)
Theorem C78_extend : forall S NP EP SE BE E (seqb : S -> S -> bool)
  (cs : codec BE S) (cu : codec BE (Id KUlid)) (cn : codec BE NP) (ce : codec BE EP) mn me,
  (forall a b, seqb a b = true <-> a = b) ->
  codec_ok cs -> codec_ok cu -> codec_ok cn -> codec_ok ce -> codec_total cu ->
  forall (es : list (repoch (S := S) (NP := NP) (EP := EP) (SE := SE) (E := E))) (ts : list (rhandle * list (rop S NP EP E)))
    (wcuts : nat -> nat -> cutting) (cuts cuts' : list bytes) (schedule : list (nat * option SE)) g u a (r : rdf S NP EP),
  NoDup (flat_map epoch_keys es ++ callers_keys ts) -> Forall calm es ->
  let d := rs_epochs cs cu cn ce mn me es rdb_new in
  let ps := beside (m_rextend_live cs cu cn ce seqb cuts cuts' (rdf_new g u)) (rl_callers cs cu cn ce mn me wcuts 0 ts) in
  let seen := during schedule ps d in
  let names := id_now (SE := SE) cs cu (snd (interleave schedule ps d)) in
  has_read (a, r) (fst (interleave schedule ps d)) ->
  drawn_distinct (r_ulids r) -> drawn_distinct (id_generator (r_graph r)) ->
  (forall d1 i n, seen d1 -> r_nameless SE cs cu cn ce d1 i -> n < g_pos (r_ulids r) -> g_seq (r_ulids r) n <> i)%nat ->
  (a = Ok tt \/ exists x, a = Err (RightE x) /\ (is_fault (met schedule) x \/
     (x = GraphStorageError MissingPropertyData /\ exists u, r_rewritten (r_denotes SE cs cu (snd (interleave schedule ps d))) ts u))) /\
  exists eg, rdf_shows r eg /\
  (forall e p, e_node eg e = Some p -> exists i d1, seen d1 /\
     r_lists_node SE cs cu cn d1 (shown (id_now (SE := SE) cs cu d1) i) p /\ called SE cs cu (knowing SE cs cu seen d1) i e) /\
  (forall t p, e_edge eg t = Some p -> exists u d1, seen d1 /\
     r_lists_edge SE cs cu ce SPO d1 (triple_map (shown (id_now (SE := SE) cs cu d1)) u) p /\
     called3 SE cs cu (knowing SE cs cu seen d1) u t) /\
  (a = Ok tt ->
    (forall e, (forall d1, seen d1 -> exists e1 p, by_name names e1 = by_name names e /\ r_lists_node SE cs cu cn d1 e1 p) ->
       exists e2, by_name names e2 = by_name names e /\ e_node eg e2 <> None) /\
    (forall t, (forall d1, seen d1 -> exists t1 p, triple_map (by_name names) t1 = triple_map (by_name names) t /\
          r_lists_edge SE cs cu ce SPO d1 t1 p) ->
       exists t2, triple_map (by_name names) t2 = triple_map (by_name names) t /\ e_edge eg t2 <> None)).
Proof. exact @rextend_live_new. Qed.
Print Assumptions C78_extend.

Theorem C78_merge : forall S NP EP SE BE E (seqb : S -> S -> bool)
  (cs : codec BE S) (cu : codec BE (Id KUlid)) (cn : codec BE NP) (ce : codec BE EP) mn me,
  (forall a b, seqb a b = true <-> a = b) ->
  codec_ok cs -> codec_ok cu -> codec_ok cn -> codec_ok ce -> codec_total cu ->
  forall (es : list (repoch (S := S) (NP := NP) (EP := EP) (SE := SE) (E := E))) (ts : list (rhandle * list (rop S NP EP E)))
    (wcuts : nat -> nat -> cutting) (cuts cuts' : list bytes) (schedule : list (nat * option SE)) g u a (r : rdf S NP EP),
  NoDup (flat_map epoch_keys es ++ callers_keys ts) -> Forall calm es ->
  let d := rs_epochs cs cu cn ce mn me es rdb_new in
  let ps := beside (m_rmerge_live cs cu cn ce seqb mn me cuts cuts' (rdf_new g u)) (rl_callers cs cu cn ce mn me wcuts 0 ts) in
  let seen := during schedule ps d in
  let names := id_now (SE := SE) cs cu (snd (interleave schedule ps d)) in
  has_read (a, r) (fst (interleave schedule ps d)) ->
  drawn_distinct (r_ulids r) -> drawn_distinct (id_generator (r_graph r)) ->
  (forall d1 i n, seen d1 -> r_nameless SE cs cu cn ce d1 i -> n < g_pos (r_ulids r) -> g_seq (r_ulids r) n <> i)%nat ->
  (a = Ok tt \/ exists x, a = Err (RightE x) /\ (is_fault (met schedule) x \/
     (x = GraphStorageError MissingPropertyData /\ exists u, r_rewritten (r_denotes SE cs cu (snd (interleave schedule ps d))) ts u))) /\
  exists eg, rdf_shows r eg /\
  (forall e p, e_node eg e = Some p -> exists i d1, seen d1 /\
     r_lists_node SE cs cu cn d1 (shown (id_now (SE := SE) cs cu d1) i) p /\ called SE cs cu (knowing SE cs cu seen d1) i e) /\
  (forall t p, e_edge eg t = Some p -> exists u d1, seen d1 /\
     r_lists_edge SE cs cu ce SPO d1 (triple_map (shown (id_now (SE := SE) cs cu d1)) u) p /\
     called3 SE cs cu (knowing SE cs cu seen d1) u t) /\
  (a = Ok tt ->
    (forall e, (forall d1, seen d1 -> exists e1 p, by_name names e1 = by_name names e /\ r_lists_node SE cs cu cn d1 e1 p) ->
       exists e2, by_name names e2 = by_name names e /\ e_node eg e2 <> None) /\
    (forall t, (forall d1, seen d1 -> exists t1 p, triple_map (by_name names) t1 = triple_map (by_name names) t /\
          r_lists_edge SE cs cu ce SPO d1 t1 p) ->
       exists t2, triple_map (by_name names) t2 = triple_map (by_name names) t /\ e_edge eg t2 <> None)).
Proof. exact @rmerge_live_new. Qed.
Print Assumptions C78_merge.

(** Into any store in memory: the call is an extend, or a merge, by such a source, about which C41
    and C60 speak. *)
Theorem C78_mem_extend : forall S NP EP SE BE E (seqb : S -> S -> bool)
  (cs : codec BE S) (cu : codec BE (Id KUlid)) (cn : codec BE NP) (ce : codec BE EP) mn me,
  (forall a b, seqb a b = true <-> a = b) ->
  codec_ok cs -> codec_ok cu -> codec_ok cn -> codec_ok ce -> codec_total cu ->
  forall (es : list (repoch (S := S) (NP := NP) (EP := EP) (SE := SE) (E := E))) (ts : list (rhandle * list (rop S NP EP E)))
    (wcuts : nat -> nat -> cutting) (cuts cuts' : list bytes) (schedule : list (nat * option SE)) a (r r' : rdf S NP EP),
  NoDup (flat_map epoch_keys es ++ callers_keys ts) -> Forall calm es ->
  let d := rs_epochs cs cu cn ce mn me es rdb_new in
  let ps := beside (m_rextend_live cs cu cn ce seqb cuts cuts' r) (rl_callers cs cu cn ce mn me wcuts 0 ts) in
  has_read (a, r') (fst (interleave schedule ps d)) ->
  exists s, rdf_extend seqb s r = (a, r') /\ r_handed cs cu cn ce schedule ps d ts s /\
    (a = Ok tt -> r_complete cs cu cn ce schedule ps d s).
Proof. exact @rextend_live_mem. Qed.
Print Assumptions C78_mem_extend.

Theorem C78_mem_merge : forall S NP EP SE BE E (seqb : S -> S -> bool)
  (cs : codec BE S) (cu : codec BE (Id KUlid)) (cn : codec BE NP) (ce : codec BE EP) mn me,
  (forall a b, seqb a b = true <-> a = b) ->
  codec_ok cs -> codec_ok cu -> codec_ok cn -> codec_ok ce -> codec_total cu ->
  forall (es : list (repoch (S := S) (NP := NP) (EP := EP) (SE := SE) (E := E))) (ts : list (rhandle * list (rop S NP EP E)))
    (wcuts : nat -> nat -> cutting) (cuts cuts' : list bytes) (schedule : list (nat * option SE)) a (r r' : rdf S NP EP),
  NoDup (flat_map epoch_keys es ++ callers_keys ts) -> Forall calm es ->
  let d := rs_epochs cs cu cn ce mn me es rdb_new in
  let ps := beside (m_rmerge_live cs cu cn ce seqb mn me cuts cuts' r) (rl_callers cs cu cn ce mn me wcuts 0 ts) in
  has_read (a, r') (fst (interleave schedule ps d)) ->
  exists s, rdf_merge seqb mn me s r = (a, r') /\ r_handed cs cu cn ce schedule ps d ts s /\
    (a = Ok tt -> r_complete cs cu cn ce schedule ps d s).
Proof. exact @rmerge_live_mem. Qed.
Print Assumptions C78_mem_merge.

(** Into another database, which may fail at any access ([fs]); C49 speaks about that call. *)
Theorem C78_sled_extend : forall S NP EP SE BE SE' BE' E (seqb : S -> S -> bool)
  (cs : codec BE S) (cu : codec BE (Id KUlid)) (cn : codec BE NP) (ce : codec BE EP)
  (cs' : codec BE' S) (cu' : codec BE' (Id KUlid)) (cn' : codec BE' NP) (ce' : codec BE' EP) mn me,
  (forall a b, seqb a b = true <-> a = b) ->
  codec_ok cs -> codec_ok cu -> codec_ok cn -> codec_ok ce -> codec_total cu ->
  forall (es : list (repoch (S := S) (NP := NP) (EP := EP) (SE := SE) (E := E))) (ts : list (rhandle * list (rop S NP EP E)))
    (wcuts : nat -> nat -> cutting) (cuts cuts' : list bytes) (schedule : list (nat * option SE)) a (h h' : rhandle) (x x' : rdb) (fs fs' : list (option SE')),
  NoDup (flat_map epoch_keys es ++ callers_keys ts) -> Forall calm es ->
  let d := rs_epochs cs cu cn ce mn me es rdb_new in
  let ps := beside (s_rextend_live cs cu cn ce cs' cu' cn' ce' cuts cuts' (h, x, fs)) (rl_callers cs cu cn ce mn me wcuts 0 ts) in
  has_read (a, (h', x', fs')) (fst (interleave schedule ps d)) ->
  exists s, exec (rs_extend cs' cu' cn' ce' s h) fs x = (a, h', x', fs') /\ r_handed cs cu cn ce schedule ps d ts s /\
    (a = Ok tt -> r_complete cs cu cn ce schedule ps d s).
Proof. exact @rextend_live_sled. Qed.
Print Assumptions C78_sled_extend.

Theorem C78_sled_merge : forall S NP EP SE BE SE' BE' E (seqb : S -> S -> bool)
  (cs : codec BE S) (cu : codec BE (Id KUlid)) (cn : codec BE NP) (ce : codec BE EP)
  (cs' : codec BE' S) (cu' : codec BE' (Id KUlid)) (cn' : codec BE' NP) (ce' : codec BE' EP) mn me,
  (forall a b, seqb a b = true <-> a = b) ->
  codec_ok cs -> codec_ok cu -> codec_ok cn -> codec_ok ce -> codec_total cu ->
  forall (es : list (repoch (S := S) (NP := NP) (EP := EP) (SE := SE) (E := E))) (ts : list (rhandle * list (rop S NP EP E)))
    (wcuts : nat -> nat -> cutting) (cuts cuts' : list bytes) (schedule : list (nat * option SE)) a (h h' : rhandle) (x x' : rdb) (fs fs' : list (option SE')),
  NoDup (flat_map epoch_keys es ++ callers_keys ts) -> Forall calm es ->
  let d := rs_epochs cs cu cn ce mn me es rdb_new in
  let ps := beside (s_rmerge_live cs cu cn ce cs' cu' cn' ce' mn me cuts cuts' (h, x, fs)) (rl_callers cs cu cn ce mn me wcuts 0 ts) in
  has_read (a, (h', x', fs')) (fst (interleave schedule ps d)) ->
  exists s, exec (rs_merge cs' cu' cn' ce' mn me s h) fs x = (a, h', x', fs') /\ r_handed cs cu cn ce schedule ps d ts s /\
    (a = Ok tt -> r_complete cs cu cn ce schedule ps d s).
Proof. exact @rmerge_live_sled. Qed.
Print Assumptions C78_sled_merge.

(** ** Examples *)
Definition r_copied {A B : Type} (p : option (prog rdb N (result A unit * rdf N N N + B))) :=
  match p with Some (Ret (inl (a, r))) => Some (a, rdf_iter_vertices r, rdf_iter_edges SPO r) | _ => None end.
Definition r_empty : rdf N N N := rdf_new (ulids 1000) (ulids 500).
Definition r_copy_to (r : rdf N N N) := m_rextend_live (SE := N) (BE := N) nc uc nc nc N.eqb [to_be_bytes (ul 15)] [] r.
Definition w_copying (n : nat) : list (nat * option N) := times [(0, n); (1, 30); (0, 60)]%nat.
Definition r_copy_case n := r_copied (nth_error (fst (interleave (w_copying n) (w_next (r_copy_to r_empty)) (xdb w_life))) 0).
(** A vertex without a name, whose identifier is drawn for a name meanwhile; an edge that is put in is copied. *)
Example C78_case :
  NoDup (flat_map epoch_keys w_life ++ callers_keys [(rh 200 20, w_ops)]) /\ Forall calm w_life /\
  r_copy_case 4 = Some (Ok tt, [Ok (nm 1, 1); Ok (nm 5, 2)],
    [Ok (Triple (nm 1) (nm 4) (nm 1), 4); Ok (Triple (nm 5) (nm 1) (nm 5), 3); Ok (Triple (nm 6) (nm 4) (nm 6), 6)]) /\
  r_copy_case 20 = Some (Ok tt, [Ok (EUlid (ul 20), 2); Ok (nm 1, 1)],
    [Ok (Triple (EUlid (ul 20)) (nm 1) (EUlid (ul 20)), 3); Ok (Triple (nm 1) (nm 4) (nm 1), 4)]).
Proof. split; [exact w_keys|]. split; [exact w_calm|]. vm_compute. auto. Qed.

(** The store that was written draws other Ulids than the ones that were listed. *)
Definition r_drawn {A B : Type} (p : option (prog rdb N (result A unit * rdf N N N + B))) :=
  match p with Some (Ret (inl (a, r))) => Some (map (fun n => uval (g_seq (r_ulids r) n)) (seq 0 (g_pos (r_ulids r)))) | _ => None end.
Example C78_drawn_case :
  r_drawn (nth_error (fst (interleave (w_copying 20) (w_next (r_copy_to r_empty)) (xdb w_life))) 0) = Some [500; 501]%N.
Proof. vm_compute. reflexivity. Qed.

(** Failures; and a merge into a store that has something. *)
Definition r_old : rdf N N N := snd (rdf_history (E := N) N.eqb mg mg [RInsertNode (nm 1) 10; RInsertNode (nm 8) 80] (rdf_new (ulids 1000) (ulids 500))).
Example C78_more_case :
  r_copied (nth_error (fst (interleave (times [(0, 4)]%nat ++ [(0%nat, Some 7)] ++ w_copying 0) (w_next (r_copy_to r_empty)) (xdb w_life))) 0) =
    Some (Err (RightE (GraphStorageError (SledError 7))), [Ok (nm 1, 1)], []) /\
  r_copied (nth_error (fst (interleave (w_copying 0)
    (w_next (m_rmerge_live (SE := N) (BE := N) nc uc nc nc N.eqb mg mg [to_be_bytes (ul 15)] [] r_old)) (xdb w_life))) 0) =
    Some (Ok tt, [Ok (nm 1, mg 10 1); Ok (nm 8, 80); Ok (nm 5, 5)],
      [Ok (Triple (nm 1) (nm 4) (nm 1), 4); Ok (Triple (nm 5) (nm 1) (nm 5), 3); Ok (Triple (nm 6) (nm 4) (nm 6), 6)]).
Proof. vm_compute. auto. Qed.

(** Into another database, in order and with a failure there. *)
Definition r_copied_db {A B F : Type} (p : option (prog rdb N (result A unit * (rhandle * rdb * F) + B))) :=
  match p with
  | Some (Ret (inl (a, (_, x, _)))) => Some (a, listed x, ret_of (rs_iter_edges (SE := N) nc uc nc SPO) [] x)
  | _ => None
  end.
Definition r_copy_db_case fs := r_copied_db (nth_error (fst (interleave (w_copying 4)
  (w_next (s_rextend_live (SE := N) (BE := N) (SE' := N) nc uc nc nc nc uc nc nc [] [] (rh 1000 500, rdb_new, fs))) (xdb w_life))) 0).
Example C78_sled_case :
  r_copy_db_case [] = Some (Ok tt, [Ok (nm 1, 1); Ok (nm 5, 2)],
    [Ok (Triple (nm 1) (nm 4) (nm 1), 4); Ok (Triple (nm 5) (nm 1) (nm 5), 3); Ok (Triple (nm 6) (nm 4) (nm 6), 6)]) /\
  r_copy_db_case [None; None; None; None; None; None; Some 3] = 
    Some (Err (LeftE (NameIndexStorageError (ISledError 3))), [Ok (nm 1, 1); Ok (nm 5, 2)], []).
Proof. vm_compute. auto. Qed.

(** ** A copy that succeeds is not what the store had at any moment: the vertices are read before the
    edges.  The other caller inserts a vertex and then an edge from it; the copy has the edge without
    the vertex. *)
Definition v_ops : list xrop := [RInsertNode (nm 5) 5; RInsertEdge (Triple (nm 5) (nm 4) (nm 1)) 6].
Definition v_next {A} (reader : prog rdb N A) :=
  beside reader (rl_callers (BE := N) nc uc nc nc mg mg no_cuts 0 [(rh 200 30, v_ops)]).
Theorem C78_snapshot_refuted : exists (es : list xepoch) h (l : list xrop) schedule e p t q,
  let ps := beside (r_copy_to r_empty) (rl_callers (BE := N) nc uc nc nc mg mg no_cuts 0 [(h, l)]) in
  NoDup (flat_map epoch_keys es ++ callers_keys [(h, l)]) /\ Forall calm es /\ Forall r_adds_only l /\
  sub t = e /\
  (exists ns ts, r_copied (nth_error (fst (interleave schedule ps (xdb es))) 0) = Some (Ok tt, ns, ts) /\
     In (Ok (t, q)) ts /\ ~ In e (map fst (ok_items ns))) /\
  forall d1, during schedule ps (xdb es) d1 -> r_lists_edge N nc uc nc SPO d1 t q -> r_lists_node N nc uc nc d1 e p.
Proof.
  exists w_life, (rh 200 30), v_ops, (w_copying 6), (nm 5), 5, (Triple (nm 5) (nm 4) (nm 1)), 6. cbv zeta.
  split; [apply nodupb_ok; vm_compute; reflexivity|]. split; [exact w_calm|]. split; [repeat constructor|]. split; [reflexivity|]. split.
  - eexists _, _. split; [vm_compute; reflexivity|]. split; [right; right; left; reflexivity|].
    intros [H|[H|[]]]; discriminate.
  - apply (rdf_check_during (fun d => (ret_of (rs_iter_edges (SE := N) nc uc nc SPO) [] d, listed d))
      (fun x => In (Ok (Triple (nm 5) (nm 4) (nm 1), 6)) (fst x) -> In (Ok (nm 5, 5)) (snd x))). run_through.
    repeat (apply Forall_cons || apply Forall_nil); cbn [fst snd]; intros H;
      first [solve [repeat (destruct H as [H|H]; try discriminate H); destruct H] | cbn; tauto].
Qed.
Print Assumptions C78_snapshot_refuted.

(** ** Nor does the copy keep an edge in one piece.  At every moment all edges of the store are loops;
    the copy, which succeeds, has one between two vertices: the vertex had no name when it was looked
    up as the subject, and one when it was looked up as the object. *)
Theorem C78_split_refuted : exists (es : list xepoch) h (l : list xrop) schedule t p,
  let ps := beside (r_copy_to r_empty) (rl_callers (BE := N) nc uc nc nc mg mg no_cuts 0 [(h, l)]) in
  NoDup (flat_map epoch_keys es ++ callers_keys [(h, l)]) /\ Forall calm es /\ Forall r_adds_only l /\
  (exists ns ts, r_copied (nth_error (fst (interleave schedule ps (xdb es))) 0) = Some (Ok tt, ns, ts) /\
     In (Ok (t, p)) ts /\ sub t <> obj t) /\
  forall d1 t1 p1, during schedule ps (xdb es) d1 -> r_lists_edge N nc uc nc SPO d1 t1 p1 -> sub t1 = obj t1.
Proof.
  exists w_life, (rh 200 20), w_ops, (w_copying 15), (Triple (EUlid (ul 20)) (nm 1) (nm 5)), 3. cbv zeta.
  split; [exact w_keys|]. split; [exact w_calm|]. split; [repeat constructor|]. split.
  - eexists _, _. split; [vm_compute; reflexivity|]. split; [left; reflexivity|]. discriminate.
  - intros d1 t1 p1 Hd Hl. revert Hl. revert t1 p1. revert d1 Hd.
    apply (rdf_check_during (fun d => ret_of (rs_iter_edges (SE := N) nc uc nc SPO) [] d)
      (fun l => forall t1 p1, In (Ok (t1, p1)) l -> sub t1 = obj t1)). run_through.
    repeat (apply Forall_cons || apply Forall_nil); intros t1 p1 H; repeat (destruct H as [H|H]; [injection H as <- <-; reflexivity|]); destruct H.
Qed.
Print Assumptions C78_split_refuted.
