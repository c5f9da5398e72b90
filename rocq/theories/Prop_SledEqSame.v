(** C85: try_eq of two handles of one sled database, a store and itself among them, others using the database. *)
From Coq Require Import Arith NArith List Bool Sorted.
From Verif Require Import Bytes OMap OMapFacts Core IdType IdTypeFacts Store Mem MemIndex Spec GenSpec History MemTop Prog Sled SledHistory SledTables SledTop SledLeaf SledLazy
  SledIndex Rdf RdfSpec RdfSled RdfSledSpec SledTwo RdfSledTwo SledEqTwo RdfSledEqTwo RdfSledEqTwoFacts SledEqSame SledEqSameTop SledBeside RdfSledLeaf
  Ex ExSled Prop_SledReader Prop_RdfSled Prop_RdfSledReader.
Import ListNotations.

(** ** C85.  The database has been through any number of earlier lives, any number of other callers are
    using it; the storage steps of all of them in any order, any of them failing, the leaves of the trees
    ending anywhere, for the two handles at different places.

    [Ok true]: every vertex and edge was in the database with equal properties at two moments of the call (the
    same one perhaps), or was missing at some moment.  [Ok false]: some vertex or edge was there at one moment and missing
    at another, or had properties that differ at two moments.  Otherwise a storage failure was met by the
    call, or MissingPropertyData because another caller rewrites an edge. *)
Theorem C85_sled : forall k NP EP SE BE E (cn : codec BE NP) (ce : codec BE EP) mn me (neqb : NP -> NP -> bool) (eeqb : EP -> EP -> bool)
    (ls : list (life (k := k) (NP := NP) (EP := EP) (SE := SE) (E := E))) (cs : list (handle k * list (op k NP EP E))) (wcuts : nat -> nat -> cutting)
    (cuts ecuts cuts' ecuts' : list bytes) (schedule : list (nat * option SE)) a,
  codec_ok cn -> codec_ok ce -> NoDup (life_keys ls ++ session_keys cs) ->
  let d := lives cn ce mn me ls db_new in
  let ps := beside (eq_same (k := k) cn ce neqb eeqb cuts ecuts cuts' ecuts') (l_callers cn ce mn me wcuts 0 cs) in
  has_read a (fst (interleave schedule ps d)) ->
  let had_node := had_node (k := k) (SE := SE) cn (during schedule ps d) in
  let lacked_node := lacked_node (k := k) (SE := SE) cn (during schedule ps d) in
  let had_edge := had_edge (k := k) (SE := SE) ce (during schedule ps d) in
  let lacked_edge := lacked_edge (k := k) (SE := SE) ce (during schedule ps d) in
  (exists x, (a = Err (LeftE x) \/ a = Err (RightE x) \/ a = Ok false) /\
     ((exists y, met schedule y /\ x = SledError y) \/ (x = MissingPropertyData /\ exists t, rewritten cs t))) \/
  (a = Ok true /\
    (forall i, agree_at neqb had_node had_node lacked_node lacked_node i) /\ (forall t, agree_at eeqb had_edge had_edge lacked_edge lacked_edge t)) \/
  (a = Ok false /\
    ((exists i, differ_at neqb had_node had_node lacked_node lacked_node i) \/ (exists t, differ_at eeqb had_edge had_edge lacked_edge lacked_edge t))).
Proof. exact @eq_same_beside. Qed.
Print Assumptions C85_sled.

(** Two RDF stores over the same names and graph: the answer is the one of C23 for what each of the two hands over, see C84. *)
Theorem C85_rdf : forall S NP EP SE BE E (seqb : S -> S -> bool) (neqb : NP -> NP -> bool) (eeqb : EP -> EP -> bool)
  (cs : codec BE S) (cu : codec BE (Id KUlid)) (cn : codec BE NP) (ce : codec BE EP) mn me,
  (forall a b, seqb a b = true <-> a = b) ->
  codec_ok cs -> codec_ok cu -> codec_ok cn -> codec_ok ce -> codec_total cu ->
  forall (es : list (repoch (S := S) (NP := NP) (EP := EP) (SE := SE) (E := E))) (ts : list (rhandle * list (rop S NP EP E))) (wcuts : nat -> nat -> cutting)
    (cuts ecuts cuts' ecuts' : list bytes) (schedule : list (nat * option SE)) a,
  NoDup (flat_map epoch_keys es ++ callers_keys ts) -> Forall RdfSledSpec.calm es ->
  let d := rs_epochs cs cu cn ce mn me es rdb_new in
  let ps := beside (req_same seqb neqb eeqb cs cu cn ce cuts ecuts cuts' ecuts') (rl_callers cs cu cn ce mn me wcuts 0 ts) in
  has_read a (fst (interleave schedule ps d)) ->
  let seen := during schedule ps d in
  let last := snd (interleave schedule ps d) in
  let eq := try_eq (entity_eqb seqb) neqb eeqb in
  exists s s', a = eq (rs_nodes s) (rs_edges s) (rs_nodes s') (rs_edges s') /\
    r_handed2 cs cu cn ce seen last (met schedule) ts s /\ r_handed2 cs cu cn ce seen last (met schedule) ts s' /\
    (r_all_nodes2 cs cu cn seen last (rs_nodes s) \/ forall more edges edges', eq (rs_nodes s ++ more) edges (rs_nodes s') edges' = a) /\
    (r_all_nodes2 cs cu cn seen last (rs_nodes s') \/ forall more edges edges', eq (rs_nodes s) edges (rs_nodes s' ++ more) edges' = a) /\
    (r_all_edges2 cs cu ce seen last (rs_edges s) \/ forall more, eq (rs_nodes s) (rs_edges s ++ more) (rs_nodes s') (rs_edges s') = a) /\
    (r_all_edges2 cs cu ce seen last (rs_edges s') \/ forall more, eq (rs_nodes s) (rs_edges s) (rs_nodes s') (rs_edges s' ++ more) = a).
Proof. exact @req_same_beside. Qed.
Print Assumptions C85_rdf.

(** [Ok true]: what was there all the time had equal properties at two moments. *)
Theorem C85_rdf_true : forall S NP EP SE BE E (seqb : S -> S -> bool) (neqb : NP -> NP -> bool) (eeqb : EP -> EP -> bool)
  (cs : codec BE S) (cu : codec BE (Id KUlid)) (cn : codec BE NP) (ce : codec BE EP) mn me,
  (forall a b, seqb a b = true <-> a = b) ->
  codec_ok cs -> codec_ok cu -> codec_ok cn -> codec_ok ce -> codec_total cu ->
  forall (es : list (repoch (S := S) (NP := NP) (EP := EP) (SE := SE) (E := E))) (ts : list (rhandle * list (rop S NP EP E))) (wcuts : nat -> nat -> cutting)
    (cuts ecuts cuts' ecuts' : list bytes) (schedule : list (nat * option SE)),
  NoDup (flat_map epoch_keys es ++ callers_keys ts) -> Forall RdfSledSpec.calm es ->
  let d := rs_epochs cs cu cn ce mn me es rdb_new in
  let ps := beside (req_same seqb neqb eeqb cs cu cn ce cuts ecuts cuts' ecuts') (rl_callers cs cu cn ce mn me wcuts 0 ts) in
  has_read (Ok true) (fst (interleave schedule ps d)) ->
  let seen := during schedule ps d in
  let last := snd (interleave schedule ps d) in
  let names := id_now (SE := SE) cs cu last in
  (forall e, node_stays SE cs cu cn seen names e -> exists e2 q q', by_name names e2 = by_name names e /\
     node_met SE cs cu cn seen e2 q /\ node_met SE cs cu cn seen e2 q' /\ neqb q q' = true) /\
  (forall t, edge_stays SE cs cu ce seen names t -> exists t2 q q', triple_map (by_name names) t2 = triple_map (by_name names) t /\
     edge_met SE cs cu ce seen t2 q /\ edge_met SE cs cu ce seen t2 q' /\ eeqb q q' = true).
Proof. exact @req_same_true. Qed.
Print Assumptions C85_rdf_true.

(** With nobody else and no failures both stores are compared as they are. *)
Theorem C85_alone : forall k NP EP SE BE (cn : codec BE NP) (ce : codec BE EP) (neqb : NP -> NP -> bool) (eeqb : EP -> EP -> bool)
    (cuts ecuts cuts' ecuts' : list bytes) (d : db),
  (forall x, om_sorted bytes_cmp (tbl x d)) ->
  let nodes := now SE (s_iter_vertices (k := k) cn) d in
  let edges := now SE (s_iter_edges (k := k) ce SPO) d in
  ret_of (eq_same (k := k) (SE := SE) cn ce neqb eeqb cuts ecuts cuts' ecuts') [] d = try_eq id_eqb neqb eeqb nodes edges nodes edges.
Proof. exact @eq_same_alone. Qed.
Print Assumptions C85_alone.
Theorem C85_rdf_alone : forall S NP EP SE BE (seqb : S -> S -> bool) (neqb : NP -> NP -> bool) (eeqb : EP -> EP -> bool)
    (cs : codec BE S) (cu : codec BE (Id KUlid)) (cn : codec BE NP) (ce : codec BE EP) (cuts ecuts cuts' ecuts' : list bytes) (d : rdb),
  (forall x, om_sorted bytes_cmp (tbl x (r_trees d))) ->
  let nodes := ret_of (rs_iter_vertices cs cu cn) [] d in
  let edges := ret_of (rs_iter_edges cs cu ce SPO) [] d in
  ret_of (req_same (SE := SE) seqb neqb eeqb cs cu cn ce cuts ecuts cuts' ecuts') [] d = try_eq (entity_eqb seqb) neqb eeqb nodes edges nodes edges.
Proof. exact @req_same_alone. Qed.
Print Assumptions C85_rdf_alone.

(** So a store equals itself, whatever lives its database has been through. *)
Theorem C85_itself : forall k NP EP SE BE E (cn : codec BE NP) (ce : codec BE EP) mn me (neqb : NP -> NP -> bool) (eeqb : EP -> EP -> bool)
    (ls : list (life (k := k) (NP := NP) (EP := EP) (SE := SE) (E := E))) (cuts ecuts cuts' ecuts' : list bytes),
  codec_ok cn -> codec_ok ce -> (forall p, neqb p p = true) -> (forall e, eeqb e e = true) -> NoDup (life_keys ls) ->
  ret_of (eq_same (k := k) (SE := SE) cn ce neqb eeqb cuts ecuts cuts' ecuts') [] (lives cn ce mn me ls db_new) = Ok true.
Proof. exact @eq_itself. Qed.
Print Assumptions C85_itself.
Theorem C85_rdf_itself : forall S NP EP SE BE E (seqb : S -> S -> bool) (neqb : NP -> NP -> bool) (eeqb : EP -> EP -> bool)
  (cs : codec BE S) (cu : codec BE (Id KUlid)) (cn : codec BE NP) (ce : codec BE EP) mn me,
  (forall a b, seqb a b = true <-> a = b) -> (forall p, neqb p p = true) -> (forall e, eeqb e e = true) ->
  codec_ok cs -> codec_ok cu -> codec_ok cn -> codec_ok ce -> codec_total cu ->
  forall (es : list (repoch (S := S) (NP := NP) (EP := EP) (SE := SE) (E := E))) (cuts ecuts cuts' ecuts' : list bytes),
  NoDup (flat_map epoch_keys es) -> Forall RdfSledSpec.calm es ->
  ret_of (req_same (SE := SE) seqb neqb eeqb cs cu cn ce cuts ecuts cuts' ecuts') [] (rs_epochs cs cu cn ce mn me es rdb_new) = Ok true.
Proof. exact @req_itself. Qed.
Print Assumptions C85_rdf_itself.

(** ** Examples *)
Definition own_cut : bytes := to_be_bytes (k := KU64) (u 2).
Definition itself := eq_same (k := KU64) (SE := N) (BE := N) nc nc N.eqb N.eqb [own_cut] [] [] [cut].
Definition itself_case (l : list exop) schedule := nth_error (fst (interleave schedule (next_to itself l) start_db)) 0.
Definition inserting : list exop := [OInsertNode (u 3) 3]%N.
Definition rewriting : list exop := [OInsertEdge (tr 2 5 3) 24]%N.
Definition self_steps n m : list (nat * option N) := steps (List.repeat 0 n ++ List.repeat 1 m ++ List.repeat 0 90)%nat.
(** The other caller writes before, during and after the comparison. *)
Example C85_case :
  NoDup (life_keys start_life ++ session_keys [(hd2, inserting)]) /\ NoDup (life_keys start_life ++ session_keys [(hd2, rewriting)]) /\
  itself_case inserting (self_steps 0 40) = Some (Ret (inl (Ok true))) /\
  itself_case inserting (self_steps 3 40) = Some (Ret (inl (Ok false))) /\
  itself_case inserting (self_steps 80 40) = Some (Ret (inl (Ok true))) /\
  itself_case rewriting (self_steps 12 40) = Some (Ret (inl (Ok false))).
Proof. split; [apply nodupb_ok; vm_compute; reflexivity|]. split; [apply nodupb_ok; vm_compute; reflexivity|]. vm_compute. auto 10. Qed.
Example C85_errors_case :
  itself_case inserting (steps [0%nat] ++ [(0%nat, Some 13%N)] ++ self_steps 0 40) = Some (Ret (inl (Err (LeftE (SledError 13%N))))) /\
  itself_case inserting (steps [0; 0; 0]%nat ++ [(0%nat, Some 13%N)] ++ self_steps 0 40) = Some (Ret (inl (Err (RightE (SledError 13%N))))).
Proof. vm_compute. auto. Qed.
Definition r_itself := req_same (SE := N) (BE := N) N.eqb N.eqb N.eqb nc uc nc nc [to_be_bytes (ul 15)] [] [] [to_be_bytes (ul 505)].
Definition r_itself_case (l : list xrop) schedule := nth_error (fst (interleave schedule
  (beside r_itself (rl_callers (SE := N) (BE := N) nc uc nc nc mg mg no_cuts 0 [(rh 200 20, l)])) (xdb w_life))) 0.
Example C85_rdf_case :
  NoDup (flat_map epoch_keys w_life ++ callers_keys [(rh 200 20, w_ops)]) /\ Forall calm w_life /\
  r_itself_case w_ops (self_steps 0 60) = Some (Ret (inl (Ok true))) /\
  r_itself_case w_ops (self_steps 6 60) = Some (Ret (inl (Ok false))) /\
  r_itself_case w_ops (self_steps 90 60) = Some (Ret (inl (Ok true))).
Proof. split; [exact w_keys|]. split; [exact w_calm|]. vm_compute. auto. Qed.

(** ** A store that somebody else only adds a vertex to may differ from itself. *)
Theorem C85_busy_refuted : exists (l : list exop) (schedule : list (nat * option N)),
  NoDup (life_keys start_life ++ session_keys [(hd2, l)]) /\ itself_case l schedule = Some (Ret (inl (Ok false))).
Proof. exists inserting, (self_steps 3 40). split; [apply nodupb_ok; vm_compute; reflexivity|]. vm_compute. reflexivity. Qed.
Print Assumptions C85_busy_refuted.
