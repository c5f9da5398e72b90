(** C80: try_eq with an RDF store over sled that others are using. *)
From Coq Require Import Arith NArith List Sorted.
From Verif Require Import Bytes OMap Core IdType Store Mem MemIndex Spec GenSpec History MemTop Prog Sled SledHistory SledTables SledLeaf SledBeside
  SledIndex Rdf RdfSpec RdfSled RdfSledSpec RdfSledLeaf SledCopy RdfSledCopy RdfSledEqLive RdfSledEqLiveFacts RdfSledEqLiveTop
  Ex ExSled Prop_SledReader Prop_RdfSled Prop_RdfSledReader Prop_RdfSledCopy.
Import ListNotations.

(** ** C80.  [nodes] and [edges] are what the other store yields; they may contain errors.  The answer is
    the one of C23 for what the store in use hands over: everything of that was there at some moment,
    under a name it had then or got later; it is in order; and its errors are failures that were met or
    MissingPropertyData of edges that others rewrite.  Either what was there all the time is among it,
    or no further items would have changed the answer. *)
Theorem C80_other : forall S NP EP SE BE E L (seqb : S -> S -> bool) (neqb : NP -> NP -> bool) (eeqb : EP -> EP -> bool)
  (cs : codec BE S) (cu : codec BE (Id KUlid)) (cn : codec BE NP) (ce : codec BE EP) mn me,
  (forall a b, seqb a b = true <-> a = b) ->
  codec_ok cs -> codec_ok cu -> codec_ok cn -> codec_ok ce -> codec_total cu ->
  forall (es : list (repoch (S := S) (NP := NP) (EP := EP) (SE := SE) (E := E))) (ts : list (rhandle * list (rop S NP EP E)))
    (wcuts : nat -> nat -> cutting) (cuts cuts' : list bytes) (schedule : list (nat * option SE))
    (nodes : list (result L (entity S * NP))) (edges : list (result L (triple (entity S) * EP))) a,
  NoDup (flat_map epoch_keys es ++ callers_keys ts) -> Forall calm es ->
  let d := rs_epochs cs cu cn ce mn me es rdb_new in
  let ps := beside (req_other cs cu cn ce seqb neqb eeqb cuts cuts' nodes edges) (rl_callers cs cu cn ce mn me wcuts 0 ts) in
  let eq := try_eq (entity_eqb seqb) neqb eeqb nodes edges in
  has_read a (fst (interleave schedule ps d)) ->
  exists s, a = eq (rs_nodes s) (rs_edges s) /\ r_handed cs cu cn ce schedule ps d ts s /\
    (r_all_nodes cs cu cn schedule ps d (rs_nodes s) \/ forall more more', eq (rs_nodes s ++ more) more' = a) /\
    (r_all_edges cs cu ce schedule ps d (rs_edges s) \/ forall more, eq (rs_nodes s) (rs_edges s ++ more) = a).
Proof. exact @req_other_beside. Qed.
Print Assumptions C80_other.

Theorem C80_self : forall S NP EP SE BE E L (seqb : S -> S -> bool) (neqb : NP -> NP -> bool) (eeqb : EP -> EP -> bool)
  (cs : codec BE S) (cu : codec BE (Id KUlid)) (cn : codec BE NP) (ce : codec BE EP) mn me,
  (forall a b, seqb a b = true <-> a = b) ->
  codec_ok cs -> codec_ok cu -> codec_ok cn -> codec_ok ce -> codec_total cu ->
  forall (es : list (repoch (S := S) (NP := NP) (EP := EP) (SE := SE) (E := E))) (ts : list (rhandle * list (rop S NP EP E)))
    (wcuts : nat -> nat -> cutting) (cuts cuts' : list bytes) (schedule : list (nat * option SE))
    (nodes : list (result L (entity S * NP))) (edges : list (result L (triple (entity S) * EP))) a,
  NoDup (flat_map epoch_keys es ++ callers_keys ts) -> Forall calm es ->
  let d := rs_epochs cs cu cn ce mn me es rdb_new in
  let ps := beside (req_self cs cu cn ce seqb neqb eeqb cuts cuts' nodes edges) (rl_callers cs cu cn ce mn me wcuts 0 ts) in
  let eq xs ys := try_eq (entity_eqb seqb) neqb eeqb xs ys nodes edges in
  has_read a (fst (interleave schedule ps d)) ->
  exists s, a = eq (rs_nodes s) (rs_edges s) /\ r_handed cs cu cn ce schedule ps d ts s /\
    (r_all_nodes cs cu cn schedule ps d (rs_nodes s) \/ forall more more', eq (rs_nodes s ++ more) more' = a) /\
    (r_all_edges cs cu ce schedule ps d (rs_edges s) \/ forall more, eq (rs_nodes s) (rs_edges s ++ more) = a).
Proof. exact @req_self_beside. Qed.
Print Assumptions C80_self.

(** [Ok true]: the other store yields no errors; all it holds was, each at some moment, in the store in
    use, with equal properties; and it has all that was there all the time. *)
Theorem C80_other_true : forall S NP EP SE BE E L (seqb : S -> S -> bool) (neqb : NP -> NP -> bool) (eeqb : EP -> EP -> bool)
  (cs : codec BE S) (cu : codec BE (Id KUlid)) (cn : codec BE NP) (ce : codec BE EP) mn me,
  (forall a b, seqb a b = true <-> a = b) ->
  codec_ok cs -> codec_ok cu -> codec_ok cn -> codec_ok ce -> codec_total cu ->
  forall (es : list (repoch (S := S) (NP := NP) (EP := EP) (SE := SE) (E := E))) (ts : list (rhandle * list (rop S NP EP E)))
    (wcuts : nat -> nat -> cutting) (cuts cuts' : list bytes) (schedule : list (nat * option SE))
    (nodes : list (result L (entity S * NP))) (edges : list (result L (triple (entity S) * EP))),
  NoDup (flat_map epoch_keys es ++ callers_keys ts) -> Forall calm es ->
  let d := rs_epochs cs cu cn ce mn me es rdb_new in
  let ps := beside (req_other cs cu cn ce seqb neqb eeqb cuts cuts' nodes edges) (rl_callers cs cu cn ce mn me wcuts 0 ts) in
  has_read (Ok true) (fst (interleave schedule ps d)) ->
  r_held cs cu cn ce schedule ps d neqb eeqb nodes edges.
Proof. exact @req_other_true. Qed.
Print Assumptions C80_other_true.

Theorem C80_self_true : forall S NP EP SE BE E L (seqb : S -> S -> bool) (neqb : NP -> NP -> bool) (eeqb : EP -> EP -> bool)
  (cs : codec BE S) (cu : codec BE (Id KUlid)) (cn : codec BE NP) (ce : codec BE EP) mn me,
  (forall a b, seqb a b = true <-> a = b) ->
  codec_ok cs -> codec_ok cu -> codec_ok cn -> codec_ok ce -> codec_total cu ->
  forall (es : list (repoch (S := S) (NP := NP) (EP := EP) (SE := SE) (E := E))) (ts : list (rhandle * list (rop S NP EP E)))
    (wcuts : nat -> nat -> cutting) (cuts cuts' : list bytes) (schedule : list (nat * option SE))
    (nodes : list (result L (entity S * NP))) (edges : list (result L (triple (entity S) * EP))),
  NoDup (flat_map epoch_keys es ++ callers_keys ts) -> Forall calm es ->
  let d := rs_epochs cs cu cn ce mn me es rdb_new in
  let ps := beside (req_self cs cu cn ce seqb neqb eeqb cuts cuts' nodes edges) (rl_callers cs cu cn ce mn me wcuts 0 ts) in
  has_read (Ok true) (fst (interleave schedule ps d)) ->
  r_held cs cu cn ce schedule ps d (fun p q => neqb q p) (fun p q => eeqb q p) nodes edges.
Proof. exact @req_self_true. Qed.
Print Assumptions C80_self_true.

(** The loop, on items that are read beforehand, is the one of C23. *)
Theorem C80_loop : forall A L R (eqb : A -> A -> bool) (xs : list (result R A)) (ls : list (result L A)),
  zip_other (feed (EL := unit) (zip_item eqb) xs ls) = zip_longest_eq eqb ls xs /\
  zip_self (feed (EL := unit) (zip_item (fun l x => eqb x l)) xs ls) = zip_longest_eq eqb xs ls.
Proof. intros. split; [apply zip_other_eq|apply zip_self_eq]. Qed.
Print Assumptions C80_loop.

(** ** Examples *)
Definition r_eq_to : rdf N N N := snd (rdf_history (E := N) N.eqb mg mg
  [RInsertNode (nm 1) 1; RInsertNode (nm 5) 2; RInsertEdge (Triple (nm 1) (nm 4) (nm 1)) 4;
   RInsertEdge (Triple (nm 5) (nm 1) (nm 5)) 3; RInsertEdge (Triple (nm 6) (nm 4) (nm 6)) 6] (rdf_new (ulids 1000) (ulids 500))).
Definition r_eq_other (r : rdf N N N) := req_other (SE := N) (BE := N) nc uc nc nc N.eqb N.eqb N.eqb [to_be_bytes (ul 15)] [] (rdf_iter_vertices r) (rdf_iter_edges SPO r).
Definition r_eq_self (r : rdf N N N) := req_self (SE := N) (BE := N) nc uc nc nc N.eqb N.eqb N.eqb [to_be_bytes (ul 15)] [] (rdf_iter_vertices r) (rdf_iter_edges SPO r).
(** A vertex without a name gets one while the stores are compared, and an edge is inserted. *)
Example C80_case :
  rdf_iter_vertices r_eq_to = [Ok (nm 1, 1); Ok (nm 5, 2)] /\
  has_read (Ok true) (fst (interleave (w_copying 4) (w_next (r_eq_other r_eq_to)) (xdb w_life))) /\
  has_read (Ok true) (fst (interleave (w_copying 4) (w_next (r_eq_self r_eq_to)) (xdb w_life))) /\
  has_read (Ok false) (fst (interleave (w_copying 20) (w_next (r_eq_other r_eq_to)) (xdb w_life))) /\
  has_read (Ok false) (fst (interleave (w_copying 0) (w_next (r_eq_self r_eq_to)) (xdb w_life))).
Proof. vm_compute. repeat split. Qed.

(** A failure is reported, on the side of the store that met it; but not when the other store has no more vertices. *)
Definition r_eq_failing : list (nat * option N) := times [(0, 4)]%nat ++ [(0%nat, Some 7)] ++ w_copying 0.
Example C80_errors_case :
  has_read (Err (RightE (GraphStorageError (SledError 7)))) (fst (interleave r_eq_failing (w_next (r_eq_other r_eq_to)) (xdb w_life))) /\
  has_read (Err (LeftE (GraphStorageError (SledError 7)))) (fst (interleave r_eq_failing (w_next (r_eq_self r_eq_to)) (xdb w_life))) /\
  has_read (Ok false) (fst (interleave r_eq_failing
    (w_next (r_eq_other (snd (rdf_insert_node N.eqb (nm 1) 1 (rdf_new (ulids 1000) (ulids 500)))))) (xdb w_life))).
Proof. vm_compute. repeat split. Qed.

(** ** [Ok true] does not say that the stores were equal at any moment. *)
Theorem C80_moment_refuted : exists (es : list xepoch) h (l : list xrop) schedule (r : rdf N N N),
  let ps := beside (r_eq_other r) (rl_callers (BE := N) nc uc nc nc mg mg no_cuts 0 [(h, l)]) in
  NoDup (flat_map epoch_keys es ++ callers_keys [(h, l)]) /\ Forall calm es /\ Forall r_adds_only l /\
  has_read (Ok true) (fst (interleave schedule ps (xdb es))) /\
  forall d1, during schedule ps (xdb es) d1 ->
    try_eq (entity_eqb N.eqb) N.eqb N.eqb (rdf_iter_vertices r) (rdf_iter_edges SPO r)
      (listed d1) (ret_of (rs_iter_edges (SE := N) (BE := N) nc uc nc SPO) [] d1) = Ok false.
Proof.
  exists w_life, (rh 200 20), w_ops, (w_copying 4), r_eq_to. cbv zeta.
  split; [exact w_keys|]. split; [exact w_calm|]. split; [repeat constructor|]. split; [vm_compute; reflexivity|].
  apply (rdf_check_during (fun d => try_eq (entity_eqb N.eqb) N.eqb N.eqb (rdf_iter_vertices r_eq_to) (rdf_iter_edges SPO r_eq_to)
      (listed d) (ret_of (rs_iter_edges (SE := N) (BE := N) nc uc nc SPO) [] d)) (fun x => x = Ok false)). run_through.
  repeat (apply Forall_cons || apply Forall_nil); reflexivity.
Qed.
Print Assumptions C80_moment_refuted.
