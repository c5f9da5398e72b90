(** C57 - C59: copying whole stores, and laws that relate several set operations and queries.
    [try_equal a b]: try_eq answers Ok(true).  [gives o r]: the call answered the store [r],
    and the identifiers drawn for it are pairwise different. *)
From Coq Require Import NArith List.
From Verif Require Import Bytes Core IdType IdTypeFacts Store Mem Spec History MemTop Prog Sled SledHistory
  LawSpec LawFacts Ex MemCases ExSled.
Import ListNotations.

(** ** C57.  Copying a store of any kind into a new memory store, by extend or merge. *)
Theorem C57_to_mem : forall k NP EP (neqb : NP -> NP -> bool) (eeqb : EP -> EP -> bool) mn me E gn
    (s : source k NP EP E) c g,
  reflexive neqb -> reflexive eeqb -> delivers s g -> copying s c ->
  let r := mem_history mn me [c] (mem_new gn) in
  drawn_distinct (id_generator r) ->
  shows r g /\ try_equal neqb eeqb (mem_source r) s /\ try_equal neqb eeqb s (mem_source r).
Proof. exact @copy_mem_equal. Qed.
Print Assumptions C57_to_mem.

(** Both calls answer Ok. *)
Theorem C57_to_mem_ok : forall k NP EP E mn me gn (s : source k NP EP E) (g : graph k NP EP),
  delivers s g -> fst (extend s (mem_new (NP := NP) (EP := EP) gn)) = Ok tt /\
  fst (merge mn me s (mem_new (NP := NP) (EP := EP) gn)) = Ok tt.
Proof. exact @copy_mem_ok. Qed.
Print Assumptions C57_to_mem_ok.

(** Into a new database.  Whatever storage calls fail: if the copying call reports no failure,
    the copy is complete. *)
Theorem C57_to_sled : forall k NP EP (neqb : NP -> NP -> bool) (eeqb : EP -> EP -> bool) mn me E SE BE
    (cn : codec BE NP) (ce : codec BE EP) (h : handle k) (s : source k NP EP E) c g (faults : list (option SE)),
  reflexive neqb -> reflexive eeqb ->
  codec_ok cn -> codec_ok ce -> NoDup (history_keys h [c]) ->
  delivers s g -> copying s c ->
  let p := sled_history cn ce mn me [c] h in
  let d := db_of p faults db_new in
  (forall r, In r (fst (ret_of p faults db_new)) -> ~ failed r) ->
  fst (ret_of p faults db_new) = [Ok tt] /\ sled_shows SE cn ce d g /\
  try_equal neqb eeqb (sled_source SE cn ce d) s /\ try_equal neqb eeqb s (sled_source SE cn ce d).
Proof. exact @copy_sled_equal. Qed.
Print Assumptions C57_to_sled.

(** A database as the original. *)
Theorem C57_from_sled : forall k NP EP SE BE (cn : codec BE NP) (ce : codec BE EP) d (g : graph k NP EP),
  sled_shows SE cn ce d g -> delivers (sled_source SE cn ce d) g.
Proof. exact @sled_source_delivers. Qed.
Print Assumptions C57_from_sled.

(** A memory store saved to a database and loaded again lists the same vertices and edges. *)
Theorem C57_round_trip : forall k NP EP (neqb : NP -> NP -> bool) (eeqb : EP -> EP -> bool) mn me E SE BE
    (cn : codec BE NP) (ce : codec BE EP) (h : handle k) gn (m : mem k NP EP) c c' (faults : list (option SE)),
  reflexive neqb -> reflexive eeqb ->
  codec_ok cn -> codec_ok ce -> reachable E mn me m -> drawn_distinct (id_generator m) ->
  copying (mem_source m) c -> NoDup (history_keys h [c]) ->
  let p := sled_history cn ce mn me [c] h in
  let d := db_of p faults db_new in
  (forall r, In r (fst (ret_of p faults db_new)) -> ~ failed r) ->
  copying (sled_source SE cn ce d) c' ->
  let r := mem_history mn me [c'] (mem_new gn) in
  drawn_distinct (id_generator r) ->
  iter_vertices r = iter_vertices m /\ (forall o, iter_edges o r = iter_edges o m) /\
  try_equal neqb eeqb (mem_source r) (mem_source m).
Proof. exact @round_trip. Qed.
Print Assumptions C57_round_trip.

Definition saved : db :=
  db_of (sled_history (SE := N) nc nc mg mg [OMerge (mem_source ex_mem)] hd1) [] db_new.
Definition loaded : store := mem_history mg mg [OExtend (sled_source N nc nc saved)] (mem_new (counter 3)).
Example C57_case :
  NoDup (history_keys hd1 [OMerge (mem_source ex_mem)]) /\
  fst (ret_of (sled_history (SE := N) nc nc mg mg [OMerge (mem_source ex_mem)] hd1) [] db_new) = [Ok tt] /\
  drawn_distinct (id_generator loaded) /\
  length (iter_edges OSP loaded) = 5%nat /\ iter_edges OSP loaded = iter_edges OSP ex_mem /\
  iter_vertices loaded = iter_vertices ex_mem /\
  try_equal N.eqb N.eqb (mem_source loaded) (sled_source N nc nc saved) /\
  ~ try_equal N.eqb N.eqb (mem_source ex_other) (sled_source N nc nc saved).
Proof.
  split; [apply nodupb_ok; vm_compute; reflexivity|]. split; [vm_compute; reflexivity|].
  split; [apply drawn_distinct_check; vm_compute; reflexivity|].
  split; [vm_compute; reflexivity|]. split; [vm_compute; reflexivity|]. split; [vm_compute; reflexivity|].
  split; [vm_compute; reflexivity|]. unfold try_equal. vm_compute. discriminate.
Qed.

(** ** C58.  For memory stores [a], [b], [c] that any program can hold. *)
Theorem C58_total : forall k NP EP mn me g (a b : mem k NP EP),
  reachable unit mn me a -> reachable unit mn me b ->
  (exists r, union g (mem_source b) a = Ok r) /\ (exists r, intersection g (mem_source b) a = Ok r) /\
  (exists r, difference g (mem_source b) a = Ok r).
Proof. exact @law_total. Qed.
Print Assumptions C58_total.

(** a or a = a,  a and a = a,  a minus a = nothing *)
Theorem C58_union_self : forall k NP EP (neqb : NP -> NP -> bool) (eeqb : EP -> EP -> bool) mn me,
  reflexive neqb -> reflexive eeqb -> forall g (a r : mem k NP EP),
  reachable unit mn me a -> gives (union g (mem_source a) a) r ->
  try_equal neqb eeqb (mem_source r) (mem_source a).
Proof. exact @law_union_idem. Qed.
Print Assumptions C58_union_self.

Theorem C58_intersection_self : forall k NP EP (neqb : NP -> NP -> bool) (eeqb : EP -> EP -> bool) mn me,
  reflexive neqb -> reflexive eeqb -> forall g (a r : mem k NP EP),
  reachable unit mn me a -> gives (intersection g (mem_source a) a) r ->
  try_equal neqb eeqb (mem_source r) (mem_source a).
Proof. exact @law_inter_idem. Qed.
Print Assumptions C58_intersection_self.

Theorem C58_difference_self : forall k NP EP (neqb : NP -> NP -> bool) (eeqb : EP -> EP -> bool) mn me,
  reflexive neqb -> reflexive eeqb -> forall g g' (a r : mem k NP EP),
  reachable unit mn me a -> gives (difference g (mem_source a) a) r ->
  try_equal neqb eeqb (mem_source r) (mem_source (mem_new g')).
Proof. exact @law_diff_self. Qed.
Print Assumptions C58_difference_self.

(** The empty store. *)
Theorem C58_union_empty : forall k NP EP (neqb : NP -> NP -> bool) (eeqb : EP -> EP -> bool) mn me,
  reflexive neqb -> reflexive eeqb -> forall g g' (a r : mem k NP EP),
  reachable unit mn me a -> gives (union g (mem_source (mem_new g')) a) r ->
  try_equal neqb eeqb (mem_source r) (mem_source a).
Proof. exact @law_union_empty. Qed.
Print Assumptions C58_union_empty.

Theorem C58_empty_union : forall k NP EP (neqb : NP -> NP -> bool) (eeqb : EP -> EP -> bool) mn me,
  reflexive neqb -> reflexive eeqb -> forall g g' (a r : mem k NP EP),
  reachable unit mn me a -> gives (union g (mem_source a) (mem_new g')) r ->
  try_equal neqb eeqb (mem_source r) (mem_source a).
Proof. exact @law_empty_union. Qed.
Print Assumptions C58_empty_union.

Theorem C58_intersection_empty : forall k NP EP (neqb : NP -> NP -> bool) (eeqb : EP -> EP -> bool) mn me,
  reflexive neqb -> reflexive eeqb -> forall g g' (a r : mem k NP EP),
  reachable unit mn me a -> gives (intersection g (mem_source (mem_new g')) a) r ->
  try_equal neqb eeqb (mem_source r) (mem_source (mem_new g')).
Proof. exact @law_inter_empty. Qed.
Print Assumptions C58_intersection_empty.

Theorem C58_difference_empty : forall k NP EP (neqb : NP -> NP -> bool) (eeqb : EP -> EP -> bool) mn me,
  reflexive neqb -> reflexive eeqb -> forall g g' (a r : mem k NP EP),
  reachable unit mn me a -> gives (difference g (mem_source (mem_new g')) a) r ->
  try_equal neqb eeqb (mem_source r) (mem_source a).
Proof. exact @law_diff_empty. Qed.
Print Assumptions C58_difference_empty.

(** (a or b) or c = a or (b or c) *)
Theorem C58_union_assoc : forall k NP EP (neqb : NP -> NP -> bool) (eeqb : EP -> EP -> bool) mn me,
  reflexive neqb -> reflexive eeqb -> forall g1 g2 g3 g4 (a b c ab bc l r : mem k NP EP),
  reachable unit mn me a -> reachable unit mn me b -> reachable unit mn me c ->
  gives (union g1 (mem_source b) a) ab -> gives (union g2 (mem_source c) ab) l ->
  gives (union g3 (mem_source c) b) bc -> gives (union g4 (mem_source bc) a) r ->
  try_equal neqb eeqb (mem_source l) (mem_source r).
Proof. exact @law_union_assoc. Qed.
Print Assumptions C58_union_assoc.

(** (a and b) and c = a and (b and c) *)
Theorem C58_intersection_assoc : forall k NP EP (neqb : NP -> NP -> bool) (eeqb : EP -> EP -> bool) mn me,
  reflexive neqb -> reflexive eeqb -> forall g1 g2 g3 g4 (a b c ab bc l r : mem k NP EP),
  reachable unit mn me a -> reachable unit mn me b -> reachable unit mn me c ->
  gives (intersection g1 (mem_source b) a) ab -> gives (intersection g2 (mem_source c) ab) l ->
  gives (intersection g3 (mem_source c) b) bc -> gives (intersection g4 (mem_source bc) a) r ->
  try_equal neqb eeqb (mem_source l) (mem_source r).
Proof. exact @law_inter_assoc. Qed.
Print Assumptions C58_intersection_assoc.

(** a and (a or b) = a,  a or (a and b) = a *)
Theorem C58_absorb_union : forall k NP EP (neqb : NP -> NP -> bool) (eeqb : EP -> EP -> bool) mn me,
  reflexive neqb -> reflexive eeqb -> forall g1 g2 (a b ab r : mem k NP EP),
  reachable unit mn me a -> reachable unit mn me b ->
  gives (union g1 (mem_source b) a) ab -> gives (intersection g2 (mem_source ab) a) r ->
  try_equal neqb eeqb (mem_source r) (mem_source a).
Proof. exact @law_absorb_inter. Qed.
Print Assumptions C58_absorb_union.

Theorem C58_absorb_intersection : forall k NP EP (neqb : NP -> NP -> bool) (eeqb : EP -> EP -> bool) mn me,
  reflexive neqb -> reflexive eeqb -> forall g1 g2 (a b ab r : mem k NP EP),
  reachable unit mn me a -> reachable unit mn me b ->
  gives (intersection g1 (mem_source b) a) ab -> gives (union g2 (mem_source ab) a) r ->
  try_equal neqb eeqb (mem_source r) (mem_source a).
Proof. exact @law_absorb_union. Qed.
Print Assumptions C58_absorb_intersection.

(** a and (b or c) = (a and b) or (a and c) *)
Theorem C58_distribute : forall k NP EP (neqb : NP -> NP -> bool) (eeqb : EP -> EP -> bool) mn me,
  reflexive neqb -> reflexive eeqb -> forall g1 g2 g3 g4 g5 (a b c bc ab ac l r : mem k NP EP),
  reachable unit mn me a -> reachable unit mn me b -> reachable unit mn me c ->
  gives (union g1 (mem_source c) b) bc -> gives (intersection g2 (mem_source bc) a) l ->
  gives (intersection g3 (mem_source b) a) ab -> gives (intersection g4 (mem_source c) a) ac ->
  gives (union g5 (mem_source ac) ab) r ->
  try_equal neqb eeqb (mem_source l) (mem_source r).
Proof. exact @law_inter_union. Qed.
Print Assumptions C58_distribute.

(** (a minus b) and b = nothing *)
Theorem C58_disjoint : forall k NP EP (neqb : NP -> NP -> bool) (eeqb : EP -> EP -> bool) mn me,
  reflexive neqb -> reflexive eeqb -> forall g1 g2 g' (a b ab r : mem k NP EP),
  reachable unit mn me a -> reachable unit mn me b ->
  gives (difference g1 (mem_source b) a) ab -> gives (intersection g2 (mem_source b) ab) r ->
  try_equal neqb eeqb (mem_source r) (mem_source (mem_new g')).
Proof. exact @law_diff_disjoint. Qed.
Print Assumptions C58_disjoint.

(** A query of a union is the union of the queries, and likewise for intersections. *)
Theorem C58_run_union : forall k NP EP (neqb : NP -> NP -> bool) (eeqb : EP -> EP -> bool) mn me,
  reflexive neqb -> reflexive eeqb -> forall q g1 g2 g3 g4 g5 (a b ab r : mem k NP EP),
  reachable unit mn me a -> reachable unit mn me b -> gives (union g1 (mem_source b) a) ab ->
  drawn_distinct (id_generator (run g2 q ab)) ->
  drawn_distinct (id_generator (run g3 q a)) -> drawn_distinct (id_generator (run g4 q b)) ->
  gives (union g5 (mem_source (run g4 q b)) (run g3 q a)) r ->
  try_equal neqb eeqb (mem_source (run g2 q ab)) (mem_source r).
Proof. exact @law_run_union. Qed.
Print Assumptions C58_run_union.

Theorem C58_run_intersection : forall k NP EP (neqb : NP -> NP -> bool) (eeqb : EP -> EP -> bool) mn me,
  reflexive neqb -> reflexive eeqb -> forall q g1 g2 g3 g4 g5 (a b ab r : mem k NP EP),
  reachable unit mn me a -> reachable unit mn me b -> gives (intersection g1 (mem_source b) a) ab ->
  drawn_distinct (id_generator (run g2 q ab)) ->
  drawn_distinct (id_generator (run g3 q a)) -> drawn_distinct (id_generator (run g4 q b)) ->
  gives (intersection g5 (mem_source (run g4 q b)) (run g3 q a)) r ->
  try_equal neqb eeqb (mem_source (run g2 q ab)) (mem_source r).
Proof. exact @law_run_inter. Qed.
Print Assumptions C58_run_intersection.

(** extend in place gives the store that union returns; extending again changes nothing. *)
Theorem C58_extend_union : forall k NP EP (neqb : NP -> NP -> bool) (eeqb : EP -> EP -> bool) mn me,
  reflexive neqb -> reflexive eeqb -> forall g (a b r : mem k NP EP),
  reachable unit mn me a -> reachable unit mn me b ->
  drawn_distinct (id_generator (snd (extend (mem_source b) a))) ->
  gives (union g (mem_source b) a) r ->
  try_equal neqb eeqb (mem_source (snd (extend (mem_source b) a))) (mem_source r).
Proof. exact @law_extend_union. Qed.
Print Assumptions C58_extend_union.

Theorem C58_extend_twice : forall k NP EP (neqb : NP -> NP -> bool) (eeqb : EP -> EP -> bool) mn me,
  reflexive neqb -> reflexive eeqb -> forall (a b : mem k NP EP),
  reachable unit mn me a -> reachable unit mn me b ->
  let a1 := snd (extend (mem_source b) a) in
  let a2 := snd (extend (mem_source b) a1) in
  drawn_distinct (id_generator a2) -> drawn_distinct (id_generator a1) ->
  try_equal neqb eeqb (mem_source a2) (mem_source a1).
Proof. exact @law_extend_twice. Qed.
Print Assumptions C58_extend_twice.

(** Order matters where both stores have a value: union keeps the second, intersection the first. *)
Definition or_ (a b : store) : store := result_of a (union (counter 50) (mem_source b) a).
Definition and_ (a b : store) : store := result_of a (intersection (counter 50) (mem_source b) a).
Definition minus (a b : store) : store := result_of a (difference (counter 50) (mem_source b) a).
Definition third : store := mem_history mg mg ([OInsertNode (u 1) 3; OInsertEdge (tr 1 5 3) 4] : list exop)%N (mem_new (counter 9)).
Notation "a == b" := (try_equal N.eqb N.eqb (mem_source a) (mem_source b)) (at level 70).
Example C58_case :
  or_ (or_ ex_mem ex_other) third == or_ ex_mem (or_ ex_other third) /\
  and_ ex_mem (or_ ex_other third) == or_ (and_ ex_mem ex_other) (and_ ex_mem third) /\
  run (counter 0) (QSP [(u 1, u 5)]) (or_ ex_mem ex_other) ==
    or_ (run (counter 3) (QSP [(u 1, u 5)]) ex_mem) (run (counter 9) (QSP [(u 1, u 5)]) ex_other) /\
  length (iter_edges SPO (run (counter 0) (QSP [(u 1, u 5)]) (or_ ex_mem ex_other))) = 2%nat /\
  and_ (minus ex_mem ex_other) ex_other == mem_new (counter 1) /\
  ~ or_ ex_mem ex_other == or_ ex_other ex_mem /\ ~ and_ ex_mem ex_other == and_ ex_other ex_mem.
Proof. unfold try_equal. vm_compute. repeat split; try reflexivity; discriminate. Qed.

(** ** C59 is false of the code: (a minus b) or (a and b) = a loses edges, because difference
    drops edges that only [a] has when they touch a vertex of [b]. *)
Definition parts_a : store :=
  mem_history (E := unit) mg mg [OInsertNode (u 1) 1; OInsertNode (u 2) 2; OInsertEdge (tr 1 5 2) 3]%N (mem_new (counter 0)).
Definition parts_b : store :=
  mem_history (E := unit) mg mg [OInsertNode (u 1) 1; OInsertEdge (tr 5 5 5) 1]%N (mem_new (counter 9)).
Theorem C59_refuted : exists (a b d i r : store) t e,
  reachable unit mg mg a /\ reachable unit mg mg b /\ drawn_distinct (id_generator a) /\
  gives (difference (counter 50) (mem_source b) a) d /\ gives (intersection (counter 50) (mem_source b) a) i /\
  gives (union (counter 50) (mem_source i) d) r /\
  In (Ok (t, e)) (iter_edges SPO a) /\ (forall e', ~ In (Ok (t, e')) (iter_edges SPO r)).
Proof.
  exists parts_a, parts_b, (minus parts_a parts_b), (and_ parts_a parts_b),
    (or_ (minus parts_a parts_b) (and_ parts_a parts_b)), (tr 1 5 2), 3%N.
  split; [apply reachable_history, R_new|]. split; [apply reachable_history, R_new|]. split; [distinct|].
  split; [split; [apply ok_result; vm_compute; reflexivity|distinct]|].
  split; [split; [apply ok_result; vm_compute; reflexivity|distinct]|].
  split; [split; [apply ok_result; vm_compute; reflexivity|distinct]|].
  split; [vm_compute; auto|]. not_listed.
Qed.
Print Assumptions C59_refuted.

(** The vertices are recovered and no edge is added or changed.
    Missing for C59: the edges that difference drops. *)
Theorem C59_parts_partial : forall k NP EP mn me g1 g2 g3 (a b d i r : mem k NP EP),
  reachable unit mn me a -> reachable unit mn me b ->
  gives (difference g1 (mem_source b) a) d -> gives (intersection g2 (mem_source b) a) i ->
  gives (union g3 (mem_source i) d) r ->
  iter_vertices r = iter_vertices a /\ (forall o x, In x (iter_edges o r) -> In x (iter_edges o a)).
Proof. exact @law_parts. Qed.
Print Assumptions C59_parts_partial.

Example C59_case :
  let r := or_ (minus ex_mem ex_other) (and_ ex_mem ex_other) in
  iter_vertices r = iter_vertices ex_mem /\ length (iter_vertices r) = 2%nat /\
  length (iter_edges POS r) = 3%nat /\ length (iter_edges POS ex_mem) = 5%nat.
Proof. vm_compute. auto. Qed.
