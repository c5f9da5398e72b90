(** C45, C46, C48: iterations and queries while other handles of the same sled database write.  The
    iterators are read leaf by leaf (SledLeaf.v), as the writers' scans are. *)
From Coq Require Import Arith NArith List Sorted.
From Verif Require Import Bytes OMap Core IdType Store Mem Spec History Prog Sled SledHistory SledTables SledAny
  SledLeaf SledBeside SledReadTop Ex ExSled.
Import ListNotations.

(** ** C45.  A reader iterates over the edges, in any order, while any number of other callers
    make any calls, each with its own handle; the storage steps of all of them in any order, any
    of them failing, the leaves of the trees ending anywhere; on the database any processes that
    may have failed and died have left.  Once the reader is through:
    every edge it has got was listed with these properties at some moment of the execution;
    the edges come in the order of the keys, none twice; the only errors are the storage failures it
    met and MissingPropertyData; and an edge that was there all the time has been listed, unless the
    reader has been told of an error. *)
Theorem C45_edges : forall k NP EP SE BE E (cn : codec BE NP) (ce : codec BE EP) mn me
    (ls : list (life (k := k) (NP := NP) (EP := EP) (SE := SE) (E := E)))
    (cs : list (handle k * list (op k NP EP E))) (wcuts : nat -> nat -> cutting) (rcuts : list bytes) o (schedule : list (nat * option SE)) xs,
  codec_ok cn -> codec_ok ce -> NoDup (life_keys ls ++ session_keys cs) ->
  let d := lives cn ce mn me ls db_new in
  let ps := beside (l_iter_edges (k := k) (BE := BE) ce rcuts o) (l_callers cn ce mn me wcuts 0 cs) in
  has_read xs (fst (interleave schedule ps d)) ->
  (forall t e, In (Ok (t, e)) xs -> exists d1, during schedule ps d d1 /\ lists_edge SE ce o d1 t e) /\
  StronglySorted (edge_lt o) (map fst (ok_items xs)) /\
  (forall x, In (Err x) xs -> x = MissingPropertyData \/ exists y, met schedule y /\ x = SledError y) /\
  (forall t, (forall d1, during schedule ps d d1 -> exists e, lists_edge SE ce o d1 t e) ->
     In t (map fst (ok_items xs)) \/ exists x, In (Err x) xs).
Proof. exact @edges_beside. Qed.
Print Assumptions C45_edges.

(** If the others only insert edges, insert vertices and merge vertices, MissingPropertyData does
    not occur. *)
Theorem C45_edges_adding : forall k NP EP SE BE E (cn : codec BE NP) (ce : codec BE EP) mn me
    (ls : list (life (k := k) (NP := NP) (EP := EP) (SE := SE) (E := E)))
    (cs : list (handle k * list (op k NP EP E))) (wcuts : nat -> nat -> cutting) (rcuts : list bytes) o (schedule : list (nat * option SE)) xs,
  codec_ok cn -> codec_ok ce -> NoDup (life_keys ls ++ session_keys cs) ->
  Forall (fun hl => Forall adds_only (snd hl)) cs ->
  let d := lives cn ce mn me ls db_new in
  let ps := beside (l_iter_edges (k := k) (BE := BE) ce rcuts o) (l_callers cn ce mn me wcuts 0 cs) in
  has_read xs (fst (interleave schedule ps d)) ->
  (forall t e, In (Ok (t, e)) xs -> exists d1, during schedule ps d d1 /\ lists_edge SE ce o d1 t e) /\
  StronglySorted (edge_lt o) (map fst (ok_items xs)) /\
  (forall x, In (Err x) xs -> exists y, met schedule y /\ x = SledError y) /\
  (forall t, (forall d1, during schedule ps d d1 -> exists e, lists_edge SE ce o d1 t e) ->
     In t (map fst (ok_items xs)) \/ exists x, In (Err x) xs).
Proof. exact @edges_beside_adding. Qed.
Print Assumptions C45_edges_adding.

(** The same for the vertices, next to any calls. *)
Theorem C45_nodes : forall k NP EP SE BE E (cn : codec BE NP) (ce : codec BE EP) mn me
    (ls : list (life (k := k) (NP := NP) (EP := EP) (SE := SE) (E := E)))
    (cs : list (handle k * list (op k NP EP E))) (wcuts : nat -> nat -> cutting) (rcuts : list bytes) (schedule : list (nat * option SE)) xs,
  codec_ok cn -> codec_ok ce -> NoDup (life_keys ls ++ session_keys cs) ->
  let d := lives cn ce mn me ls db_new in
  let ps := beside (l_iter_vertices (k := k) (BE := BE) cn rcuts) (l_callers cn ce mn me wcuts 0 cs) in
  has_read xs (fst (interleave schedule ps d)) ->
  (forall i p, In (Ok (i, p)) xs -> exists d1, during schedule ps d d1 /\ lists_node SE cn d1 i p) /\
  StronglySorted id_lt (map fst (ok_items xs)) /\
  (forall x, In (Err x) xs -> exists y, met schedule y /\ x = SledError y) /\
  (forall i, (forall d1, during schedule ps d d1 -> exists p, lists_node SE cn d1 i p) ->
     In i (map fst (ok_items xs)) \/ exists x, In (Err x) xs).
Proof. exact @nodes_beside. Qed.
Print Assumptions C45_nodes.

(** The identifiers alone (/repo/src/sled/iter.rs:75-87): one error stops the call; otherwise each was
    there at some moment, in order, none twice, and none that was there all the time is missing. *)
Theorem C45_vertices : forall k NP EP SE BE E (cn : codec BE NP) (ce : codec BE EP) mn me
    (ls : list (life (k := k) (NP := NP) (EP := EP) (SE := SE) (E := E)))
    (cs : list (handle k * list (op k NP EP E))) (wcuts : nat -> nat -> cutting) (rcuts : list bytes) (schedule : list (nat * option SE)) r,
  codec_ok cn -> codec_ok ce -> NoDup (life_keys ls ++ session_keys cs) ->
  let d := lives cn ce mn me ls db_new in
  let ps := beside (l_vertices (k := k) (BE := BE) rcuts) (l_callers cn ce mn me wcuts 0 cs) in
  has_read r (fst (interleave schedule ps d)) ->
  match r with
  | Err x => exists y, met schedule y /\ x = SledError y
  | Ok is => (forall i, In i is -> exists d1 p, during schedule ps d d1 /\ lists_node SE cn d1 i p) /\
      StronglySorted id_lt is /\
      (forall i, (forall d1, during schedule ps d d1 -> exists p, lists_node SE cn d1 i p) -> In i is)
  end.
Proof. exact @vertices_beside. Qed.
Print Assumptions C45_vertices.

(** The same for the edges with the properties of their ends: each of the three parts was there at
    some moment, and an edge that was there all the time has been listed, unless the reader has been
    told of an error. *)
Theorem C45_props : forall k NP EP SE BE E (cn : codec BE NP) (ce : codec BE EP) mn me
    (ls : list (life (k := k) (NP := NP) (EP := EP) (SE := SE) (E := E)))
    (cs : list (handle k * list (op k NP EP E))) (wcuts : nat -> nat -> cutting) (rcuts : list bytes) o (schedule : list (nat * option SE)) xs,
  codec_ok cn -> codec_ok ce -> NoDup (life_keys ls ++ session_keys cs) ->
  let d := lives cn ce mn me ls db_new in
  let ps := beside (l_iter_edges_with_props (k := k) cn ce rcuts o) (l_callers cn ce mn me wcuts 0 cs) in
  has_read xs (fst (interleave schedule ps d)) ->
  (forall s p ob, In (Ok (PropsTriple s p ob)) xs ->
     (exists d1, during schedule ps d d1 /\ lists_edge SE ce o d1 (Triple (fst s) (fst p) (fst ob)) (snd p)) /\
     (exists d1, during schedule ps d d1 /\ lists_node SE cn d1 (fst s) (snd s)) /\
     (exists d1, during schedule ps d d1 /\ lists_node SE cn d1 (fst ob) (snd ob))) /\
  StronglySorted (edge_lt o) (map edge_of (ok_items xs)) /\
  (forall x, In (Err x) xs -> x = MissingPropertyData \/ exists y, met schedule y /\ x = SledError y) /\
  (forall t, (forall d1, during schedule ps d d1 -> exists e, lists_edge SE ce o d1 t e) ->
     In t (map edge_of (ok_items xs)) \/ exists x, In (Err x) xs).
Proof. exact @props_beside. Qed.
Print Assumptions C45_props.

(** If the others only insert edges, insert vertices and merge vertices, MissingPropertyData means
    that some edge met an end that was not there, and an edge that was there all the time with both
    of its ends has been listed, unless a storage failure the reader met is reported. *)
Theorem C45_props_adding : forall k NP EP SE BE E (cn : codec BE NP) (ce : codec BE EP) mn me
    (ls : list (life (k := k) (NP := NP) (EP := EP) (SE := SE) (E := E)))
    (cs : list (handle k * list (op k NP EP E))) (wcuts : nat -> nat -> cutting) (rcuts : list bytes) o (schedule : list (nat * option SE)) xs,
  codec_ok cn -> codec_ok ce -> NoDup (life_keys ls ++ session_keys cs) ->
  Forall (fun hl => Forall adds_only (snd hl)) cs ->
  let d := lives cn ce mn me ls db_new in
  let ps := beside (l_iter_edges_with_props (k := k) cn ce rcuts o) (l_callers cn ce mn me wcuts 0 cs) in
  has_read xs (fst (interleave schedule ps d)) ->
  (forall s p ob, In (Ok (PropsTriple s p ob)) xs ->
     (exists d1, during schedule ps d d1 /\ lists_edge SE ce o d1 (Triple (fst s) (fst p) (fst ob)) (snd p)) /\
     (exists d1, during schedule ps d d1 /\ lists_node SE cn d1 (fst s) (snd s)) /\
     (exists d1, during schedule ps d d1 /\ lists_node SE cn d1 (fst ob) (snd ob))) /\
  StronglySorted (edge_lt o) (map edge_of (ok_items xs)) /\
  (forall x, In (Err x) xs -> (exists y, met schedule y /\ x = SledError y) \/
     (x = MissingPropertyData /\ exists (t : triple (Id k)) e i, (i = sub t \/ i = obj t) /\
        (exists d1, during schedule ps d d1 /\ lists_edge SE ce o d1 t e) /\
        (exists d1, during schedule ps d d1 /\ forall p, ~ lists_node SE cn d1 i p))) /\
  (forall t, (forall d1, during schedule ps d d1 -> exists e, lists_edge SE ce o d1 t e) ->
     (forall d1, during schedule ps d d1 -> exists p, lists_node SE cn d1 (sub t) p) ->
     (forall d1, during schedule ps d d1 -> exists p, lists_node SE cn d1 (obj t) p) ->
     In t (map edge_of (ok_items xs)) \/ exists y, met schedule y /\ In (Err (SledError y)) xs).
Proof. exact @props_beside_adding. Qed.
Print Assumptions C45_props_adding.

(** ** C46.  A query next to any calls: it fails only with a storage failure it met; what it
    returns is selected by the query and was there at some moment; a vertex that is selected and
    was there all the time is found.  Missing: the edges, which may be missed (below). *)
Theorem C46_run_partial : forall k NP EP SE BE E (cn : codec BE NP) (ce : codec BE EP) mn me
    (ls : list (life (k := k) (NP := NP) (EP := EP) (SE := SE) (E := E)))
    (cs : list (handle k * list (op k NP EP E))) (wcuts : nat -> nat -> cutting) (rcuts : bytes * bytes -> list bytes) (g : gen k) q (schedule : list (nat * option SE)) r,
  codec_ok cn -> codec_ok ce -> NoDup (life_keys ls ++ session_keys cs) ->
  let d := lives cn ce mn me ls db_new in
  let ps := beside (l_run cn ce rcuts g q) (l_callers cn ce mn me wcuts 0 cs) in
  has_read r (fst (interleave schedule ps d)) ->
  match r with
  | Err x => exists y, met schedule y /\ x = SledError y
  | Ok m => drawn_distinct (id_generator m) -> exists g', shows m g' /\
      (forall i p, g_node g' i = Some p -> selects_node q i /\ exists d1, during schedule ps d d1 /\ lists_node SE cn d1 i p) /\
      (forall t e, g_edge g' t = Some e -> selects q t /\
         exists d1, during schedule ps d d1 /\ lists_edge SE ce (order_of q) d1 t e) /\
      (forall i, selects_node q i -> (forall d1, during schedule ps d d1 -> exists p, lists_node SE cn d1 i p) ->
         g_node g' i <> None)
  end.
Proof. exact @run_beside_writers. Qed.
Print Assumptions C46_run_partial.

(** If the others only insert edges, insert vertices and merge vertices, an edge that is selected
    and was there all the time is found.  Missing: the other calls. *)
Theorem C46_run_adding_partial : forall k NP EP SE BE E (cn : codec BE NP) (ce : codec BE EP) mn me
    (ls : list (life (k := k) (NP := NP) (EP := EP) (SE := SE) (E := E)))
    (cs : list (handle k * list (op k NP EP E))) (wcuts : nat -> nat -> cutting) (rcuts : bytes * bytes -> list bytes) (g : gen k) q (schedule : list (nat * option SE)) r,
  codec_ok cn -> codec_ok ce -> NoDup (life_keys ls ++ session_keys cs) ->
  Forall (fun hl => Forall adds_only (snd hl)) cs ->
  let d := lives cn ce mn me ls db_new in
  let ps := beside (l_run cn ce rcuts g q) (l_callers cn ce mn me wcuts 0 cs) in
  has_read r (fst (interleave schedule ps d)) ->
  match r with
  | Err x => exists y, met schedule y /\ x = SledError y
  | Ok m => drawn_distinct (id_generator m) -> exists g', shows m g' /\
      (forall i p, g_node g' i = Some p -> selects_node q i /\ exists d1, during schedule ps d d1 /\ lists_node SE cn d1 i p) /\
      (forall t e, g_edge g' t = Some e -> selects q t /\
         exists d1, during schedule ps d d1 /\ lists_edge SE ce (order_of q) d1 t e) /\
      (forall i, selects_node q i -> (forall d1, during schedule ps d d1 -> exists p, lists_node SE cn d1 i p) ->
         g_node g' i <> None) /\
      (forall t, selects q t -> (forall d1, during schedule ps d d1 -> exists e, lists_edge SE ce (order_of q) d1 t e) ->
         g_edge g' t <> None)
  end.
Proof. exact @run_beside_writers_adding. Qed.
Print Assumptions C46_run_adding_partial.

(** ** Examples *)
Definition all_during {A} (schedule : list (nat * option N)) (ps : list (prog db N A)) (d : db) : list db :=
  map (fun n => snd (interleave (firstn n schedule) ps d)) (seq 0 (S (length schedule))).
Lemma during_listed {A} schedule (ps : list (prog db N A)) d d1 : during schedule ps d d1 -> In d1 (all_during schedule ps d).
Proof.
  intros (s1 & s2 & -> & ->). apply in_map_iff. exists (length s1). split.
  - now rewrite firstn_app, Nat.sub_diag, firstn_all, firstn_O, app_nil_r.
  - apply in_seq. rewrite app_length. split; [apply Nat.le_0_l|]. simpl. apply Nat.lt_succ_r, Nat.le_add_r.
Qed.
Lemma check_during {A B} (f : db -> B) (P : B -> Prop) schedule (ps : list (prog db N A)) d :
  Forall P (map f (all_during schedule ps d)) -> forall d1, during schedule ps d d1 -> P (f d1).
Proof. intros H d1 Hd. eapply Forall_forall in H; [exact H|]. now apply in_map, during_listed. Qed.
Ltac run_through := match goal with |- Forall _ ?l => let v := eval vm_compute in l in
  replace l with v by (vm_compute; reflexivity) end.

(** Two vertices and two edges; then one more caller next to the reader. *)
Definition start_life : list (life (k := KU64) (NP := N) (EP := N) (SE := N) (E := N)) :=
  [ Life hd1 [ OInsertNode (u 1) 1; OInsertNode (u 2) 2; OInsertEdge (tr 1 5 2) 12; OInsertEdge (tr 2 5 3) 23 ]%N [] 50%nat ].
Definition start_db : db := lives nc nc mg mg start_life db_new.
Definition steps (l : list nat) : list (nat * option N) := map (fun i => (i, None)) l.
Definition no_cuts (i j : nat) : cutting := ([], []).
Definition next_to {A} (reader : prog db N A) (l : list exop) :=
  beside reader (l_callers (BE := N) nc nc mg mg no_cuts 0 [(hd2, l)]).
Definition cut : bytes := encode_spo (k := KU64) (tr 2 0 0).
Definition edges_alone o : db -> list (result (sled_error N N) (triple (Id KU64) * N)) := now N (s_iter_edges nc o).

(** The reader gets an edge that is gone by the end, and one that was not there at first. *)
Definition busy : list exop := [ OInsertEdge (tr 1 1 1) 11; OInsertEdge (tr 9 5 9) 99; ORemoveEdge (tr 1 5 2) ]%N.
Definition busy_steps : list nat := ([0; 0; 0] ++ List.repeat 1 20 ++ List.repeat 0 20)%nat.
Example C45_case :
  NoDup (life_keys start_life ++ session_keys [(hd2, busy)]) /\
  let ps := next_to (l_iter_edges (k := KU64) (BE := N) nc [cut] SPO) busy in
  has_read [Ok (tr 1 5 2, 12%N); Ok (tr 2 5 3, 23%N); Ok (tr 9 5 9, 99%N)] (fst (interleave (steps busy_steps) ps start_db)) /\
  edges_alone SPO (snd (interleave (steps busy_steps) ps start_db)) =
    [Ok (tr 1 1 1, 11%N); Ok (tr 2 5 3, 23%N); Ok (tr 9 5 9, 99%N)].
Proof. split; [apply nodupb_ok; vm_compute; reflexivity|]. vm_compute. auto. Qed.

Definition nodes_steps : list nat := ([0; 0] ++ List.repeat 1 20 ++ List.repeat 0 20)%nat.
Example C45_nodes_case :
  let ps := next_to (l_iter_vertices (k := KU64) (BE := N) nc [to_be_bytes (k := KU64) (u 2)])
    [ ORemoveNode (u 1); OMergeNode (u 2) 3; OInsertNode (u 7) 7 ]%N in
  has_read [Ok (u 1, 1%N); Ok (u 2, mg 2 3)%N; Ok (u 7, 7%N)] (fst (interleave (steps nodes_steps) ps start_db)).
Proof. vm_compute. auto. Qed.

Example C45_vertices_case :
  let ps := next_to (l_vertices (k := KU64) (BE := N) [to_be_bytes (k := KU64) (u 2)])
    [ ORemoveNode (u 1); OMergeNode (u 2) 3; OInsertNode (u 7) 7 ]%N in
  has_read (Ok [u 1; u 2; u 7]) (fst (interleave (steps nodes_steps) ps start_db)) /\
  has_read (Err (SledError 13%N)) (fst (interleave (steps (List.repeat 1 20 ++ [0; 0])%nat ++ [(0%nat, Some 13%N)] ++ steps (List.repeat 0%nat 9)) ps start_db)).
Proof. vm_compute. auto. Qed.

(** With the properties of the ends: vertex 3 is not there when the reader comes to the edge (2, 5, 3);
    and if it is there in time, the edge is listed. *)
Example C45_props_case :
  let ps := next_to (l_iter_edges_with_props (k := KU64) (BE := N) nc nc [cut] SPO) [OInsertNode (u 3) 3; OInsertEdge (tr 3 5 1) 31]%N in
  has_read [Ok (PropsTriple (u 1, 1) (u 5, 12) (u 2, 2)); Err MissingPropertyData]%N
    (fst (interleave (steps (List.repeat 0 11 ++ List.repeat 1 20)%nat) ps start_db)) /\
  has_read [Ok (PropsTriple (u 1, 1) (u 5, 12) (u 2, 2)); Ok (PropsTriple (u 2, 2) (u 5, 23) (u 3, 3)); Ok (PropsTriple (u 3, 3) (u 5, 31) (u 1, 1))]%N
    (fst (interleave (steps ([0; 0; 0] ++ List.repeat 1 20 ++ List.repeat 0 20)%nat) ps start_db)).
Proof. vm_compute. auto. Qed.

(** A failure met by the reader costs one item. *)
Example C45_fault_case :
  let ps := next_to (l_iter_edges (k := KU64) (BE := N) nc [] POS) [OInsertNode (u 7) 7%N] in
  has_read [Err (SledError 13%N); Ok (tr 2 5 3, 23%N)]
    (fst (interleave (steps [0; 1]%nat ++ [(0%nat, Some 13%N)] ++ steps (List.repeat 0%nat 9)) ps start_db)).
Proof. vm_compute. auto. Qed.

(** The query finds the edge that is there all the time, and the new one in the second leaf. *)
Definition edges_found (p : option (prog db N (result (sled_error N N) (mem KU64 N N) + list (outcome (SE := N) (BE := N) (E := N)) * handle KU64)))
    : list (result unit (triple (Id KU64) * N)) :=
  match p with Some (Ret (inl (Ok m))) => iter_edges SPO m | _ => [Err tt] end.
Example C46_case :
  let ps := next_to (l_run (BE := N) nc nc (fun _ => [cut]) (counter 0) (QS [u 1; u 9]))
    [OInsertEdge (tr 1 1 1) 11; OInsertEdge (tr 9 5 9) 99]%N in
  edges_found (nth_error (fst (interleave (steps busy_steps) ps start_db)) 0) = [Ok (tr 1 5 2, 12%N); Ok (tr 9 5 9, 99%N)].
Proof. vm_compute. auto. Qed.

(** ** C46 is false: next to a call that takes records away, the readers miss edges that were there all the time.
    merge_edge writes the merged properties under a new identifier and deletes the old record
    (/repo/src/sled/merge.rs:85-150).  A reader that has read the index entry before and looks for the
    record afterwards does not find it, although the edge is there at every moment. *)
Theorem C46_iter_refuted : exists (o : exop) (schedule : list (nat * option N)) t,
  let ps := next_to (l_iter_edges (k := KU64) (BE := N) nc [] SPO) [o] in
  NoDup (life_keys start_life ++ session_keys [(hd2, [o])]) /\
  (forall x, ~ met schedule x) /\
  (forall d1, during schedule ps start_db d1 -> exists e, lists_edge N nc SPO d1 t e) /\
  exists xs, has_read xs (fst (interleave schedule ps start_db)) /\
    ~ In t (map fst (ok_items xs)) /\ In (Err MissingPropertyData) xs.
Proof.
  exists (OMergeEdge (tr 1 5 2) 11%N), (steps ([0] ++ List.repeat 1 9 ++ List.repeat 0 9)%nat), (tr 1 5 2). cbv zeta.
  split; [apply nodupb_ok; vm_compute; reflexivity|]. split.
  { intros x H. apply in_map_iff in H. destruct H as (i & H & _). discriminate. }
  split.
  - apply (check_during (edges_alone SPO) (fun l => exists e, In (Ok (tr 1 5 2, e)) l)). run_through. repeat constructor; eexists; left; reflexivity.
  - eexists. split; [vm_compute; reflexivity|]. split; [|left; reflexivity].
    vm_compute. intros [H|[]]. discriminate.
Qed.
Print Assumptions C46_iter_refuted.

(** A query skips such an edge without saying so (/repo/src/sled/query.rs:60-77, 100-103). *)
Theorem C46_run_refuted : exists (o : exop) (schedule : list (nat * option N)) t q,
  let ps := next_to (l_run (BE := N) nc nc (fun _ => []) (counter 0) q) [o] in
  NoDup (life_keys start_life ++ session_keys [(hd2, [o])]) /\
  (forall x, ~ met schedule x) /\ selects q t /\
  (forall d1, during schedule ps start_db d1 -> exists e, lists_edge N nc SPO d1 t e) /\
  edges_found (nth_error (fst (interleave schedule ps start_db)) 0) = [].
Proof.
  exists (OMergeEdge (tr 1 5 2) 11%N), (steps ([0] ++ List.repeat 1 9 ++ List.repeat 0 9)%nat), (tr 1 5 2), (QS [u 1]). cbv zeta.
  split; [apply nodupb_ok; vm_compute; reflexivity|]. split.
  { intros x H. apply in_map_iff in H. destruct H as (i & H & _). discriminate. }
  split; [simpl; auto|]. split.
  - apply (check_during (edges_alone SPO) (fun l => exists e, In (Ok (tr 1 5 2, e)) l)). run_through. repeat constructor; eexists; left; reflexivity.
  - vm_compute. reflexivity.
Qed.
Print Assumptions C46_run_refuted.

(** ** C48 is false: an iteration is no picture of any moment, not even next to a caller that only adds: it lists
    the edge inserted last and not the one inserted before it. *)
Theorem C48_snapshot_refuted : exists (l : list exop) (schedule : list (nat * option N)),
  let ps := next_to (l_iter_edges (k := KU64) (BE := N) nc [cut] SPO) l in
  NoDup (life_keys start_life ++ session_keys [(hd2, l)]) /\ Forall adds_only l /\
  exists xs, has_read xs (fst (interleave schedule ps start_db)) /\
    (forall x, ~ In (Err x) xs) /\ forall d1, during schedule ps start_db d1 -> edges_alone SPO d1 <> xs.
Proof.
  exists [OInsertEdge (tr 1 1 1) 11; OInsertEdge (tr 9 5 9) 99]%N, (steps busy_steps). cbv zeta.
  split; [apply nodupb_ok; vm_compute; reflexivity|]. split; [repeat constructor|].
  exists [Ok (tr 1 5 2, 12%N); Ok (tr 2 5 3, 23%N); Ok (tr 9 5 9, 99%N)].
  split; [vm_compute; reflexivity|]. split.
  - intros x [H|[H|[H|[]]]]; discriminate.
  - apply (check_during (edges_alone SPO) (fun l => l <> _)). run_through. repeat constructor; discriminate.
Qed.
Print Assumptions C48_snapshot_refuted.

(** Nor is one item of the iteration with properties: the subject is read before, the object after
    the other caller has changed both, the object first. *)
Theorem C48_item_refuted : exists (l : list exop) (schedule : list (nat * option N)) x y e,
  let ps := next_to (l_iter_edges_with_props (k := KU64) (BE := N) nc nc [cut] SPO) l in
  NoDup (life_keys start_life ++ session_keys [(hd2, l)]) /\ Forall adds_only l /\
  (exists xs, has_read xs (fst (interleave schedule ps start_db)) /\
    In (Ok (PropsTriple (u 1, x) (u 5, e) (u 2, y))) xs) /\
  forall d1, during schedule ps start_db d1 -> ~ (lists_node N nc d1 (u 1) x /\ lists_node N nc d1 (u 2) y).
Proof.
  exists [OInsertNode (u 1) 10; OInsertNode (u 2) 20]%N, (steps ([0; 0; 0; 0] ++ List.repeat 1 20 ++ List.repeat 0 20)%nat), 1%N, 20%N, 12%N.
  cbv zeta. split; [apply nodupb_ok; vm_compute; reflexivity|]. split; [repeat constructor|]. split.
  - eexists. split; [vm_compute; reflexivity|]. left. reflexivity.
  - apply (check_during (now N (s_iter_vertices (k := KU64) (BE := N) nc)) (fun l => ~ (In (Ok (u 1, 1%N)) l /\ In (Ok (u 2, 20%N)) l))). run_through.
    repeat constructor; intros [[H|[H|[]]] [H'|[H'|[]]]]; discriminate.
Qed.
Print Assumptions C48_item_refuted.
