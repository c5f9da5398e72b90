(** C55, C56: the Debug output of the two stores. *)
From Coq.Init Require Import Byte.
From Coq Require Import NArith List.
From Verif Require Import Bytes OMap Core IdType Store Mem Spec History MemTop Prog Sled SledHistory
  SledTornSpec Debug DebugSpec DebugFacts DebugSled DebugHash Ex ExSled.
Import ListNotations.

(** ** C55 *)

(** The output lists the graph: the nodes with their properties, the properties of the edges by
    hash, and the edges in the three orders; nothing for records without an edge. *)
Theorem C55_prints : forall k NP EP E mn me (hash : bytes -> N) (m : mem k NP EP) g,
  reachable E mn me m -> drawn_distinct (id_generator m) -> shows m g -> prints hash g (mem_debug hash m).
Proof. exact @debug_prints. Qed.
Print Assumptions C55_prints.

(** If no two edges have the same hash, equal outputs are equal graphs. *)
Theorem C55_same_partial : forall k NP EP E mn me (hash : bytes -> N) (m m' : mem k NP EP) g g',
  reachable E mn me m -> drawn_distinct (id_generator m) -> shows m g ->
  reachable E mn me m' -> drawn_distinct (id_generator m') -> shows m' g' ->
  no_collision hash g -> no_collision hash g' ->
  (g_equiv g g' <-> mem_debug hash m = mem_debug hash m').
Proof. exact @debug_same. Qed.
Print Assumptions C55_same_partial.

(** Otherwise not, and no hash of 64 bits helps: stores with the same contents print differently. *)
Theorem C55_refuted : forall hash : bytes -> N, (forall b, (hash b < 2 ^ 64)%N) ->
  exists (m m' : mem KU64 N N) g, reachable N mg mg m /\ drawn_distinct (id_generator m) /\ shows m g /\
    reachable N mg mg m' /\ drawn_distinct (id_generator m') /\ shows m' g /\ mem_debug hash m <> mem_debug hash m'.
Proof. exact debug_collides. Qed.
Print Assumptions C55_refuted.

(** A hash that tells few edges apart: the sum of the bytes. *)
Definition byte_sum (b : bytes) : N := fold_left (fun a x => a + Byte.to_N x)%N b 0%N.

Example C55_case :
  let m := mem_history (E := N) mg mg [OInsertNode (u 1) 10; OInsertEdge (tr 1 2 3) 4; OInsertEdge (tr 1 5 2) 7;
             OInsertNode (u 0) 5; OMergeEdge (tr 1 2 3) 5]%N (mem_new (counter 100)) in
  mem_debug byte_sum m =
    [Title TStore; Title TNodes; NodeLine (u 0) 5; NodeLine (u 1) 10; Title TProps; PropLine (Some 6) 45; PropLine (Some 8) 7;
     Title (TEdges SPO); EdgeLine (tr 1 2 3) (Some 6); EdgeLine (tr 1 5 2) (Some 8);
     Title (TEdges POS); EdgeLine (tr 1 2 3) (Some 6); EdgeLine (tr 1 5 2) (Some 8);
     Title (TEdges OSP); EdgeLine (tr 1 5 2) (Some 8); EdgeLine (tr 1 2 3) (Some 6)]%N.
Proof. vm_compute. reflexivity. Qed.

(** The properties of one of two edges with the same hash are lost. *)
Example C55_case_collision :
  let m := mem_history (E := N) mg mg [OInsertEdge (tr 1 2 3) 4; OInsertEdge (tr 3 2 1) 7]%N (mem_new (counter 100)) in
  mem_debug byte_sum m =
    [Title TStore; Title TNodes; Title TProps; PropLine (Some 6) 7;
     Title (TEdges SPO); EdgeLine (tr 1 2 3) (Some 6); EdgeLine (tr 3 2 1) (Some 6);
     Title (TEdges POS); EdgeLine (tr 3 2 1) (Some 6); EdgeLine (tr 1 2 3) (Some 6);
     Title (TEdges OSP); EdgeLine (tr 3 2 1) (Some 6); EdgeLine (tr 1 2 3) (Some 6)]%N.
Proof. vm_compute. reflexivity. Qed.

(** ** C56 *)

(** Printing changes nothing, on any contents and whatever fails. *)
Theorem C56_readonly : forall k SE BE (hash : bytes -> N) (faults : list (option SE)) d,
  db_of (s_debug (k := k) (BE := BE) hash) faults d = d.
Proof. exact @debug_readonly. Qed.
Print Assumptions C56_readonly.

(** After any lives, cut-short extends included, the output is the same page, except that the
    formatting fails if the storage did. *)
Theorem C56_works : forall k NP EP SE BE E (cn : codec BE NP) (ce : codec BE EP) (hash : bytes -> N) mn me
    (ls : list (life (k := k) (NP := NP) (EP := EP) (SE := SE) (E := E))),
  codec_ok cn -> codec_ok ce -> NoDup (life_keys ls) ->
  exists l, forall faults, let r := ret_of (s_debug (k := k) (SE := SE) (BE := BE) hash) faults (lives cn ce mn me ls db_new) in
    r = Ok l \/ (r = Err tt /\ exists x, In (Some x) faults).
Proof. exact @debug_lives. Qed.
Print Assumptions C56_works.

(** The page: as for MemTripleStore, but for the nodes no properties are shown, those of the edges
    as the bytes stored, and one line more if there are records that belong to no edge. *)
Theorem C56_prints_partial : forall k NP EP SE BE E (cn : codec BE NP) (ce : codec BE EP) (hash : bytes -> N) mn me d
    (g : graph k NP EP),
  codec_ok cn -> codec_ok ce -> left_by (k := k) SE E cn ce mn me d -> sled_shows SE cn ce d g ->
  exists leak l, ret_of (s_debug (SE := SE) (BE := BE) hash) [] d = Ok l /\ s_prints ce hash g leak l /\ (length leak <= 1)%nat /\
    (leak = [] <-> length (t_edge d) = length (now SE (s_iter_edges (k := k) ce SPO) d)).
Proof. exact @sled_prints. Qed.
Print Assumptions C56_prints_partial.

(** After extends that were cut short: the same page of the graph that the SPO order shows, except
    that the other orders may lack an edge on which the orders differ, or show it without its hash;
    there is at most one such edge for each call of extend that was cut short. *)
Theorem C56_torn_partial : forall k NP EP SE BE E (cn : codec BE NP) (ce : codec BE EP) (hash : bytes -> N) mn me
    (ls : list (life (k := k) (NP := NP) (EP := EP) (SE := SE) (E := E))),
  codec_ok cn -> codec_ok ce -> NoDup (life_keys ls) ->
  let d := lives cn ce mn me ls db_new in
  exists K L g n leak l, gone (SE := SE) (BE := BE) mn me (map lf_ops ls) [] g_empty K g n /\
    shows_but SE cn ce K d g /\ incl K L /\ length L = n /\ (n <= length (extends_of (flat_map lf_ops ls)))%nat /\
    incl L (extended_edges (flat_map lf_ops ls)) /\
    ret_of (s_debug (SE := SE) (BE := BE) hash) [] d = Ok l /\ s_prints_but ce hash K g leak l /\ (length leak <= 1)%nat /\
    (leak = [] <-> length (t_edge d) = length (now SE (s_iter_edges (k := k) ce SPO) d)).
Proof. exact @debug_torn. Qed.
Print Assumptions C56_torn_partial.

(** Equal outputs of such databases, with whatever lines for records without an edge, are equal
    nodes, and equal edges and properties in the SPO order, if no two edges have the same hash. *)
Theorem C56_torn_same_partial : forall k NP EP SE BE E (cn : codec BE NP) (ce : codec BE EP) (hash : bytes -> N) mn me
    (ls ls' : list (life (k := k) (NP := NP) (EP := EP) (SE := SE) (E := E))) K (g : graph k NP EP) K' g',
  codec_ok cn -> codec_ok ce -> NoDup (life_keys ls) -> NoDup (life_keys ls') ->
  let d := lives cn ce mn me ls db_new in
  let d' := lives cn ce mn me ls' db_new in
  shows_but SE cn ce K d g -> shows_but SE cn ce K' d' g' ->
  no_collision hash g -> no_collision hash g' ->
  ret_of (s_debug (k := k) (SE := SE) (BE := BE) hash) [] d = ret_of (s_debug (k := k) (SE := SE) (BE := BE) hash) [] d' ->
  (forall i, g_node g i = None <-> g_node g' i = None) /\ forall t, g_edge g t = g_edge g' t.
Proof. exact @torn_same. Qed.
Print Assumptions C56_torn_same_partial.

(** Without such records and collisions, equal outputs are equal nodes, equal edges and equal
    properties of the edges. *)
Theorem C56_same_partial : forall k NP EP SE BE E (cn : codec BE NP) (ce : codec BE EP) (hash : bytes -> N) mn me d d'
    (g g' : graph k NP EP),
  codec_ok cn -> codec_ok ce ->
  left_by (k := k) SE E cn ce mn me d -> sled_shows SE cn ce d g -> left_by (k := k) SE E cn ce mn me d' -> sled_shows SE cn ce d' g' ->
  length (t_edge d) = length (now SE (s_iter_edges (k := k) ce SPO) d) ->
  length (t_edge d') = length (now SE (s_iter_edges (k := k) ce SPO) d') ->
  no_collision hash g -> no_collision hash g' ->
  (ret_of (s_debug (k := k) (SE := SE) (BE := BE) hash) [] d = ret_of (s_debug (k := k) (SE := SE) (BE := BE) hash) [] d' <->
   (forall i, g_node g i = None <-> g_node g' i = None) /\ forall t, g_edge g t = g_edge g' t).
Proof. exact @sled_same. Qed.
Print Assumptions C56_same_partial.

(** Two databases with different properties of a node print the same; two with the same contents
    print differently, and two records without an edge like one. *)
Theorem C56_refuted : forall hash : bytes -> N,
  let print := fun l => ret_of (s_debug (k := KU64) (SE := N) (BE := N) hash) [] (db_of (sh l hd1) [] db_new) in
  let nodes := fun l => now N (s_iter_vertices (k := KU64) nc) (db_of (sh l hd1) [] db_new) in
  let edges := fun l => now N (s_iter_edges (k := KU64) (BE := N) nc SPO) (db_of (sh l hd1) [] db_new) in
  (exists l l', nodes l <> nodes l' /\ print l = print l') /\
  (exists l l', nodes l = nodes l' /\ edges l = edges l' /\ print l <> print l') /\
  (exists l l', print l = print l' /\
     length (t_edge (db_of (sh l hd1) [] db_new)) <> length (t_edge (db_of (sh l' hd1) [] db_new))).
Proof.
  intros hash. split; [|split].
  - exists [OInsertNode (u 1) 10%N], [OInsertNode (u 1) 20%N]. vm_compute. split; [discriminate|reflexivity].
  - exists [OInsertEdge (tr 1 2 3) 7%N], [OInsertEdge (tr 1 2 3) 6%N; OInsertEdge (tr 1 2 3) 7%N].
    vm_compute. split; [reflexivity|]. split; [reflexivity|]. discriminate.
  - exists [OInsertEdge (tr 1 2 3) 6%N; OInsertEdge (tr 1 2 3) 7%N],
      [OInsertEdge (tr 1 2 3) 6%N; OInsertEdge (tr 1 2 3) 6%N; OInsertEdge (tr 1 2 3) 7%N].
    vm_compute. split; [reflexivity|discriminate].
Qed.
Print Assumptions C56_refuted.

Example C56_case :
  let d := db_of (sh [OInsertNode (u 1) 10; OInsertEdge (tr 1 2 3) 4; OInsertEdge (tr 1 2 3) 5; OInsertEdge (tr 1 2 3) 2;
                      OInsertEdge (tr 1 5 2) 1]%N hd1) [] db_new in
  length (t_edge d) = 4%nat /\
  ret_of (s_debug (k := KU64) (SE := N) (BE := N) byte_sum) [] d =
    Ok [Title TStore; Title TNodes; NodeLine (u 1) tt; Title TProps;
        PropLine None [x01; x00]; PropLine (Some 6%N) [x00]; PropLine (Some 8%N) [];
        Title (TEdges SPO); EdgeLine (tr 1 2 3) (Some 6%N); EdgeLine (tr 1 5 2) (Some 8%N);
        Title (TEdges POS); EdgeLine (tr 1 2 3) (Some 6%N); EdgeLine (tr 1 5 2) (Some 8%N);
        Title (TEdges OSP); EdgeLine (tr 1 5 2) (Some 8%N); EdgeLine (tr 1 2 3) (Some 6%N)] /\
  ret_of (s_debug (k := KU64) (SE := N) (BE := N) byte_sum) [None; None; Some 9%N] d = Err tt.
Proof. vm_compute. auto. Qed.

(** An extend that stops after two of its storage calls leaves an edge in one index; the two that
    lack it are printed without. *)
Example C56_case_torn :
  let d := lives (SE := N) nc nc mg mg [Life hd1 [OExtend (Source [] [Ok (tr 1 2 3, 4)] : source KU64 N N N)]%N [] 3%nat] db_new in
  ret_of (s_debug (k := KU64) (SE := N) (BE := N) byte_sum) [] d =
    Ok [Title TStore; Title TNodes; Title TProps; PropLine (Some 6%N) [x00; x00];
        Title (TEdges SPO); EdgeLine (tr 1 2 3) (Some 6%N);
        Title (TEdges POS); EdgeLine (tr 1 2 3) (Some 6%N); Title (TEdges OSP)].
Proof. vm_compute. reflexivity. Qed.

(** If the edge was there before, the two orders show it without its hash, and its old record has
    no hash either. *)
Example C56_case_old :
  let d := lives (SE := N) nc nc mg mg [Life hd1 [OInsertEdge (tr 1 2 3) 2;
             OExtend (Source [] [Ok (tr 1 2 3, 4)] : source KU64 N N N)]%N [] 3%nat] db_new in
  ret_of (s_debug (k := KU64) (SE := N) (BE := N) byte_sum) [] d =
    Ok [Title TStore; Title TNodes; Title TProps; PropLine None [x00]; PropLine (Some 6%N) [x00; x00];
        Title (TEdges SPO); EdgeLine (tr 1 2 3) (Some 6%N);
        Title (TEdges POS); EdgeLine (tr 1 2 3) None; Title (TEdges OSP); EdgeLine (tr 1 2 3) None].
Proof. vm_compute. reflexivity. Qed.

(** An extend that was cut short prints the same whether it wrote an edge anew or wrote it again
    after the edge was removed. *)
Example C56_case_torn_same :
  let src := (Source [Ok (u 1, 3)] [Ok (tr 1 2 3, 4)] : source KU64 N N N)%N in
  let d := lives (SE := N) nc nc mg mg [Life hd1 [OExtend src] [] 4%nat] db_new in
  let d' := lives (SE := N) nc nc mg mg [Life hd1 [OInsertNode (u 1) 5; OInsertEdge (tr 1 2 3) 4; ORemoveEdge (tr 1 2 3)]%N [] 50%nat;
                                         Life hd2 [OExtend src] [] 4%nat] db_new in
  let print := ret_of (s_debug (k := KU64) (SE := N) (BE := N) byte_sum) [] in
  print d = print d' /\
  now N (s_iter_edges (k := KU64) (BE := N) nc SPO) d = [Ok (tr 1 2 3, 4%N)] /\
  now N (s_iter_edges (k := KU64) (BE := N) nc OSP) d = [] /\
  now N (s_iter_edges (k := KU64) (BE := N) nc SPO) d' = [Ok (tr 1 2 3, 4%N)].
Proof. vm_compute. repeat split. Qed.
