(** C53, C54: a SledTripleStore after calls of extend that were cut short. *)
From Coq Require Import NArith List.
From Verif Require Import Bytes OMap Core IdType Store Mem Spec History Prog Sled SledHistory SledRun SledMain
  SledTornSpec SledTornTop Ex ExSled Prop_SledCrash.
Import ListNotations.

(** ** C53.  Any number of processes, one after the other, any calls, storage failures, failing
    serialisation and crashes anywhere: the vertices and the SPO order show a graph, and the
    other orders show the same graph but for at most one edge for each call of extend that was
    cut short, an edge of that call's source. *)
Theorem C53_confined : forall k NP EP SE BE E (cn : codec BE NP) (ce : codec BE EP) mn me
    (ls : list (life (k := k) (NP := NP) (EP := EP) (SE := SE) (E := E))),
  codec_ok cn -> codec_ok ce -> NoDup (life_keys ls) ->
  exists K L g n, gone (SE := SE) (BE := BE) mn me (map lf_ops ls) [] g_empty K g n /\
    shows_but SE cn ce K (lives cn ce mn me ls db_new) g /\
    incl K L /\ length L = n /\ (n <= length (extends_of (flat_map lf_ops ls)))%nat /\
    incl L (extended_edges (flat_map lf_ops ls)).
Proof. exact @torn_lives. Qed.
Print Assumptions C53_confined.

(** Repeating the extend, after any number of attempts that failed or died, until it succeeds
    gives exactly what a single undisturbed call would have given. *)
Theorem C53_retry : forall k NP EP SE BE E (cn : codec BE NP) (ce : codec BE EP) mn me
    (ls tries : list (life (k := k) (NP := NP) (EP := EP) (SE := SE) (E := E)))
    (s : source k NP EP E) (h : handle k) faults,
  codec_ok cn -> codec_ok ce -> NoDup (life_keys (ls ++ tries) ++ history_keys h [OExtend s]) ->
  extends_done cn ce mn me ls db_new ->
  Forall (fun f => Forall (eq (OExtend s)) (lf_ops f)) tries ->
  let d := lives cn ce mn me ls db_new in
  let '(rs, _, d', _) :=
    exec (sled_history (SE := SE) cn ce mn me [OExtend s] h) faults (lives cn ce mn me tries d) in
  (forall r, In r rs -> ~ failed r) ->
  exists g, moments (SE := SE) (BE := BE) mn me (map lf_ops ls) g_empty g /\ sled_shows SE cn ce d g /\
    sled_shows SE cn ce d' (spec_apply mn me (OExtend s) g).
Proof. exact @torn_retry. Qed.
Print Assumptions C53_retry.

(** Whatever happened before, writing or removing the edges on which the orders differ makes
    all orders agree again, on the graph that the calls make of the one the SPO order showed. *)
Theorem C53_heals : forall k NP EP SE BE E (cn : codec BE NP) (ce : codec BE EP) mn me
    (ls : list (life (k := k) (NP := NP) (EP := EP) (SE := SE) (E := E))),
  codec_ok cn -> codec_ok ce -> NoDup (life_keys ls) ->
  exists K g, incl K (extended_edges (flat_map lf_ops ls)) /\
  shows_but SE cn ce K (lives cn ce mn me ls db_new) g /\
  forall (h : handle k) (l : list (op k NP EP E)) faults, NoDup (life_keys ls ++ history_keys h l) ->
  Forall no_remove_node l ->
  (forall t, In t K -> exists o o', In o l /\ In o' (elements o) /\ settles o' t) ->
  let '(rs, _, d', _) := exec (sled_history (SE := SE) cn ce mn me l h) faults (lives cn ce mn me ls db_new) in
  (forall r, In r rs -> ~ failed r) ->
  rs = map expected l /\ sled_shows SE cn ce d' (spec_history mn me l g).
Proof. exact @torn_heals. Qed.
Print Assumptions C53_heals.

(** An extend dies inside its second edge; the orders differ on that edge alone; a second
    attempt fails at its third storage call; the third attempt completes. *)
Definition torn_source : source KU64 N N N :=
  Source [Ok (u 1, 10%N); Ok (u 2, 20%N)] [Ok (tr 1 5 2, 52%N); Ok (tr 2 5 1, 51%N); Ok (tr 1 6 1, 61%N)].
Definition hd3 : handle KU64 := Handle (counter 1000) (ulids 2000).

Example C53_case :
  let o := OExtend torn_source in
  let ls := [Life (SE := N) hd1 [o] [] 8%nat] in
  let again := [Life (SE := N) hd2 [o] [None; None; Some 3%N] 50%nat] in
  let d := lives nc nc mg mg ls db_new in
  let d1 := lives nc nc mg mg again d in
  let d2 := db_of (sh [o] hd3) [] d1 in
  let es o d := now N (s_iter_edges (k := KU64) (BE := N) nc o) d in
  NoDup (life_keys (ls ++ again) ++ history_keys hd3 [o]) /\
  es SPO d = [Ok (tr 1 5 2, 52); Ok (tr 2 5 1, 51)]%N /\
  es POS d = [Ok (tr 1 5 2, 52)]%N /\ es OSP d = [Ok (tr 1 5 2, 52)]%N /\
  fst (ret_of (sh [o] hd2) [None; None; Some 3%N] d) = [Err (LeftE (SledError 3%N))] /\
  fst (ret_of (sh [o] hd3) [] d1) = [Ok tt] /\
  es SPO d2 = [Ok (tr 1 5 2, 52); Ok (tr 1 6 1, 61); Ok (tr 2 5 1, 51)]%N /\
  es POS d2 = [Ok (tr 2 5 1, 51); Ok (tr 1 5 2, 52); Ok (tr 1 6 1, 61)]%N /\
  es OSP d2 = [Ok (tr 1 6 1, 61); Ok (tr 2 5 1, 51); Ok (tr 1 5 2, 52)]%N.
Proof.
  split; [apply nodupb_ok; vm_compute; reflexivity|]. vm_compute. repeat split.
Qed.

(** Removing the torn edge heals as well. *)
Example C53_case_heals :
  let d := lives nc nc mg mg [Life (SE := N) hd1 [OExtend torn_source] [] 8%nat] db_new in
  let d2 := db_of (sh [ORemoveEdge (tr 2 5 1)] hd2) [] d in
  map (fun o => now N (s_iter_edges (k := KU64) (BE := N) nc o) d2) [SPO; POS; OSP] =
    repeat [Ok (tr 1 5 2, 52%N)] 3.
Proof. vm_compute. reflexivity. Qed.

(** ** C54.  remove_node after anything at all: the node is gone, no edge starts at it, and the
    edges that still end at it are edges that an extend left torn.  Missing: those are gone too. *)
Theorem C54_remove_partial : forall k NP EP SE BE E (cn : codec BE NP) (ce : codec BE EP) mn me
    (ls : list (life (k := k) (NP := NP) (EP := EP) (SE := SE) (E := E))),
  codec_ok cn -> codec_ok ce -> NoDup (life_keys ls) ->
  exists K g, incl K (extended_edges (flat_map lf_ops ls)) /\
  shows_but SE cn ce K (lives cn ce mn me ls db_new) g /\
  forall (h : handle k) (v : Id k) faults,
  NoDup (life_keys ls ++ history_keys h [ORemoveNode (NP := NP) (EP := EP) (E := E) v]) ->
  let '(rs, _, d', _) :=
    exec (sled_history (SE := SE) cn ce mn me [ORemoveNode (E := E) v] h) faults (lives cn ce mn me ls db_new) in
  (forall r, In r rs -> ~ failed r) ->
  exists K' g', incl K' K /\ (forall t, In t K' -> sub t <> v) /\ shows_but SE cn ce K' d' g' /\
    g_node g' v = None /\
    forall t, g_edge g' t <> None ->
      g_edge g' t = g_edge g t /\ sub t <> v /\ (obj t = v -> In t K).
Proof. exact @torn_remove. Qed.
Print Assumptions C54_remove_partial.

(** False as stated: the edge 2-5->1 is in the SPO order only, remove_node of 1 looks for edges
    that end there in the OSP order, so the edge stays and now ends nowhere. *)
Theorem C54_refuted : exists (ls : list (life (k := KU64) (NP := N) (EP := N) (SE := N) (E := N))) h,
  let d := lives nc nc mg mg ls db_new in
  let d' := db_of (sh [ORemoveNode (u 1)] h) [] d in
  fst (ret_of (sh [ORemoveNode (u 1)] h) [] d) = [Ok tt] /\
  now N (s_iter_vertices (k := KU64) (BE := N) nc) d' = [Ok (u 2, 20%N)] /\
  now N (s_iter_edges (k := KU64) (BE := N) nc SPO) d' = [Ok (tr 2 5 1, 51%N)] /\
  now N (s_iter_edges (k := KU64) (BE := N) nc OSP) d' = [] /\
  now N (s_iter_edges_with_props (k := KU64) (BE := N) nc nc SPO) d' = [Err MissingPropertyData].
Proof.
  exists [Life hd1 [OExtend torn_source] [] 8%nat], hd2. vm_compute. repeat split.
Qed.
Print Assumptions C54_refuted.

Example C54_case :
  let d := lives nc nc mg mg [Life (SE := N) hd1 [OExtend torn_source] [] 8%nat] db_new in
  let d' := db_of (sh [ORemoveNode (u 2)] hd2) [] d in
  map (fun o => now N (s_iter_edges (k := KU64) (BE := N) nc o) d') [SPO; POS; OSP] = [[]; []; []].
Proof. vm_compute. reflexivity. Qed.
