(** C67, C68: what is missed by readers next to callers that take property records away, for the sled
    store and for the RDF store over sled. *)
From Coq Require Import Arith NArith List Sorted.
From Verif Require Import Bytes OMap Core IdType IdTypeFacts Store Mem MemIndex Spec GenSpec History MemTop Prog Sled SledHistory SledSched SledTables SledAny
  SledLeaf SledBeside SledReadTop SledIndex Rdf RdfSpec RdfTop RdfQuery RdfSled RdfSledSpec RdfSledTop RdfSledMain RdfSledLeaf RdfSledReadTop RdfSledQueryTop
  Ex ExSled Prop_SledReader Prop_RdfSled Prop_RdfSledReader Prop_RdfSledQuery.
Import ListNotations.

(** ** C67.  The readers of C45 and C46, next to any number of other callers that make any calls.
    The iteration reports MissingPropertyData only if some edge is rewritten by one of the calls: named by a
    merge_edge or remove_edge, among what an extend or a merge gives, or at a vertex given to
    remove_node.  An edge that was there all the time has been listed, or a storage failure is reported, or
    it is such an edge and MissingPropertyData is reported. *)
Theorem C67_edges : forall k NP EP SE BE E (cn : codec BE NP) (ce : codec BE EP) mn me
    (ls : list (life (k := k) (NP := NP) (EP := EP) (SE := SE) (E := E)))
    (cs : list (handle k * list (op k NP EP E))) (wcuts : nat -> nat -> cutting) (rcuts : list bytes) o (schedule : list (nat * option SE)) xs,
  codec_ok cn -> codec_ok ce -> NoDup (life_keys ls ++ session_keys cs) ->
  let d := lives cn ce mn me ls db_new in
  let ps := beside (l_iter_edges (k := k) (BE := BE) ce rcuts o) (l_callers cn ce mn me wcuts 0 cs) in
  has_read xs (fst (interleave schedule ps d)) ->
  (In (Err MissingPropertyData) xs -> exists t, rewritten cs t) /\
  (forall t, (forall d1, during schedule ps d d1 -> exists e, lists_edge SE ce o d1 t e) ->
     In t (map fst (ok_items xs)) \/ (exists y, met schedule y /\ In (Err (SledError y)) xs) \/
     (rewritten cs t /\ In (Err MissingPropertyData) xs)).
Proof. exact @edges_beside_spared. Qed.
Print Assumptions C67_edges.

(** With the properties of the ends: MissingPropertyData may also mean an edge an end of which was not there. *)
Theorem C67_props : forall k NP EP SE BE E (cn : codec BE NP) (ce : codec BE EP) mn me
    (ls : list (life (k := k) (NP := NP) (EP := EP) (SE := SE) (E := E)))
    (cs : list (handle k * list (op k NP EP E))) (wcuts : nat -> nat -> cutting) (rcuts : list bytes) o (schedule : list (nat * option SE)) xs,
  codec_ok cn -> codec_ok ce -> NoDup (life_keys ls ++ session_keys cs) ->
  let d := lives cn ce mn me ls db_new in
  let ps := beside (l_iter_edges_with_props (k := k) cn ce rcuts o) (l_callers cn ce mn me wcuts 0 cs) in
  has_read xs (fst (interleave schedule ps d)) ->
  (In (Err MissingPropertyData) xs -> exists t : triple (Id k), rewritten cs t \/ exists e i, (i = sub t \/ i = obj t) /\
     (exists d1, during schedule ps d d1 /\ lists_edge SE ce o d1 t e) /\
     (exists d1, during schedule ps d d1 /\ forall p, ~ lists_node SE cn d1 i p)) /\
  (forall t, (forall d1, during schedule ps d d1 -> exists e, lists_edge SE ce o d1 t e) ->
     (forall d1, during schedule ps d d1 -> exists p, lists_node SE cn d1 (sub t) p) ->
     (forall d1, during schedule ps d d1 -> exists p, lists_node SE cn d1 (obj t) p) ->
     In t (map edge_of (ok_items xs)) \/ (exists y, met schedule y /\ In (Err (SledError y)) xs) \/
     (rewritten cs t /\ In (Err MissingPropertyData) xs)).
Proof. exact @props_beside_spared. Qed.
Print Assumptions C67_props.

(** A query misses none but such edges. *)
Theorem C67_run : forall k NP EP SE BE E (cn : codec BE NP) (ce : codec BE EP) mn me
    (ls : list (life (k := k) (NP := NP) (EP := EP) (SE := SE) (E := E)))
    (cs : list (handle k * list (op k NP EP E))) (wcuts : nat -> nat -> cutting) (rcuts : bytes * bytes -> list bytes) (g : gen k) q (schedule : list (nat * option SE)) m,
  codec_ok cn -> codec_ok ce -> NoDup (life_keys ls ++ session_keys cs) ->
  let d := lives cn ce mn me ls db_new in
  let ps := beside (l_run cn ce rcuts g q) (l_callers cn ce mn me wcuts 0 cs) in
  has_read (Ok m) (fst (interleave schedule ps d)) ->
  drawn_distinct (id_generator m) -> exists g', shows m g' /\
    (forall i p, g_node g' i = Some p -> selects_node q i /\ exists d1, during schedule ps d d1 /\ lists_node SE cn d1 i p) /\
    (forall t e, g_edge g' t = Some e -> selects q t /\
       exists d1, during schedule ps d d1 /\ lists_edge SE ce (order_of q) d1 t e) /\
    (forall i, selects_node q i -> (forall d1, during schedule ps d d1 -> exists p, lists_node SE cn d1 i p) ->
       g_node g' i <> None) /\
    (forall t, selects q t -> (forall d1, during schedule ps d d1 -> exists e, lists_edge SE ce (order_of q) d1 t e) ->
       g_edge g' t <> None \/ rewritten cs t).
Proof. exact @run_beside_spared. Qed.
Print Assumptions C67_run.

(** The other caller merges one of the two edges: that one is missed, and the other is not. *)
Definition one_merge : list exop := [OMergeEdge (tr 1 5 2) 11%N].
Example C67_case :
  NoDup (life_keys start_life ++ session_keys [(hd2, one_merge)]) /\
  (forall t, rewritten [(hd2, one_merge)] t <-> t = tr 1 5 2) /\
  let late := steps ([0] ++ List.repeat 1 9 ++ List.repeat 0 9)%nat in
  has_read [Err MissingPropertyData; Ok (tr 2 5 3, 23%N)]
    (fst (interleave late (next_to (l_iter_edges (k := KU64) (BE := N) nc [] SPO) one_merge) start_db)) /\
  has_read [Err MissingPropertyData; Err MissingPropertyData]
    (fst (interleave late (next_to (l_iter_edges_with_props (k := KU64) (BE := N) nc nc [] SPO) one_merge) start_db)) /\
  edges_found (nth_error (fst (interleave late (next_to (l_run (BE := N) nc nc (fun _ => []) (counter 0) (QP [u 5])) one_merge) start_db)) 0)
    = [Ok (tr 2 5 3, 23%N)].
Proof.
  split; [apply nodupb_ok; vm_compute; reflexivity|]. split.
  - intros t. split.
    + intros (hl & o & [<-|[]] & [<-|[]] & H). symmetry. exact H.
    + intros ->. exists (hd2, one_merge), (OMergeEdge (tr 1 5 2) 11%N). simpl. auto.
  - vm_compute. auto.
Qed.

(** ** C68.  The same for the RDF store over sled.  An entity stands for an identifier if it is the identifier,
    or a name that the index has for the identifier when the execution is over. *)
Theorem C68_edges : forall S NP EP SE BE E (seqb : S -> S -> bool)
  (cs : codec BE S) (cu : codec BE (Id KUlid)) (cn : codec BE NP) (ce : codec BE EP) mn me,
  (forall a b, seqb a b = true <-> a = b) ->
  codec_ok cs -> codec_ok cu -> codec_ok cn -> codec_ok ce -> codec_total cu ->
  forall (es : list (repoch (S := S) (NP := NP) (EP := EP) (SE := SE) (E := E))) (ts : list (rhandle * list (rop S NP EP E)))
    (wcuts : nat -> nat -> cutting) (rcuts : list bytes) o (schedule : list (nat * option SE)) xs,
  NoDup (flat_map epoch_keys es ++ callers_keys ts) -> Forall calm es ->
  let d := rs_epochs cs cu cn ce mn me es rdb_new in
  let ps := beside (rl_iter_edges (SE := SE) cs cu ce rcuts o) (rl_callers cs cu cn ce mn me wcuts 0 ts) in
  let seen := during schedule ps d in
  let names := id_now (SE := SE) cs cu (snd (interleave schedule ps d)) in
  let rewritten := r_rewritten (r_denotes SE cs cu (snd (interleave schedule ps d))) ts in
  has_read xs (fst (interleave schedule ps d)) ->
  (forall d1 i s, seen d1 -> id_now (SE := SE) cs cu d1 i = Some s -> names i = Some s) /\
  (forall t p, In (Ok (t, p)) xs -> exists u d1, seen d1 /\
     r_lists_edge SE cs cu ce o d1 (triple_map (shown (id_now (SE := SE) cs cu d1)) u) p /\ called3 SE cs cu (knowing SE cs cu seen d1) u t) /\
  StronglySorted (behind_edge_lt names o) (map (fun tp => triple_map (by_name names) (fst tp)) (ok_items xs)) /\
  (forall x, In (Err x) xs -> (x = GraphStorageError MissingPropertyData /\ exists u, rewritten u) \/ is_fault (met schedule) x) /\
  (forall t, (forall d1, seen d1 -> exists t1 p, triple_map (by_name names) t1 = triple_map (by_name names) t /\ r_lists_edge SE cs cu ce o d1 t1 p) ->
     In (triple_map (by_name names) t) (map (fun tp => triple_map (by_name names) (fst tp)) (ok_items xs)) \/
     exists x, In (Err x) xs /\
       ((x = GraphStorageError MissingPropertyData /\ exists u, triple_map (by_name names) t = triple_map (shown names) u /\ rewritten u) \/
        is_fault (met schedule) x)).
Proof. exact @edges_spared_next_to. Qed.
Print Assumptions C68_edges.

Theorem C68_props : forall S NP EP SE BE E (seqb : S -> S -> bool)
  (cs : codec BE S) (cu : codec BE (Id KUlid)) (cn : codec BE NP) (ce : codec BE EP) mn me,
  (forall a b, seqb a b = true <-> a = b) ->
  codec_ok cs -> codec_ok cu -> codec_ok cn -> codec_ok ce -> codec_total cu ->
  forall (es : list (repoch (S := S) (NP := NP) (EP := EP) (SE := SE) (E := E))) (ts : list (rhandle * list (rop S NP EP E)))
    (wcuts : nat -> nat -> cutting) (rcuts : list bytes) o (schedule : list (nat * option SE)) xs,
  NoDup (flat_map epoch_keys es ++ callers_keys ts) -> Forall calm es ->
  let d := rs_epochs cs cu cn ce mn me es rdb_new in
  let ps := beside (rl_iter_edges_with_props (SE := SE) cs cu cn ce rcuts o) (rl_callers cs cu cn ce mn me wcuts 0 ts) in
  let seen := during schedule ps d in
  let names := id_now (SE := SE) cs cu (snd (interleave schedule ps d)) in
  let rewritten := r_rewritten (r_denotes SE cs cu (snd (interleave schedule ps d))) ts in
  has_read xs (fst (interleave schedule ps d)) ->
  (forall d1 i s, seen d1 -> id_now (SE := SE) cs cu d1 i = Some s -> names i = Some s) /\
  (forall s p ob, In (Ok (PropsTriple s p ob)) xs -> exists u d1 d2 d3,
     seen d1 /\ r_lists_edge SE cs cu ce o d1 (triple_map (shown (id_now (SE := SE) cs cu d1)) u) (snd p) /\
     seen d2 /\ r_lists_node SE cs cu cn d2 (shown (id_now (SE := SE) cs cu d2) (sub u)) (snd s) /\
     seen d3 /\ r_lists_node SE cs cu cn d3 (shown (id_now (SE := SE) cs cu d3) (obj u)) (snd ob) /\
     called3 SE cs cu (knowing SE cs cu (knowing SE cs cu (knowing SE cs cu seen d1) d2) d3) u (Triple (fst s) (fst p) (fst ob))) /\
  StronglySorted (behind_edge_lt names o) (map (fun x => triple_map (by_name names) (edge_of x)) (ok_items xs)) /\
  (forall x, In (Err x) xs ->
     (x = GraphStorageError MissingPropertyData /\ exists u, rewritten u \/ was_bare SE cs cu cn ce seen o u) \/ is_fault (met schedule) x) /\
  (forall t, (forall d1, seen d1 -> exists t1 p, triple_map (by_name names) t1 = triple_map (by_name names) t /\ r_lists_edge SE cs cu ce o d1 t1 p) ->
     In (triple_map (by_name names) t) (map (fun x => triple_map (by_name names) (edge_of x)) (ok_items xs)) \/
     exists x, In (Err x) xs /\
       ((x = GraphStorageError MissingPropertyData /\
           exists u, triple_map (by_name names) t = triple_map (shown names) u /\ (rewritten u \/ was_bare SE cs cu cn ce seen o u)) \/
        is_fault (met schedule) x)).
Proof. exact @props_spared_next_to. Qed.
Print Assumptions C68_props.

(** A query misses none but such edges. *)
Theorem C68_run : forall S NP EP SE BE E (seqb : S -> S -> bool)
  (cs : codec BE S) (cu : codec BE (Id KUlid)) (cn : codec BE NP) (ce : codec BE EP) mn me,
  (forall a b, seqb a b = true <-> a = b) ->
  codec_ok cs -> codec_ok cu -> codec_ok cn -> codec_ok ce -> codec_total cu ->
  forall (es : list (repoch (S := S) (NP := NP) (EP := EP) (SE := SE) (E := E))) (ts : list (rhandle * list (rop S NP EP E)))
    (wcuts : nat -> nat -> cutting) (rcuts : bytes * bytes -> list bytes) (g u : gen KUlid) (q : query (entity S))
    (schedule : list (nat * option SE)) r',
  NoDup (flat_map epoch_keys es ++ callers_keys ts) -> Forall calm es ->
  let d := rs_epochs cs cu cn ce mn me es rdb_new in
  let ps := beside (rl_run (NP := NP) (EP := EP) (SE := SE) cs cu cn ce rcuts seqb g u q) (rl_callers cs cu cn ce mn me wcuts 0 ts) in
  let seen := during schedule ps d in
  let names := id_now (SE := SE) cs cu (snd (interleave schedule ps d)) in
  let q' := query_map (by_name names) q in
  let rewritten := r_rewritten (r_denotes SE cs cu (snd (interleave schedule ps d))) ts in
  has_read (Ok r') (fst (interleave schedule ps d)) ->
  drawn_distinct (id_generator (r_graph r')) -> exists eg', rdf_shows r' eg' /\
  (forall t, (forall u, triple_map (by_name names) t = triple_map (shown names) u -> ~ rewritten u) ->
     selects q' (triple_map (by_name names) t) ->
     (forall d1, seen d1 -> exists t1 p, triple_map (by_name names) t1 = triple_map (by_name names) t /\
        r_lists_edge SE cs cu ce (order_of q) d1 t1 p) ->
     exists t2, triple_map (by_name names) t2 = triple_map (by_name names) t /\ e_edge eg' t2 <> None).
Proof. exact @run_spared_next_to. Qed.
Print Assumptions C68_run.

(** The other process merges one of the two edges. *)
Definition r_merge : list xrop := [RMergeEdge (Triple (nm 1) (nm 4) (nm 2)) 5].
Definition r_next {A} (reader : prog rdb N A) := beside reader (rl_callers (BE := N) nc uc nc nc mg mg no_cuts 0 [(rh 200 30, r_merge)]).
Example C68_case :
  NoDup (flat_map epoch_keys y_life ++ callers_keys [(rh 200 30, r_merge)]) /\ Forall calm y_life /\
  let ps := r_next (rl_iter_edges (SE := N) nc uc nc [] SPO) in
  (forall v, r_rewritten (r_denotes N nc uc (snd (interleave (y_then 1) ps (xdb y_life)))) [(rh 200 30, r_merge)] v <->
     v = Triple (ul 10) (ul 12) (ul 11)) /\
  has_read [Err (GraphStorageError MissingPropertyData); Ok (Triple (EUlid (ul 20)) (nm 3) (EUlid (ul 21)), 34)]
    (fst (interleave (y_then 1) ps (xdb y_life))) /\
  y_ask 30 (QP [nm 3; nm 4]) r_merge (y_then 6) = Some (Ok ([], [Ok (Triple (EUlid (ul 20)) (nm 3) (EUlid (ul 21)), 34)])) /\
  y_ask 30 (QP [nm 3; nm 4]) r_merge (y_then 40) =
    Some (Ok ([], [Ok (Triple (nm 1) (nm 4) (nm 2), 12); Ok (Triple (EUlid (ul 20)) (nm 3) (EUlid (ul 21)), 34)])).
Proof.
  split; [apply nodupb_ok; vm_compute; reflexivity|]. split; [exact y_calm|]. cbv zeta. split.
  - set (d := snd (interleave (y_then 1) (r_next (rl_iter_edges (SE := N) nc uc nc [] SPO)) (xdb y_life))).
    assert (name_now (SE := N) nc uc d 1 = Some (ul 10)) as H1 by (vm_compute; reflexivity).
    assert (name_now (SE := N) nc uc d 4 = Some (ul 12)) as H4 by (vm_compute; reflexivity).
    assert (name_now (SE := N) nc uc d 2 = Some (ul 11)) as H2 by (vm_compute; reflexivity).
    intros [a b c]. split.
    + intros (hl & o & [<-|[]] & [<-|[]] & Ha & Hb & Hc). cbn [sub pred obj r_denotes] in Ha, Hb, Hc. congruence.
    + intros [= -> -> ->]. exists (rh 200 30, r_merge), (RMergeEdge (Triple (nm 1) (nm 4) (nm 2)) 5). split; [now left|]. split; [now left|].
      cbn [r_rewrites sub pred obj r_denotes]. auto.
  - vm_compute. auto.
Qed.
