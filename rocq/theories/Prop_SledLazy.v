(** C69, C70: extend and merge of a SledTripleStore by another handle on its own database. *)
From Coq Require Import NArith List.
From Verif Require Import Bytes OMap Core IdType Store Mem Spec History Prog Sled SledHistory SledRun SledMain
  SledTornSpec SledLeaf SledLazy SledLazyTop Ex ExSled Prop_SledTorn.
Import ListNotations.

(** ** C69.  A store extended by its own database, read while it is written, after any processes
    and any tries of the same that failed or died: wherever it stops, the vertices and the SPO
    order show what they showed and the orders differ on no further edge.  When it succeeds all
    orders show what the SPO order showed.  It fails only because of the storage or the codecs. *)
Theorem C69_extend_self : forall k NP EP SE BE E (cn : codec BE NP) (ce : codec BE EP) mn me
    (ls : list (life (k := k) (NP := NP) (EP := EP) (SE := SE) (E := E))) (tries : list (self_try (k := k) (SE := SE)))
    (h : handle k) cuts cuts' faults n K (g : graph k NP EP),
  codec_ok cn -> codec_ok ce ->
  let d := lives cn ce mn me ls db_new in
  let m := length (now SE (s_iter_edges (k := k) ce SPO) d) in
  NoDup (life_keys ls ++ flat_map (fun f => self_keys m (sf_handle f)) tries ++ self_keys m h) ->
  shows_but SE cn ce K d g ->
  let d1 := self_tries cn ce tries d in
  let p := s_extend_self (SE := SE) cn ce cuts cuts' h in
  shows_but SE cn ce K (crash n p faults d1) g /\
  shows_but SE cn ce K (db_of p faults d1) g /\
  match fst (ret_of p faults d1) with
  | Ok _ => sled_shows SE cn ce (db_of p faults d1) g
  | Err (LeftE e) => caused (E := E) cn ce faults (Err (LeftE e))
  | Err (RightE (SledError x)) => In (Some x) faults
  | Err (RightE _) => False
  end.
Proof. exact @extend_self_top. Qed.
Print Assumptions C69_extend_self.

(** An extend died inside its second edge.  Extending the store by its own database, first
    stopped by a storage failure and then by the end of the process, and then to its end, makes
    the orders agree on what the SPO order showed. *)
Definition leaf_end (t : triple (Id KU64)) : bytes := encode_spo t.

Example C69_case :
  let ls := [Life (SE := N) hd1 [OExtend torn_source] [] 8%nat] in
  let tries := [SelfTry (SE := N) hd2 [] [] [None; None; None; Some 3%N] 50%nat; SelfTry (Handle (counter 5000) (ulids 6000)) [] [] [] 9%nat] in
  let d := lives nc nc mg mg ls db_new in
  let d1 := self_tries nc nc tries d in
  let p := s_extend_self nc nc [to_be_bytes (u 2)] [leaf_end (tr 1 9 9); leaf_end (tr 2 9 9)] hd3 in
  let es o d := now N (s_iter_edges (k := KU64) (BE := N) nc o) d in
  NoDup (life_keys ls ++ flat_map (fun f => self_keys 2 (sf_handle f)) tries ++ self_keys 2 hd3) /\
  es SPO d = [Ok (tr 1 5 2, 52); Ok (tr 2 5 1, 51)]%N /\
  es POS d = [Ok (tr 1 5 2, 52)]%N /\ es OSP d = [Ok (tr 1 5 2, 52)]%N /\
  fst (ret_of p [] d1) = Ok tt /\
  es SPO (db_of p [] d1) = [Ok (tr 1 5 2, 52); Ok (tr 2 5 1, 51)]%N /\
  es POS (db_of p [] d1) = [Ok (tr 2 5 1, 51); Ok (tr 1 5 2, 52)]%N /\
  es OSP (db_of p [] d1) = [Ok (tr 2 5 1, 51); Ok (tr 1 5 2, 52)]%N /\
  fst (ret_of p [None; None; Some 7%N] d1) = Err (RightE (SledError 7%N)) /\
  now N (s_iter_vertices (k := KU64) (BE := N) nc) (db_of p [] d1) = [Ok (u 1, 10); Ok (u 2, 20)]%N.
Proof.
  split; [apply nodupb_ok; vm_compute; reflexivity|]. vm_compute. repeat split.
Qed.

(** ** C70.  A store merged with its own database, read while it is written: wherever it stops,
    a first part of the vertices, and when those are done a first part of the edges, are merged
    with themselves, each once, and the orders differ on no further edge.  When it succeeds
    everything is merged with itself once, and the orders agree. *)
Theorem C70_merge_self : forall k NP EP SE BE E (cn : codec BE NP) (ce : codec BE EP) mn me
    (ls : list (life (k := k) (NP := NP) (EP := EP) (SE := SE) (E := E)))
    (h : handle k) cuts cuts' faults n K (g : graph k NP EP),
  codec_ok cn -> codec_ok ce ->
  let d := lives cn ce mn me ls db_new in
  NoDup (life_keys ls ++ map to_be_bytes (next_ids (h_gen h) (length (now SE (s_iter_edges (k := k) ce SPO) d)))) ->
  shows_but SE cn ce K d g ->
  let p := s_merge_self (SE := SE) cn ce mn me cuts cuts' h in
  exists ns es, now SE (s_iter_vertices cn) d = map Ok ns /\ now SE (s_iter_edges ce SPO) d = map Ok es /\
  (forall x, x = crash n p faults d \/ x = db_of p faults d ->
     exists ns1 ns2 es1 es2, ns = ns1 ++ ns2 /\ es = es1 ++ es2 /\ (es1 = [] \/ ns2 = []) /\
       shows_but SE cn ce K x
         (spec_history (E := E) mn me (map (fun ip => OMergeNode (fst ip) (snd ip)) ns1 ++
                                       map (fun te => OMergeEdge (fst te) (snd te)) es1) g)) /\
  match fst (ret_of p faults d) with
  | Ok _ => sled_shows SE cn ce (db_of p faults d) (g_merged mn me g g)
  | Err (LeftE e) => caused (E := E) cn ce faults (Err (LeftE e))
  | Err (RightE (SledError x)) => In (Some x) faults
  | Err (RightE _) => False
  end.
Proof. exact @merge_self_top. Qed.
Print Assumptions C70_merge_self.

(** The same torn store merged with itself: in the end, and when the process dies after three and
    after seven storage calls. *)
Example C70_case :
  let ls := [Life (SE := N) hd1 [OExtend torn_source] [] 8%nat] in
  let d := lives nc nc mg mg ls db_new in
  let p := s_merge_self (SE := N) nc nc mg mg [to_be_bytes (u 2)] [leaf_end (tr 1 9 9)] hd2 in
  let es o d := now N (s_iter_edges (k := KU64) (BE := N) nc o) d in
  let vs d := now N (s_iter_vertices (k := KU64) (BE := N) nc) d in
  NoDup (life_keys ls ++ map to_be_bytes (next_ids (h_gen hd2) 2)) /\
  fst (ret_of p [] d) = Ok tt /\
  es POS d = [Ok (tr 1 5 2, 52)]%N /\
  vs (db_of p [] d) = [Ok (u 1, 110); Ok (u 2, 220)]%N /\
  es SPO (db_of p [] d) = [Ok (tr 1 5 2, 572); Ok (tr 2 5 1, 561)]%N /\
  es POS (db_of p [] d) = [Ok (tr 2 5 1, 561); Ok (tr 1 5 2, 572)]%N /\
  vs (crash 3 p [] d) = [Ok (u 1, 110); Ok (u 2, 20)]%N /\
  es SPO (crash 3 p [] d) = [Ok (tr 1 5 2, 52); Ok (tr 2 5 1, 51)]%N /\
  vs (crash 7 p [] d) = [Ok (u 1, 110); Ok (u 2, 220)]%N /\
  es SPO (crash 7 p [] d) = [Ok (tr 1 5 2, 572); Ok (tr 2 5 1, 51)]%N.
Proof.
  split; [apply nodupb_ok; vm_compute; reflexivity|]. vm_compute. repeat split.
Qed.
