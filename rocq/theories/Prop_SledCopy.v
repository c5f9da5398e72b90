(** C74: a copy taken of a sled store while others are writing to it. *)
From Coq Require Import Arith NArith List Sorted.
From Verif Require Import Bytes OMap Core IdType IdTypeFacts Store Mem Spec History MemTop Prog Sled SledHistory SledTables
  SledLeaf SledLazy SledBeside SledCopy SledCopyFacts SledCopyTop Ex ExSled Prop_SledReader.
Import ListNotations.

(** ** C74.  extend and merge of a store by a sled store that any number of other callers are using,
    where the store that is written is a memory store or is on another database.  The database that is read
    has been through any number of earlier lives.

    Whatever is done with an item, the call does what it does with some source fixed beforehand.  All
    vertices and edges of that source were listed at some moment during the call, in order and none
    twice; its errors are storage failures that were met, or MissingPropertyData when one of the other
    callers rewrites an edge; and if the call succeeds the source has all that was there all the time. *)
Theorem C74_handed : forall k NP EP SE BE E H EL (cn : codec BE NP) (ce : codec BE EP) mn me
    (fn : Id k * NP -> H -> result EL unit * H) (fe : triple (Id k) * EP -> H -> result EL unit * H)
    (ls : list (life (k := k) (NP := NP) (EP := EP) (SE := SE) (E := E)))
    (cs : list (handle k * list (op k NP EP E))) (wcuts : nat -> nat -> cutting) (cuts cuts' : list bytes)
    (schedule : list (nat * option SE)) (h : H) a h',
  codec_ok cn -> codec_ok ce -> NoDup (life_keys ls ++ session_keys cs) ->
  let d := lives cn ce mn me ls db_new in
  let ps := beside (take_over cn ce fn fe cuts cuts' h) (l_callers cn ce mn me wcuts 0 cs) in
  has_read (a, h') (fst (interleave schedule ps d)) ->
  exists s, (a, h') = feed_both fn fe s h /\ handed cn ce schedule ps d cs s /\ (a = Ok tt -> complete cn ce schedule ps d s).
Proof. exact @taken_beside. Qed.
Print Assumptions C74_handed.

(** Into a memory store: each vertex and edge is as it was before, or has properties that were listed at some
    moment; and if the call succeeds, all that was there all the time has been taken over. *)
Theorem C74_extend : forall k NP EP SE BE E (cn : codec BE NP) (ce : codec BE EP) mn me
    (ls : list (life (k := k) (NP := NP) (EP := EP) (SE := SE) (E := E)))
    (cs : list (handle k * list (op k NP EP E))) (wcuts : nat -> nat -> cutting) (cuts cuts' : list bytes)
    (schedule : list (nat * option SE)) (m m' : mem k NP EP) g a,
  codec_ok cn -> codec_ok ce -> NoDup (life_keys ls ++ session_keys cs) ->
  let d := lives cn ce mn me ls db_new in
  let ps := beside (m_extend_live cn ce cuts cuts' m) (l_callers cn ce mn me wcuts 0 cs) in
  has_read (a, m') (fst (interleave schedule ps d)) ->
  reachable (sled_error SE BE) mn me m -> shows m g -> drawn_distinct (id_generator m') ->
  (a = Ok tt \/ exists x, a = Err (RightE x) /\
     ((exists y, met schedule y /\ x = SledError y) \/ (x = MissingPropertyData /\ exists t, rewritten cs t))) /\
  exists g', shows m' g' /\
  (forall i, g_node g' i = g_node g i \/ exists p d1, during schedule ps d d1 /\ lists_node SE cn d1 i p /\ g_node g' i = Some p) /\
  (forall t, g_edge g' t = g_edge g t \/ exists e d1, during schedule ps d d1 /\ lists_edge SE ce SPO d1 t e /\ g_edge g' t = Some e) /\
  (a = Ok tt ->
    (forall i, (forall d1, during schedule ps d d1 -> exists p, lists_node SE cn d1 i p) ->
       exists p d1, during schedule ps d d1 /\ lists_node SE cn d1 i p /\ g_node g' i = Some p) /\
    (forall t, (forall d1, during schedule ps d d1 -> exists e, lists_edge SE ce SPO d1 t e) ->
       exists e d1, during schedule ps d d1 /\ lists_edge SE ce SPO d1 t e /\ g_edge g' t = Some e)).
Proof. exact @extend_live. Qed.
Print Assumptions C74_extend.

(** The same for merge: the properties are joined to the ones before. *)
Theorem C74_merge : forall k NP EP SE BE E (cn : codec BE NP) (ce : codec BE EP) mn me
    (ls : list (life (k := k) (NP := NP) (EP := EP) (SE := SE) (E := E)))
    (cs : list (handle k * list (op k NP EP E))) (wcuts : nat -> nat -> cutting) (cuts cuts' : list bytes)
    (schedule : list (nat * option SE)) (m m' : mem k NP EP) g a,
  codec_ok cn -> codec_ok ce -> NoDup (life_keys ls ++ session_keys cs) ->
  let d := lives cn ce mn me ls db_new in
  let ps := beside (m_merge_live cn ce mn me cuts cuts' m) (l_callers cn ce mn me wcuts 0 cs) in
  has_read (a, m') (fst (interleave schedule ps d)) ->
  reachable (sled_error SE BE) mn me m -> shows m g -> drawn_distinct (id_generator m') ->
  (a = Ok tt \/ exists x, a = Err (RightE x) /\
     ((exists y, met schedule y /\ x = SledError y) \/ (x = MissingPropertyData /\ exists t, rewritten cs t))) /\
  exists g', shows m' g' /\
  (forall i, g_node g' i = g_node g i \/ exists p d1, during schedule ps d d1 /\ lists_node SE cn d1 i p /\
     g_node g' i = Some (merged mn (g_node g i) p)) /\
  (forall t, g_edge g' t = g_edge g t \/ exists e d1, during schedule ps d d1 /\ lists_edge SE ce SPO d1 t e /\
     g_edge g' t = Some (merged me (g_edge g t) e)) /\
  (a = Ok tt ->
    (forall i, (forall d1, during schedule ps d d1 -> exists p, lists_node SE cn d1 i p) ->
       exists p d1, during schedule ps d d1 /\ lists_node SE cn d1 i p /\ g_node g' i = Some (merged mn (g_node g i) p)) /\
    (forall t, (forall d1, during schedule ps d d1 -> exists e, lists_edge SE ce SPO d1 t e) ->
       exists e d1, during schedule ps d d1 /\ lists_edge SE ce SPO d1 t e /\ g_edge g' t = Some (merged me (g_edge g t) e))).
Proof. exact @merge_live. Qed.
Print Assumptions C74_merge.

(** Into another database, which may fail at any access ([fs]): the call is an extend, or a merge, by such
    a source, about which C26, C30, C33 and C53 speak. *)
Theorem C74_sled_extend : forall k NP EP SE BE SE' BE' E (cn : codec BE NP) (ce : codec BE EP) (cn' : codec BE' NP) (ce' : codec BE' EP) mn me
    (ls : list (life (k := k) (NP := NP) (EP := EP) (SE := SE) (E := E)))
    (cs : list (handle k * list (op k NP EP E))) (wcuts : nat -> nat -> cutting) (cuts cuts' : list bytes)
    (schedule : list (nat * option SE)) (h h' : handle k) (x x' : db) (fs fs' : list (option SE')) a,
  codec_ok cn -> codec_ok ce -> NoDup (life_keys ls ++ session_keys cs) ->
  let d := lives cn ce mn me ls db_new in
  let ps := beside (s_extend_live cn ce cn' ce' cuts cuts' (h, x, fs)) (l_callers cn ce mn me wcuts 0 cs) in
  has_read (a, (h', x', fs')) (fst (interleave schedule ps d)) ->
  exists s, exec (s_extend cn' ce' s h) fs x = (a, h', x', fs') /\ handed cn ce schedule ps d cs s /\ (a = Ok tt -> complete cn ce schedule ps d s).
Proof. exact @extend_live_sled. Qed.
Print Assumptions C74_sled_extend.

Theorem C74_sled_merge : forall k NP EP SE BE SE' BE' E (cn : codec BE NP) (ce : codec BE EP) (cn' : codec BE' NP) (ce' : codec BE' EP) mn me
    (ls : list (life (k := k) (NP := NP) (EP := EP) (SE := SE) (E := E)))
    (cs : list (handle k * list (op k NP EP E))) (wcuts : nat -> nat -> cutting) (cuts cuts' : list bytes)
    (schedule : list (nat * option SE)) (h h' : handle k) (x x' : db) (fs fs' : list (option SE')) a,
  codec_ok cn -> codec_ok ce -> NoDup (life_keys ls ++ session_keys cs) ->
  let d := lives cn ce mn me ls db_new in
  let ps := beside (s_merge_live cn ce cn' ce' mn me cuts cuts' (h, x, fs)) (l_callers cn ce mn me wcuts 0 cs) in
  has_read (a, (h', x', fs')) (fst (interleave schedule ps d)) ->
  exists s, exec (s_merge cn' ce' mn me s h) fs x = (a, h', x', fs') /\ handed cn ce schedule ps d cs s /\ (a = Ok tt -> complete cn ce schedule ps d s).
Proof. exact @merge_live_sled. Qed.
Print Assumptions C74_sled_merge.

(** ** Examples *)
(** What has been copied into the memory store. *)
Definition copied {A B : Type} (p : option (prog db N (result A unit * mem KU64 N N + B))) :
    option (result A unit * list (result unit (Id KU64 * N)) * list (result unit (triple (Id KU64) * N))) :=
  match p with Some (Ret (inl (a, m))) => Some (a, iter_vertices m, iter_edges SPO m) | _ => None end.
Definition old_copy : mem KU64 N N := mem_history (E := N) mg mg [OInsertNode (u 2) 20; OInsertNode (u 8) 80; OInsertEdge (tr 1 5 2) 120]%N (mem_new (counter 0)).
Definition copy_case l schedule := copied (nth_error (fst (interleave schedule
  (next_to (m_extend_live (SE := N) (BE := N) nc nc [to_be_bytes (k := KU64) (u 2)] [cut] old_copy) l) start_db)) 0).
Definition nodes_first : list nat := (List.repeat 0 6 ++ List.repeat 1 20 ++ List.repeat 0 20)%nat.
Definition new_vertex : list exop := [OInsertNode (u 7) 7; OInsertEdge (tr 7 5 1) 71]%N.

(** An edge put in while the copy is made is there; a failure, and an edge that is removed, stop the copy. *)
Example C74_case :
  NoDup (life_keys start_life ++ session_keys [(hd2, new_vertex)]) /\
  copy_case new_vertex (steps nodes_first) =
    Some (Ok tt, [Ok (u 1, 1); Ok (u 2, 2); Ok (u 8, 80)], [Ok (tr 1 5 2, 12); Ok (tr 2 5 3, 23); Ok (tr 7 5 1, 71)])%N /\
  copy_case busy (steps nodes_first) =
    Some (Err (RightE MissingPropertyData), [Ok (u 1, 1); Ok (u 2, 2); Ok (u 8, 80)], [Ok (tr 1 5 2, 120)])%N /\
  copy_case new_vertex (steps (List.repeat 0 3)%nat ++ [(0%nat, Some 13%N)] ++ steps nodes_first) =
    Some (Err (RightE (SledError 13)), [Ok (u 1, 1); Ok (u 2, 20); Ok (u 8, 80)], [Ok (tr 1 5 2, 120)])%N.
Proof. split; [apply nodupb_ok; vm_compute; reflexivity|]. vm_compute. auto. Qed.

(** Joined to what was there, with a merge. *)
Example C74_merge_case :
  copied (nth_error (fst (interleave (steps nodes_first)
    (next_to (m_merge_live (SE := N) (BE := N) nc nc mg mg [to_be_bytes (k := KU64) (u 2)] [cut] old_copy) new_vertex) start_db)) 0) =
  Some (Ok tt, [Ok (u 1, 1); Ok (u 2, mg 20 2); Ok (u 8, 80)], [Ok (tr 1 5 2, mg 120 12); Ok (tr 2 5 3, 23); Ok (tr 7 5 1, 71)])%N.
Proof. vm_compute. auto. Qed.

(** Into another database, in order and with a failure there. *)
Definition copied_db {A B F : Type} (p : option (prog db N (result A unit * (handle KU64 * db * F) + B))) :
    option (result A unit * list (result (sled_error N N) (Id KU64 * N)) * list (result (sled_error N N) (triple (Id KU64) * N))) :=
  match p with
  | Some (Ret (inl (a, (_, x, _)))) => Some (a, now N (s_iter_vertices nc) x, now N (s_iter_edges nc SPO) x)
  | _ => None
  end.
Definition copy_db_case fs := copied_db (nth_error (fst (interleave (steps nodes_first)
  (next_to (s_extend_live (SE := N) (BE := N) (SE' := N) nc nc nc nc [to_be_bytes (k := KU64) (u 2)] [cut] (hd1, db_new, fs)) new_vertex) start_db)) 0).
Example C74_sled_case :
  copy_db_case [] = Some (Ok tt, [Ok (u 1, 1); Ok (u 2, 2)], [Ok (tr 1 5 2, 12); Ok (tr 2 5 3, 23); Ok (tr 7 5 1, 71)])%N /\
  copy_db_case [None; Some 3%N] = Some (Err (LeftE (SledError 3)), [Ok (u 1, 1)], [])%N.
Proof. vm_compute. auto. Qed.

(** ** A copy that succeeds is not what the store had at any moment: the vertices are read before the edges.
    The other caller inserts a vertex and then an edge from it; the copy has the edge without the vertex. *)
Theorem C74_snapshot_refuted : exists (l : list exop) (schedule : list (nat * option N)) i p t e,
  let ps := next_to (m_extend_live (SE := N) (BE := N) nc nc [to_be_bytes (k := KU64) (u 2)] [cut] (mem_new (counter 0))) l in
  NoDup (life_keys start_life ++ session_keys [(hd2, l)]) /\ Forall adds_only l /\
  (exists ns es, copied (nth_error (fst (interleave schedule ps start_db)) 0) = Some (Ok tt, ns, es) /\
     In (Ok (t, e)) es /\ ~ In i (map fst (ok_items ns))) /\
  (forall d1, during schedule ps start_db d1 -> lists_edge N nc SPO d1 t e -> lists_node N nc d1 i p).
Proof.
  exists new_vertex, (steps nodes_first), (u 7), 7%N, (tr 7 5 1), 71%N. cbv zeta.
  split; [apply nodupb_ok; vm_compute; reflexivity|]. split; [repeat constructor|]. split.
  - exists [Ok (u 1, 1); Ok (u 2, 2)]%N, [Ok (tr 1 5 2, 12); Ok (tr 2 5 3, 23); Ok (tr 7 5 1, 71)]%N.
    split; [vm_compute; reflexivity|]. split; [right; right; left; reflexivity|].
    intros [H|[H|[]]]; discriminate.
  - apply (check_during (fun d1 => (edges_alone SPO d1, now N (s_iter_vertices (k := KU64) (BE := N) nc) d1))
      (fun x => In (Ok (tr 7 5 1, 71%N)) (fst x) -> In (Ok (u 7, 7%N)) (snd x))). run_through.
    repeat (apply Forall_cons || apply Forall_nil); cbn [fst snd]; intros H;
      first [right; right; left; reflexivity | destruct H as [H|[H|[]]]; discriminate].
Qed.
Print Assumptions C74_snapshot_refuted.
