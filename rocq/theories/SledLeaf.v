(** The scans of /repo/src/sled/*.rs, read piece by piece.  No proofs here.

    Tree::iter and Tree::range do not work on a snapshot of the tree: the iterator holds a copy
    of one leaf, delivers the entries of that leaf, and looks at the tree again for the next
    leaf.  Where one leaf ends and the next begins is sled's business and changes all the time.
    So a scan is cut at arbitrary keys: [cuts] are the ends of the leaves it meets, and each
    piece is read when the scan gets there.  Sled.v is the case without cuts.  Only the code
    that scans is repeated here. *)
From Coq Require Import NArith List Bool.
From Verif Require Import Bytes OMap Core IdType Store Prog Mem History Sled SledHistory.
Import ListNotations.

(** [None] is no bound. *)
Definition not_before (lo : option bytes) (key : bytes) : bool :=
  match lo with
  | None => true
  | Some a => match bytes_cmp a key with Gt => false | _ => true end
  end.
Definition before (hi : option bytes) (key : bytes) : bool :=
  match hi with
  | None => true
  | Some b => match bytes_cmp key b with Lt => true | _ => false end
  end.

(** The entries of one leaf. *)
Definition piece (lo hi : option bytes) (es : list (bytes * bytes)) : list (bytes * bytes) :=
  filter (fun kv => not_before lo (fst kv) && before hi (fst kv)) es.

(** Where the scan goes on: it never goes back. *)
Definition later (lo : option bytes) (c : bytes) : bytes :=
  match lo with
  | None => c
  | Some a => match bytes_cmp a c with Gt => a | _ => c end
  end.

Section Leaf.
Context {k : idkind} {NP EP SE BE : Type} (cn : codec BE NP) (ce : codec BE EP).
Notation I := (Id k).
Notation T := (triple (Id k)).
Notation err := (sled_error SE BE).
Notation P A := (prog db SE A).
Notation PR A := (prog db SE (result err A)).

(** [tree.iter().map(f)], from [lo] on *)
Fixpoint scan_from {A} (entries : db -> list (bytes * bytes)) (f : bytes * bytes -> PR A)
    (lo : option bytes) (cuts : list bytes) : P (list (result err A)) :=
  match cuts with
  | [] => Look (fun d => map_prog (fun kv => next (f kv)) (piece lo None (entries d)))
  | c :: cuts' =>
      bind (Look (fun d => map_prog (fun kv => next (f kv)) (piece lo (Some c) (entries d)))) (fun xs =>
      bind (scan_from entries f (Some (later lo c)) cuts') (fun ys => Ret (xs ++ ys)))
  end.
Definition l_scan {A} (cuts : list bytes) (entries : db -> list (bytes * bytes)) (f : bytes * bytes -> PR A)
    : P (list (result err A)) :=
  scan_from entries f None cuts.

(** [for kv in tree.range(..) { f(kv)? }], from [lo] on *)
Fixpoint for_from {S} (entries : db -> list (bytes * bytes)) (f : bytes * bytes -> S -> PR S)
    (lo : option bytes) (cuts : list bytes) (s : S) : PR S :=
  match cuts with
  | [] => Look (fun d => for_ok f (piece lo None (entries d)) s)
  | c :: cuts' =>
      bind_ok (Look (fun d => for_ok f (piece lo (Some c) (entries d)) s))
        (fun s => for_from entries f (Some (later lo c)) cuts' s)
  end.
Definition l_for {S} (cuts : list bytes) (entries : db -> list (bytes * bytes)) (f : bytes * bytes -> S -> PR S)
    (s : S) : PR S :=
  for_from entries f None cuts s.

(** ** /repo/src/sled/iter.rs *)

(** iter.rs:75-87 *)
Definition l_vertices (cuts : list bytes) : PR (list I) :=
  bind (l_scan cuts t_node (fun kv => Ret (decode_id (fst kv)))) (fun rs =>
  Ret (collect_result (fun r => r) rs)).

(** iter.rs:99-111 *)
Definition l_iter_vertices (cuts : list bytes) : P (list (result err (I * NP))) :=
  l_scan cuts t_node (fun kv =>
    bind_ok (Ret (decode_id (fst kv))) (fun i =>
    bind_ok (bincode (de cn (snd kv))) (fun v => Ret (Ok (i, v))))).

(** iter.rs:113-160 *)
Definition l_iter_edges_with_props (cuts : list bytes) (o : edge_order)
    : P (list (result err (props_triple I NP EP))) :=
  match o with
  | SPO => l_scan cuts t_spo (fun kv =>
      bind_ok (Ret (decode_key decode_spo (fst kv))) (fun t => s_iter_impl cn ce t (snd kv)))
  | POS => l_scan cuts t_pos (fun kv =>
      bind_ok (Ret (decode_key decode_pos (fst kv))) (fun t => s_iter_impl cn ce t (snd kv)))
  | OSP => l_scan cuts t_osp (fun kv =>
      bind_ok (Ret (decode_key decode_osp (fst kv))) (fun t => s_iter_impl cn ce t (snd kv)))
  end.

(** iter.rs:162-217 *)
Definition l_iter_edges (cuts : list bytes) (o : edge_order) : P (list (result err (T * EP))) :=
  match o with
  | SPO => l_scan cuts t_spo (fun kv =>
      bind_ok (Ret (decode_key decode_spo (fst kv))) (fun t => edge_item ce t (snd kv)))
  | POS => l_scan cuts t_pos (fun kv =>
      bind_ok (Ret (decode_key decode_pos (fst kv))) (fun t => edge_item ce t (snd kv)))
  | OSP => l_scan cuts t_osp (fun kv =>
      bind_ok (Ret (decode_key decode_osp (fst kv))) (fun t => edge_item ce t (snd kv)))
  end.

(** ** /repo/src/sled/query.rs *)

(** query.rs:79-250: the range of one item; the range says which one it is. *)
Definition l_query_range (cuts : bytes * bytes -> list bytes) (dec : bytes -> T) (tr : db -> tree)
    (b : bytes * bytes) (r : mem k NP EP) : PR (mem k NP EP) :=
  l_for (cuts b) (fun d => brange b (tr d)) (query_entry ce dec) r.

(** query.rs:19-251 *)
Definition l_run (cuts : bytes * bytes -> list bytes) (g : gen k) (q : query I) : PR (mem k NP EP) :=
  match q with
  | QNodeProps nodes => for_ok (query_node cn) nodes (mem_new g)
  | QSPO triples => for_ok (query_spo ce) triples (mem_new g)
  | QS items =>
      for_ok (fun s => l_query_range cuts decode_spo t_spo (key_bounds_1 s)) items (mem_new g)
  | QSP items =>
      for_ok (fun sp => l_query_range cuts decode_spo t_spo (key_bounds_2 (fst sp) (snd sp))) items (mem_new g)
  | QSO items =>
      for_ok (fun so => l_query_range cuts decode_osp t_osp (key_bounds_2 (snd so) (fst so))) items (mem_new g)
  | QP items =>
      for_ok (fun p => l_query_range cuts decode_pos t_pos (key_bounds_1 p)) items (mem_new g)
  | QPO items =>
      for_ok (fun po => l_query_range cuts decode_pos t_pos (key_bounds_2 (fst po) (snd po))) items (mem_new g)
  | QO items =>
      for_ok (fun o => l_query_range cuts decode_osp t_osp (key_bounds_1 o)) items (mem_new g)
  end.

(** ** /repo/src/sled/remove.rs *)

(** The cuts of the two scans of a call of remove_node. *)
Definition cutting : Type := list bytes * list bytes.

(** remove.rs:18-122 *)
Definition l_remove_node (c : cutting) (node : I) : PR unit :=
  bind_ok (l_for (fst c) (fun d => brange (key_bounds_1 node) (t_spo d)) (forward_entry (k := k)) (Batches [] [] [] [])) (fun f =>
  bind_ok (l_for (snd c) (fun d => brange (key_bounds_1 node) (t_osp d)) (backward_entry (k := k)) (Batches [] [] [] [])) (fun b =>
  bind_ok (transaction (remove_node_txn node f b)) (fun _ =>
  Ret (Ok tt)))).

(** ** Histories *)
Section History.
Context {E : Type} (mn : NP -> NP -> NP) (me : EP -> EP -> EP).
Notation op := (op k NP EP E).
Notation outcome := (outcome (SE := SE) (BE := BE) (E := E)).

Definition l_apply (c : cutting) (o : op) (h : handle k) : P (outcome * handle k) :=
  match o with
  | ORemoveNode n => lift (and_handle h (l_remove_node c n))
  | _ => sled_apply cn ce mn me o h
  end.

(** [cs j] are the cuts of the [j]-th call of the caller; the next call is number [j]. *)
Fixpoint l_history (cs : nat -> cutting) (j : nat) (l : list op) (h : handle k) : P (list outcome * handle k) :=
  match l with
  | [] => Ret ([], h)
  | o :: l' =>
      bind (l_apply (cs j) o h) (fun rh =>
      bind (l_history cs (S j) l' (snd rh)) (fun rsh => Ret (fst rh :: fst rsh, snd rsh)))
  end.

(** Several callers; [cs i] are the cuts of the [i]-th, starting from number [i0]. *)
Fixpoint l_callers (cs : nat -> nat -> cutting) (i0 : nat) (ts : list (handle k * list op))
    : list (P (list outcome * handle k)) :=
  match ts with
  | [] => []
  | hl :: ts' => l_history (cs i0) 0 (snd hl) (fst hl) :: l_callers cs (S i0) ts'
  end.

End History.
End Leaf.
