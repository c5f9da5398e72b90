(** SledTripleStore: /repo/src/sled.rs and /repo/src/sled/*.rs.  No proofs here.

    The database is the five trees of one sled::Db.  A handle (a SledTripleStore) holds
    references to them and its own identifier generator, so the operations are programs on
    the database that take a handle and return it. *)
From Coq Require Import NArith List Bool.
From Verif Require Import Bytes OMap Core IdType Store Prog Mem.
Import ListNotations.

(** bincode::serialize and bincode::deserialize at one type (/repo/Cargo.toml: bincode);
    a dependency, so these are arbitrary functions that may fail with an error of type [BE]. *)
Record codec (BE P : Type) : Type := Codec {
  ser : P -> result BE bytes;
  de : bytes -> result BE P
}.
Arguments Codec {BE P} ser de.
Arguments ser {BE P} c p.
Arguments de {BE P} c b.

Notation tree := (omap bytes bytes).
Notation bget := (om_get bytes_cmp).
Notation binsert := (om_insert bytes_cmp).
Notation bremove := (om_remove bytes_cmp).
Notation brange b m := (om_range bytes_cmp (fst b) (snd b) m).

(** The trees opened at sled.rs:157-178. *)
Inductive table : Type := TNode | TEdge | TSpo | TPos | TOsp.
Record db : Type := Db {
  t_node : tree;
  t_edge : tree;
  t_spo : tree;
  t_pos : tree;
  t_osp : tree
}.
Definition tbl (x : table) (d : db) : tree :=
  match x with TNode => t_node d | TEdge => t_edge d | TSpo => t_spo d | TPos => t_pos d | TOsp => t_osp d end.
Definition set_tbl (x : table) (v : tree) (d : db) : db :=
  match x with
  | TNode => Db v (t_edge d) (t_spo d) (t_pos d) (t_osp d)
  | TEdge => Db (t_node d) v (t_spo d) (t_pos d) (t_osp d)
  | TSpo => Db (t_node d) (t_edge d) v (t_pos d) (t_osp d)
  | TPos => Db (t_node d) (t_edge d) (t_spo d) v (t_osp d)
  | TOsp => Db (t_node d) (t_edge d) (t_spo d) (t_pos d) v
  end.

(** A new database. *)
Definition db_new : db := Db om_empty om_empty om_empty om_empty om_empty.

(** /repo/src/sled.rs:20-26.  [SE] is sled::Error, [BE] is bincode::Error. *)
Inductive sled_error (SE BE : Type) : Type :=
| SledError (e : SE)
| SerializationError (e : BE)
| KeySizeError
| MissingPropertyData.
Arguments SledError {SE BE} e.
Arguments SerializationError {SE BE} e.
Arguments KeySizeError {SE BE}.
Arguments MissingPropertyData {SE BE}.

Section Sled.
Context {k : idkind} {NP EP SE BE : Type} (cn : codec BE NP) (ce : codec BE EP).
Notation I := (Id k).
Notation T := (triple (Id k)).
Notation err := (sled_error SE BE).
Notation P A := (prog db SE A).
Notation PR A := (prog db SE (result err A)).

(** A SledTripleStore apart from the trees (sled.rs:135-147): the generator, and the
    identifiers its extend calls obtain from Ulid::new() (extend.rs:37), an arbitrary
    sequence as well. *)
Record handle : Type := Handle {
  h_gen : gen k;
  h_ulid : gen KUlid
}.

(** ** sled::Tree *)

(** Tree::get, one atomic read. *)
Definition tree_get (x : table) (key : bytes) : PR (option bytes) :=
  Act (fun d => d) (fun d => Ret (Ok (bget key (tbl x d)))) (fun e => Ret (Err (SledError e))).

(** Tree::insert, Tree::fetch_and_update (extend.rs:46-51) and Tree::update_and_fetch
    (extend.rs:28-30) with a constant function: store a value, return the old one. *)
Definition tree_insert (x : table) (key v : bytes) : PR (option bytes) :=
  Act (fun d => set_tbl x (binsert key v (tbl x d)) d)
      (fun d => Ret (Ok (bget key (tbl x d)))) (fun e => Ret (Err (SledError e))).

(** Tree::remove: return the old value. *)
Definition tree_remove (x : table) (key : bytes) : PR (option bytes) :=
  Act (fun d => set_tbl x (bremove key (tbl x d)) d)
      (fun d => Ret (Ok (bget key (tbl x d)))) (fun e => Ret (Err (SledError e))).

(** Iterator::next of Tree::iter and Tree::range.  Here the entries are those present when the scan
    started; SledLeaf.v has sled's iterators, which are not snapshots.  Obtaining an entry may
    fail. *)
Definition next {A} (k : PR A) : PR A :=
  Act (fun d => d) (fun _ => k) (fun e => Ret (Err (SledError e))).

(** [tree.iter().map(f)] *)
Definition scan {A} (entries : db -> list (bytes * bytes)) (f : bytes * bytes -> PR A)
    : P (list (result err A)) :=
  Look (fun d => map_prog (fun kv => next (f kv)) (entries d)).

(** ** Transactions: the body runs on a private copy; Ok commits it, Err aborts. *)
Definition txn (A : Type) : Type := db -> result err (A * db).
Definition t_ret {A} (a : A) : txn A := fun d => Ok (a, d).
Definition t_abort {A} (e : err) : txn A := fun _ => Err e.
Definition t_bind {A B} (x : txn A) (f : A -> txn B) : txn B :=
  fun d => match x d with Ok (a, d') => f a d' | Err e => Err e end.
Definition t_get (x : table) (key : bytes) : txn (option bytes) :=
  fun d => Ok (bget key (tbl x d), d).
Definition t_insert (x : table) (key v : bytes) : txn (option bytes) :=
  fun d => Ok (bget key (tbl x d), set_tbl x (binsert key v (tbl x d)) d).
Definition t_remove (x : table) (key : bytes) : txn (option bytes) :=
  fun d => Ok (bget key (tbl x d), set_tbl x (bremove key (tbl x d)) d).
(** apply_batch of a Batch that only removes keys. *)
Definition t_apply_removals (x : table) (keys : list bytes) : txn unit :=
  fun d => Ok (tt, set_tbl x (fold_left (fun t key => bremove key t) keys (tbl x d)) d).
(** [bincode_result.map_err(Abort(SerializationError))?] *)
Definition t_bincode {A} (r : result BE A) : txn A :=
  match r with Ok a => t_ret a | Err e => t_abort (SerializationError e) end.

(** A storage failure anywhere in the transaction aborts it. *)
Definition transaction {A} (body : txn A) : PR A :=
  Act (fun d => match body d with Ok (_, d') => d' | Err _ => d end)
      (fun d => Ret (match body d with Ok (a, _) => Ok a | Err e => Err e end))
      (fun e => Ret (Err (SledError e))).

(** [bincode_result?] outside of transactions. *)
Definition bincode {A} (r : result BE A) : PR A :=
  Ret (match r with Ok a => Ok a | Err e => Err (SerializationError e) end).

Definition and_handle {A} (h : handle) (p : P A) : P (A * handle) :=
  bind p (fun a => Ret (a, h)).

Definition draw (h : handle) : I * handle :=
  let (i, g) := fresh (h_gen h) in (i, Handle g (h_ulid h)).
Definition draw_ulid (h : handle) : Id KUlid * handle :=
  let (i, g) := fresh (h_ulid h) in (i, Handle (h_gen h) g).

(** ** /repo/src/sled/insert.rs *)

(** insert.rs:18-23 *)
Definition s_insert_node (node : I) (props : NP) : PR unit :=
  let key_bytes := to_be_bytes node in
  bind_ok (bincode (ser cn props)) (fun data_bytes =>
  bind_ok (tree_insert TNode key_bytes data_bytes) (fun _ =>
  Ret (Ok tt))).

(** insert.rs:41-56 *)
Definition insert_edge_txn (t : T) (prop_key_bytes data_bytes : bytes) : txn unit :=
  t_bind (t_insert TEdge prop_key_bytes data_bytes) (fun _ =>
  t_bind (t_insert TSpo (encode_spo t) prop_key_bytes) (fun _ =>
  t_bind (t_insert TPos (encode_pos t) prop_key_bytes) (fun _ =>
  t_bind (t_insert TOsp (encode_osp t) prop_key_bytes) (fun _ =>
  t_ret tt)))).

(** insert.rs:25-65 *)
Definition s_insert_edge (t : T) (props : EP) (h : handle) : P (result err unit * handle) :=
  let (prop_key, h) := draw h in
  let prop_key_bytes := to_be_bytes prop_key in
  and_handle h
    (bind_ok (bincode (ser ce props)) (fun data_bytes =>
     bind_ok (transaction (insert_edge_txn t prop_key_bytes data_bytes)) (fun _ =>
     Ret (Ok tt)))).

(** ** /repo/src/sled/remove.rs *)

(** [Id::decode_*_triple(&key[..].try_into().map_err(KeySizeError)?)] (iter.rs:121-125 etc.) *)
Definition decode_key (dec : bytes -> T) (key : bytes) : result err T :=
  match try_into_array (3 * width k) key with
  | Some a => Ok (dec a)
  | None => Err KeySizeError
  end.

(** The four batches, as lists of keys to remove: spo, pos, osp, edge_props. *)
Record batches : Type := Batches { b_spo : list bytes; b_pos : list bytes; b_osp : list bytes; b_edge : list bytes }.

(** The closure at remove.rs:30-51: [kv] is an entry of spo_data. *)
Definition forward_entry (kv : bytes * bytes) (b : batches) : PR batches :=
  next (bind_ok (Ret (decode_key decode_spo (fst kv))) (fun t =>
    Ret (Ok (Batches (b_spo b ++ [fst kv]) (b_pos b ++ [encode_pos t])
                     (b_osp b ++ [encode_osp t]) (b_edge b ++ [snd kv]))))).

(** The closure at remove.rs:65-86: [kv] is an entry of osp_data. *)
Definition backward_entry (kv : bytes * bytes) (b : batches) : PR batches :=
  next (bind_ok (Ret (decode_key decode_osp (fst kv))) (fun t =>
    Ret (Ok (Batches (b_spo b ++ [encode_spo t]) (b_pos b ++ [encode_pos t])
                     (b_osp b ++ [fst kv]) (b_edge b ++ [snd kv]))))).

(** remove.rs:89-115 *)
Definition remove_node_txn (node : I) (f b : batches) : txn unit :=
  t_bind (t_remove TNode (to_be_bytes node)) (fun _ =>
  t_bind (t_apply_removals TEdge (b_edge f)) (fun _ =>
  t_bind (t_apply_removals TEdge (b_edge b)) (fun _ =>
  t_bind (t_apply_removals TSpo (b_spo f)) (fun _ =>
  t_bind (t_apply_removals TSpo (b_spo b)) (fun _ =>
  t_bind (t_apply_removals TPos (b_pos f)) (fun _ =>
  t_bind (t_apply_removals TPos (b_pos b)) (fun _ =>
  t_bind (t_apply_removals TOsp (b_osp f)) (fun _ =>
  t_bind (t_apply_removals TOsp (b_osp b)) (fun _ =>
  t_ret tt))))))))).

(** remove.rs:18-122 *)
Definition s_remove_node (node : I) : PR unit :=
  bind_ok (Look (fun d => for_ok forward_entry (brange (key_bounds_1 node) (t_spo d)) (Batches [] [] [] []))) (fun f =>
  bind_ok (Look (fun d => for_ok backward_entry (brange (key_bounds_1 node) (t_osp d)) (Batches [] [] [] []))) (fun b =>
  bind_ok (transaction (remove_node_txn node f b)) (fun _ =>
  Ret (Ok tt)))).

(** remove.rs:135-143 *)
Definition remove_edge_txn (t : T) : txn unit :=
  t_bind (t_remove TSpo (encode_spo t)) (fun edge_props_id =>
  t_bind (t_remove TPos (encode_pos t)) (fun _ =>
  t_bind (t_remove TOsp (encode_osp t)) (fun _ =>
  match edge_props_id with
  | Some id => t_bind (t_remove TEdge id) (fun _ => t_ret tt)
  | None => t_ret tt
  end))).

(** remove.rs:124-169; after the transaction the edge is removed a second time, outside of
    any transaction (152-166). *)
Definition s_remove_edge (t : T) : PR unit :=
  bind_ok (transaction (remove_edge_txn t)) (fun _ =>
  bind_ok (tree_remove TSpo (encode_spo t)) (fun edge_data_id =>
  bind_ok (tree_remove TPos (encode_pos t)) (fun _ =>
  bind_ok (tree_remove TOsp (encode_osp t)) (fun _ =>
  match edge_data_id with
  | Some id => bind_ok (tree_remove TEdge id) (fun _ => Ret (Ok tt))
  | None => Ret (Ok tt)
  end)))).

(** ** /repo/src/sled/merge.rs *)
Section Merge.
Context (merge_n : NP -> NP -> NP) (merge_e : EP -> EP -> EP).

(** merge.rs:42-75 *)
Definition merge_node_txn (key_bytes : bytes) (props : NP) : txn unit :=
  t_bind (t_get TNode key_bytes) (fun old =>
  match old with
  | None =>
      t_bind (t_bincode (ser cn props)) (fun b =>
      t_bind (t_insert TNode key_bytes b) (fun _ => t_ret tt))
  | Some existing_value =>
      t_bind (t_bincode (de cn existing_value)) (fun old_props =>
      t_bind (t_bincode (ser cn (merge_n old_props props))) (fun b =>
      t_bind (t_insert TNode key_bytes b) (fun _ => t_ret tt)))
  end).

(** merge.rs:38-83 *)
Definition s_merge_node (node : I) (props : NP) : PR unit :=
  bind_ok (transaction (merge_node_txn (to_be_bytes node) props)) (fun _ => Ret (Ok tt)).

(** merge.rs:97-150 *)
Definition merge_edge_txn (t : T) (new_id : bytes) (props : EP) : txn unit :=
  let put := fun props : EP =>
    t_bind (t_bincode (ser ce props)) (fun b =>
    t_bind (t_insert TEdge new_id b) (fun _ => t_ret tt)) in
  t_bind (t_insert TSpo (encode_spo t) new_id) (fun old_edge_props_id =>
  t_bind (t_insert TPos (encode_pos t) new_id) (fun _ =>
  t_bind (t_insert TOsp (encode_osp t) new_id) (fun _ =>
  match old_edge_props_id with
  | None => put props
  | Some old_id =>
      t_bind (t_remove TEdge old_id) (fun old_value =>
      match old_value with
      | None => put props
      | Some v =>
          t_bind (t_bincode (de ce v)) (fun old_props => put (merge_e old_props props))
      end)
  end))).

(** merge.rs:85-160 *)
Definition s_merge_edge (t : T) (props : EP) (h : handle) : P (result err unit * handle) :=
  let (new_id, h) := draw h in
  and_handle h
    (bind_ok (transaction (merge_edge_txn t (to_be_bytes new_id) props)) (fun _ => Ret (Ok tt))).

(** [for r in items { let x = r.map_err(Right)?; body(x).map_err(Left)?; }] *)
Fixpoint for_source {A E} (body : A -> handle -> P (result err unit * handle))
    (l : list (result E A)) (h : handle) : P (result (lr_error err E) unit * handle) :=
  match l with
  | [] => Ret (Ok tt, h)
  | Err e :: _ => Ret (Err (RightE e), h)
  | Ok a :: l' =>
      bind (body a h) (fun rh =>
        match fst rh with
        | Err e => Ret (Err (LeftE e), snd rh)
        | Ok _ => for_source body l' (snd rh)
        end)
  end.

(** The two loops over the nodes and then the edges of a consumed store. *)
Definition for_nodes_edges {E} (fn : I * NP -> handle -> P (result err unit * handle))
    (fe : T * EP -> handle -> P (result err unit * handle))
    (other : source k NP EP E) (h : handle) : P (result (lr_error err E) unit * handle) :=
  bind (for_source fn (src_nodes other) h) (fun rh =>
    match fst rh with
    | Err e => Ret (Err e, snd rh)
    | Ok _ => for_source fe (src_edges other) (snd rh)
    end).

(** merge.rs:18-36 *)
Definition s_merge {E} (other : source k NP EP E) (h : handle)
    : P (result (lr_error err E) unit * handle) :=
  for_nodes_edges (fun ip h => and_handle h (s_merge_node (fst ip) (snd ip)))
                  (fun te h => s_merge_edge (fst te) (snd te) h) other h.

End Merge.

(** ** /repo/src/sled/extend.rs *)

(** The body of the node loop, extend.rs:26-30 *)
Definition s_extend_node (id : I) (data : NP) : PR unit :=
  bind_ok (bincode (ser cn data)) (fun data =>
  bind_ok (tree_insert TNode (to_be_bytes id) data) (fun _ => Ret (Ok tt))).

(** The body of the edge loop, extend.rs:34-62: five separate storage calls. *)
Definition s_extend_edge (t : T) (props : EP) (h : handle) : P (result err unit * handle) :=
  let (ulid, h) := draw_ulid h in
  let id := to_be_bytes ulid in
  and_handle h
    (bind_ok (bincode (ser ce props)) (fun data =>
     bind_ok (tree_insert TEdge id data) (fun _ =>
     bind_ok (tree_insert TSpo (encode_spo t) id) (fun old_edge_props_id =>
     bind_ok (tree_insert TPos (encode_pos t) id) (fun _ =>
     bind_ok (tree_insert TOsp (encode_osp t) id) (fun _ =>
     match old_edge_props_id with
     | Some old => bind_ok (tree_remove TEdge old) (fun _ => Ret (Ok tt))
     | None => Ret (Ok tt)
     end)))))).

(** extend.rs:19-65 *)
Definition s_extend {E} (other : source k NP EP E) (h : handle)
    : P (result (lr_error err E) unit * handle) :=
  for_nodes_edges (fun ip h => and_handle h (s_extend_node (fst ip) (snd ip)))
                  (fun te h => s_extend_edge (fst te) (snd te) h) other h.

(** ** /repo/src/sled/iter.rs *)

(** iter.rs:10-12 *)
Definition decode_id (id : bytes) : result err I :=
  match try_from_be_bytes id with Some i => Ok i | None => Err KeySizeError end.

(** [option.map(deserialize).transpose()] *)
Definition opt_de {A} (c : codec BE A) (o : option bytes) : PR (option A) :=
  match o with
  | None => Ret (Ok None)
  | Some data => bind_ok (bincode (de c data)) (fun a => Ret (Ok (Some a)))
  end.

(** iter.rs:20-35 *)
Definition get_node_data_by_id (id : I) : PR (option NP) :=
  bind_ok (tree_get TNode (to_be_bytes id)) (opt_de cn).

(** iter.rs:37-48 *)
Definition get_edge_data_internal (id : bytes) : PR (option EP) :=
  bind_ok (tree_get TEdge id) (opt_de ce).

(** iter.rs:50-67 *)
Definition s_iter_impl (t : T) (v : bytes) : PR (props_triple I NP EP) :=
  bind_ok (get_node_data_by_id (sub t)) (fun sub_props =>
  bind_ok (get_edge_data_internal v) (fun prod_props =>
  bind_ok (get_node_data_by_id (obj t)) (fun obj_props =>
  match sub_props, prod_props, obj_props with
  | Some s, Some p, Some o => Ret (Ok (PropsTriple (sub t, s) (pred t, p) (obj t, o)))
  | _, _, _ => Ret (Err MissingPropertyData)
  end))).

(** iter.rs:75-87: the first error, if any *)
Definition s_vertices : PR (list I) :=
  bind (scan t_node (fun kv => Ret (decode_id (fst kv)))) (fun rs =>
  Ret (collect_result (fun r => r) rs)).

(** iter.rs:99-111 *)
Definition s_iter_vertices : P (list (result err (I * NP))) :=
  scan t_node (fun kv =>
    bind_ok (Ret (decode_id (fst kv))) (fun i =>
    bind_ok (bincode (de cn (snd kv))) (fun v => Ret (Ok (i, v))))).

(** iter.rs:113-160 *)
Definition s_iter_edges_with_props (o : edge_order) : P (list (result err (props_triple I NP EP))) :=
  match o with
  | SPO => scan t_spo (fun kv =>
      bind_ok (Ret (decode_key decode_spo (fst kv))) (fun t => s_iter_impl t (snd kv)))
  | POS => scan t_pos (fun kv =>
      bind_ok (Ret (decode_key decode_pos (fst kv))) (fun t => s_iter_impl t (snd kv)))
  | OSP => scan t_osp (fun kv =>
      bind_ok (Ret (decode_key decode_osp (fst kv))) (fun t => s_iter_impl t (snd kv)))
  end.

(** iter.rs:207-216 *)
Definition edge_item (t : T) (v : bytes) : PR (T * EP) :=
  bind_ok (get_edge_data_internal v) (fun pred_data =>
  match pred_data with
  | Some p => Ret (Ok (t, p))
  | None => Ret (Err MissingPropertyData)
  end).

(** iter.rs:162-217 *)
Definition s_iter_edges (o : edge_order) : P (list (result err (T * EP))) :=
  match o with
  | SPO => scan t_spo (fun kv =>
      bind_ok (Ret (decode_key decode_spo (fst kv))) (fun t => edge_item t (snd kv)))
  | POS => scan t_pos (fun kv =>
      bind_ok (Ret (decode_key decode_pos (fst kv))) (fun t => edge_item t (snd kv)))
  | OSP => scan t_osp (fun kv =>
      bind_ok (Ret (decode_key decode_osp (fst kv))) (fun t => edge_item t (snd kv)))
  end.

(** iter.rs:89-97; the two iterators are run one after the other here. *)
Definition s_iter_nodes (o : edge_order)
    : P (list (result err (I * NP)) * list (result err (T * EP))) :=
  bind s_iter_vertices (fun ns => bind (s_iter_edges o) (fun es => Ret (ns, es))).

(** iter.rs:226-301; node_iter at 233-241, edges at 243-279, edge_iter at 281-299 *)
Definition s_into_iter_nodes (o : edge_order)
    : P (list (result err (I * NP)) * list (result err (T * EP))) :=
  let node_iter := scan t_node (fun kv =>
    bind_ok (Ret (decode_id (fst kv))) (fun i =>
    bind_ok (bincode (de cn (snd kv))) (fun v => Ret (Ok (i, v))))) in
  let item := fun t v =>
    bind_ok (tree_get TEdge v) (fun data =>
    bind_ok (opt_de ce data) (fun pred_data =>
    match pred_data with
    | Some p => Ret (Ok (t, p))
    | None => Ret (Err MissingPropertyData)
    end)) in
  let edge_iter :=
    match o with
    | SPO => scan t_spo (fun kv =>
        bind_ok (Ret (decode_key decode_spo (fst kv))) (fun t => item t (snd kv)))
    | POS => scan t_pos (fun kv =>
        bind_ok (Ret (decode_key decode_pos (fst kv))) (fun t => item t (snd kv)))
    | OSP => scan t_osp (fun kv =>
        bind_ok (Ret (decode_key decode_osp (fst kv))) (fun t => item t (snd kv)))
    end in
  bind node_iter (fun ns => bind edge_iter (fun es => Ret (ns, es))).

(** iter.rs:303-313 *)
Definition s_into_iter_vertices : P (list (result err (I * NP))) :=
  scan t_node (fun kv =>
    bind_ok (Ret (decode_id (fst kv))) (fun i =>
    bind_ok (bincode (de cn (snd kv))) (fun v => Ret (Ok (i, v))))).

(** iter.rs:315-360 *)
Definition s_into_iter_edges_with_props (o : edge_order) : P (list (result err (props_triple I NP EP))) :=
  match o with
  | SPO => scan t_spo (fun kv =>
      bind_ok (Ret (decode_key decode_spo (fst kv))) (fun t => s_iter_impl t (snd kv)))
  | POS => scan t_pos (fun kv =>
      bind_ok (Ret (decode_key decode_pos (fst kv))) (fun t => s_iter_impl t (snd kv)))
  | OSP => scan t_osp (fun kv =>
      bind_ok (Ret (decode_key decode_osp (fst kv))) (fun t => s_iter_impl t (snd kv)))
  end.

(** iter.rs:362-417 *)
Definition s_into_iter_edges (o : edge_order) : P (list (result err (T * EP))) :=
  match o with
  | SPO => scan t_spo (fun kv =>
      bind_ok (Ret (decode_key decode_spo (fst kv))) (fun t => edge_item t (snd kv)))
  | POS => scan t_pos (fun kv =>
      bind_ok (Ret (decode_key decode_pos (fst kv))) (fun t => edge_item t (snd kv)))
  | OSP => scan t_osp (fun kv =>
      bind_ok (Ret (decode_key decode_osp (fst kv))) (fun t => edge_item t (snd kv)))
  end.

(** ** /repo/src/sled/query.rs *)

(** The body of the range loops, query.rs:81-101 and the like: an entry whose property
    record is missing is skipped before its key is looked at. *)
Definition query_entry (dec : bytes -> T) (kv : bytes * bytes) (r : mem k NP EP) : PR (mem k NP EP) :=
  next (bind_ok (tree_get TEdge (snd kv)) (fun data =>
    match data with
    | None => Ret (Ok r)
    | Some data =>
        bind_ok (Ret (decode_key dec (fst kv))) (fun t =>
        bind_ok (bincode (de ce data)) (fun e =>
        Ret (Ok (insert_edge t e r))))
    end)).

(** [for r in self.tree.range(bounds) { ... }] *)
Definition query_range (dec : bytes -> T) (tr : db -> tree) (b : bytes * bytes) (r : mem k NP EP)
    : PR (mem k NP EP) :=
  Look (fun d => for_ok (query_entry dec) (brange b (tr d)) r).

(** query.rs:24-49 *)
Definition query_node (node : I) (r : mem k NP EP) : PR (mem k NP EP) :=
  bind_ok (tree_get TNode (to_be_bytes node)) (fun data =>
    match data with
    | None => Ret (Ok r)
    | Some data => bind_ok (bincode (de cn data)) (fun p => Ret (Ok (insert_node node p r)))
    end).

(** query.rs:51-77 *)
Definition query_spo (spo : I * I * I) (r : mem k NP EP) : PR (mem k NP EP) :=
  let '(s, p, o) := spo in
  let t := Triple s p o in
  bind_ok (tree_get TSpo (encode_spo t)) (fun data_id =>
    match data_id with
    | None => Ret (Ok r)
    | Some id =>
        bind_ok (tree_get TEdge id) (fun data =>
          match data with
          | None => Ret (Ok r)
          | Some data => bind_ok (bincode (de ce data)) (fun e => Ret (Ok (insert_edge t e r)))
          end)
    end).

(** query.rs:19-251.  [g] is [self.id_generator.clone()].  The errors are the Left ones of
    QueryError; MemTripleStore produces none. *)
Definition s_run (g : gen k) (q : query I) : PR (mem k NP EP) :=
  match q with
  | QNodeProps nodes => for_ok query_node nodes (mem_new g)
  | QSPO triples => for_ok query_spo triples (mem_new g)
  | QS items =>
      for_ok (fun s => query_range decode_spo t_spo (key_bounds_1 s)) items (mem_new g)
  | QSP items =>
      for_ok (fun sp => query_range decode_spo t_spo (key_bounds_2 (fst sp) (snd sp))) items (mem_new g)
  | QSO items =>
      for_ok (fun so => query_range decode_osp t_osp (key_bounds_2 (snd so) (fst so))) items (mem_new g)
  | QP items =>
      for_ok (fun p => query_range decode_pos t_pos (key_bounds_1 p)) items (mem_new g)
  | QPO items =>
      for_ok (fun po => query_range decode_pos t_pos (key_bounds_2 (fst po) (snd po))) items (mem_new g)
  | QO items =>
      for_ok (fun o => query_range decode_osp t_osp (key_bounds_1 o)) items (mem_new g)
  end.

End Sled.
Arguments handle k : clear implicits.
