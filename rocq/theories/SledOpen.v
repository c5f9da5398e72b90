(** Opening a SledTripleStore and a SledHashIndex in one sled::Db: /repo/src/sled.rs:150-178 and
    360-375.  No proofs here.

    A sled::Db is a set of named trees; open_tree gives the tree with the name, a new empty one
    if there is none.  A sled::Tree is a reference to a tree of the database, here its name. *)
From Coq Require Import List String.
From Verif Require Import Bytes OMap Core Prog Sled SledIndex Rdf RdfSled.
Import ListNotations.

Definition sdb : Type := string -> option tree.
Definition sdb_new : sdb := fun _ => None.

(** The contents of a tree; a tree that does not exist is empty. *)
Definition tree_at (r : sdb) (n : string) : tree := match r n with Some t => t | None => om_empty end.
Definition set_tree (n : string) (t : tree) (r : sdb) : sdb := fun m => if String.eqb m n then Some t else r m.

(** sled::Db::open_tree *)
Definition open_tree {SE} (n : string) : prog sdb SE (result SE string) :=
  Act (fun r => set_tree n (tree_at r n) r) (fun _ => Ret (Ok n)) (fun e => Ret (Err e)).

(** The trees of a SledTripleStore (sled.rs:135-147). *)
Record opened : Type := Opened {
  o_node_props : string;
  o_edge_props : string;
  o_spo_data : string;
  o_pos_data : string;
  o_osp_data : string
}.

(** sled.rs:157-178; the generator is left out. *)
Definition open_store {SE BE} : prog sdb SE (result (sled_error SE BE) opened) :=
  let open n := bind (open_tree n) (fun r => Ret (match r with Ok t => Ok t | Err e => Err (SledError e) end)) in
  bind_ok (open "node_data"%string) (fun node_data =>                           (* 161-163 *)
  bind_ok (open "edge_data"%string) (fun edge_data =>                           (* 164 *)
  bind_ok (open "spo_data"%string) (fun spo_data =>                             (* 165 *)
  bind_ok (open "pos_data"%string) (fun pos_data =>                             (* 166 *)
  bind_ok (open "osp_data"%string) (fun osp_data =>                             (* 167 *)
  Ret (Ok (Opened node_data edge_data spo_data pos_data osp_data))))))).        (* 169-177 *)

(** The trees of a SledHashIndex (sled.rs:353-362) and sled.rs:367-374. *)
Record iopened : Type := IOpened { o_left_to_right : string; o_right_to_left : string }.
Definition open_index {SE} : prog sdb SE (result SE iopened) :=
  bind_ok (open_tree "left_to_right"%string) (fun l =>
  bind_ok (open_tree "right_to_left"%string) (fun r => Ret (Ok (IOpened l r)))).

(** What a store, or an index, sees of the database, and what it writes. *)
Definition trees_of (o : opened) (r : sdb) : db :=
  Db (tree_at r (o_node_props o)) (tree_at r (o_edge_props o))
     (tree_at r (o_spo_data o)) (tree_at r (o_pos_data o)) (tree_at r (o_osp_data o)).
Definition put_trees (o : opened) (d : db) (r : sdb) : sdb :=
  set_tree (o_osp_data o) (t_osp d) (set_tree (o_pos_data o) (t_pos d) (set_tree (o_spo_data o) (t_spo d)
    (set_tree (o_edge_props o) (t_edge d) (set_tree (o_node_props o) (t_node d) r)))).
Definition itrees_of (i : iopened) (r : sdb) : idb :=
  IDb (tree_at r (o_left_to_right i)) (tree_at r (o_right_to_left i)).
Definition put_itrees (i : iopened) (d : idb) (r : sdb) : sdb :=
  set_tree (o_right_to_left i) (i_r2l d) (set_tree (o_left_to_right i) (i_l2r d) r).

(** A program of a store, or of an index, run on the database. *)
Section Within.
Context {SE : Type}.
Fixpoint within {D A} (view : sdb -> D) (put : D -> sdb -> sdb) (p : prog D SE A) : prog sdb SE A :=
  match p with
  | Ret a => Ret a
  | Look k => Look (fun r => within view put (k (view r)))
  | Act u k e => Act (fun r => put (u (view r)) r) (fun r => within view put (k (view r))) (fun x => within view put (e x))
  end.
Definition in_store {A} (o : opened) : prog db SE A -> prog sdb SE A := within (trees_of o) (put_trees o).
Definition in_index {A} (i : iopened) : prog idb SE A -> prog sdb SE A := within (itrees_of i) (put_itrees i).
(** An RdfTripleStore over both. *)
Definition rdb_of (o : opened) (i : iopened) (r : sdb) : rdb := RDb (itrees_of i r) (trees_of o r).
Definition in_rdf {A} (o : opened) (i : iopened) : prog rdb SE A -> prog sdb SE A :=
  within (rdb_of o i) (fun d r => put_itrees i (r_names d) (put_trees o (r_trees d) r)).
End Within.
