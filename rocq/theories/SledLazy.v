(** /repo/src/sled/extend.rs and merge.rs when the consumed store is a handle on the same
    sled::Db.  No proofs here.

    into_iter_nodes (iter.rs:226-301) returns iterators that read as they are asked, so what the
    loop writes may be seen by its own iterator.  As in SledLeaf.v the iterator holds a copy of
    one leaf: [cuts] are the ends of the leaves it meets, each leaf is read when the iterator
    gets there, and the property record of an edge is looked up when the edge is delivered.
    Sled.v and SledLeaf.v have the case where all of the source is read before the loop starts. *)
From Coq Require Import NArith List Bool.
From Verif Require Import Bytes OMap Core IdType Store Prog Mem History Sled SledHistory SledLeaf.
Import ListNotations.

Section Loops.
Context {D SE H EL ER A : Type}.
Notation P A := (prog D SE A).
Notation answer := (P (result (lr_error EL ER) unit * H)).

(** [for r in items { let x = r.map_err(Right)?; body(x).map_err(Left)?; }] over one leaf, and
    then what comes after it. *)
Fixpoint leaf_loop (item : bytes * bytes -> P (result ER A)) (body : A -> H -> P (result EL unit * H))
    (rest : H -> answer) (kvs : list (bytes * bytes)) (h : H) : answer :=
  match kvs with
  | [] => rest h
  | kv :: kvs' =>
      bind (item kv) (fun r =>
      match r with
      | Err e => Ret (Err (RightE e), h)
      | Ok a =>
          bind (body a h) (fun rh =>
          match fst rh with
          | Err e => Ret (Err (LeftE e), snd rh)
          | Ok _ => leaf_loop item body rest kvs' (snd rh)
          end)
      end)
  end.

(** Leaf by leaf, from [lo] on. *)
Fixpoint loop_from (entries : D -> list (bytes * bytes)) (item : bytes * bytes -> P (result ER A))
    (body : A -> H -> P (result EL unit * H)) (lo : option bytes) (cuts : list bytes) (h : H) : answer :=
  match cuts with
  | [] => Look (fun d => leaf_loop item body (fun h => Ret (Ok tt, h)) (piece lo None (entries d)) h)
  | c :: cuts' =>
      Look (fun d => leaf_loop item body (loop_from entries item body (Some (later lo c)) cuts')
                       (piece lo (Some c) (entries d)) h)
  end.
End Loops.

Section Lazy.
Context {k : idkind} {NP EP SE BE : Type} (cn : codec BE NP) (ce : codec BE EP).
Notation I := (Id k).
Notation T := (triple (Id k)).
Notation err := (sled_error SE BE).
Notation P A := (prog db SE A).
Notation PR A := (prog db SE (result err A)).
Notation answer := (P (result (lr_error err err) unit * handle k)).

(** node_iter, iter.rs:233-241 *)
Definition node_read (kv : bytes * bytes) : PR (I * NP) :=
  bind_ok (Ret (decode_id (fst kv))) (fun i =>
  bind_ok (bincode (de cn (snd kv))) (fun v => Ret (Ok (i, v)))).

(** edge_iter, iter.rs:243-253 and 281-299, in the SPO order *)
Definition edge_read (kv : bytes * bytes) : PR (T * EP) :=
  bind_ok (Ret (decode_key decode_spo (fst kv))) (fun t =>
  bind_ok (tree_get TEdge (snd kv)) (fun data =>
  bind_ok (opt_de ce data) (fun pred_data =>
  match pred_data with
  | Some p => Ret (Ok (t, p))
  | None => Ret (Err MissingPropertyData)
  end))).

(** The nodes and then the edges: extend.rs:23-62, merge.rs:22-34 *)
Definition loop_both {H EL} (fn : I * NP -> H -> P (result EL unit * H))
    (fe : T * EP -> H -> P (result EL unit * H)) (cuts cuts' : list bytes) (h : H) : P (result (lr_error EL err) unit * H) :=
  bind (loop_from t_node (fun kv => next (node_read kv)) fn None cuts h) (fun rh =>
  match fst rh with
  | Err e => Ret (Err e, snd rh)
  | Ok _ => loop_from t_spo (fun kv => next (edge_read kv)) fe None cuts' (snd rh)
  end).

(** extend.rs:19-65 *)
Definition s_extend_self (cuts cuts' : list bytes) (h : handle k) : answer :=
  loop_both (fun ip h => and_handle h (s_extend_node cn (fst ip) (snd ip)))
            (fun te h => s_extend_edge ce (fst te) (snd te) h) cuts cuts' h.

(** merge.rs:18-36 *)
Definition s_merge_self (mn : NP -> NP -> NP) (me : EP -> EP -> EP) (cuts cuts' : list bytes) (h : handle k) : answer :=
  loop_both (fun ip h => and_handle h (s_merge_node cn mn (fst ip) (snd ip)))
            (fun te h => s_merge_edge ce me (fst te) (snd te) h) cuts cuts' h.

(** A process that extends a handle by another handle of the same database, through [sf_handle],
    and dies after [sf_dies] storage calls unless it is done before. *)
Record self_try := SelfTry {
  sf_handle : handle k;
  sf_cuts : list bytes;
  sf_cuts' : list bytes;
  sf_faults : list (option SE);
  sf_dies : nat
}.

Definition self_tries (l : list self_try) (d : db) : db :=
  fold_left (fun d f =>
    crash (sf_dies f) (s_extend_self (sf_cuts f) (sf_cuts' f) (sf_handle f)) (sf_faults f) d) l d.

(** The property record keys drawn for [n] edges. *)
Definition self_keys (n : nat) (h : handle k) : list bytes := map to_be_bytes (next_ids (h_ulid h) n).

End Lazy.
