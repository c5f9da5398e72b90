(** extend and merge of a sled store by a handle of the same database (/repo/src/sled/extend.rs:19-65,
    /repo/src/sled/merge.rs:18-36), as in SledLazy.v, when others are using that database.
    No proofs here. *)
From Coq Require Import NArith List.
From Verif Require Import Bytes Core IdType Store Prog Mem Spec History Sled SledHistory.
Import ListNotations.

(** The property record keys drawn through a handle, from [h] until it is [h']. *)
Definition drawn_keys {k} (h h' : handle k) : list bytes :=
  map to_be_bytes (next_ids (h_gen h) (g_pos (h_gen h') - g_pos (h_gen h))) ++
  map to_be_bytes (next_ids (h_ulid h) (g_pos (h_ulid h') - g_pos (h_ulid h))).
