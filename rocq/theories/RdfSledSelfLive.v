(** extend and merge of an RdfTripleStore over sled by a handle of the same names and the same graph
    (/repo/src/rdf/extend.rs:16-37, /repo/src/rdf/merge.rs:16-37), as in RdfSledLazy.v, when others are using
    them.  No proofs here. *)
From Coq Require Import NArith List.
From Verif Require Import Bytes Core IdType Store Prog Mem Sled SledHistory Rdf RdfSled.
Import ListNotations.

(** The property record keys drawn through a handle, from [h] until it is [h'], and the next one: when the names of
    an edge cannot be looked up no key is drawn for it. *)
Definition r_drawn_keys (h h' : rhandle) : list bytes :=
  map to_be_bytes (next_ids (h_gen (rh_graph h)) (S (g_pos (h_gen (rh_graph h')) - g_pos (h_gen (rh_graph h))))).
