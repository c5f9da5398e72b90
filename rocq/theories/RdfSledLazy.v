(** /repo/src/rdf/extend.rs and merge.rs when the consumed store is another handle on the same
    names and the same graph in sled.  No proofs here.

    As in SledLazy.v the iterators of the graph read leaf by leaf as they are asked, and
    into_iter_nodes (/repo/src/rdf/iter.rs:98-127) looks the identifiers of an item up when it is
    delivered; the item is written back before the next one is asked for.  RdfSled.v has the case
    where all of the source is read before the loop starts. *)
From Coq Require Import NArith List Bool.
From Verif Require Import Bytes OMap Core IdType Store Prog Mem Sled SledHistory SledIndex SledLeaf SledLazy Rdf RdfSpec RdfSled.
Import ListNotations.

Section Lazy.
Context {S NP EP SE BE : Type}.
Context (cs : codec BE S) (cu : codec BE (Id KUlid)) (cn : codec BE NP) (ce : codec BE EP).
Notation ent := (entity S).
Notation err := (rdf_error S (sled_index_error S (Id KUlid) SE BE) (sled_error SE BE)).
Notation PH A := (prog rdb SE (result err A * rhandle)).
Notation answer := (prog rdb SE (result (lr_error err err) unit * rhandle)).

(** The nodes and then the edges: extend.rs:20-36, merge.rs:20-36 *)
Definition rs_loop_both (fn : ent -> NP -> rhandle -> PH unit) (fe : triple ent -> EP -> rhandle -> PH unit)
    (cuts cuts' : list bytes) (h : rhandle) : answer :=
  bind (loop_from (fun d => t_node (r_trees d)) (shown_item (node_item cn) (rs_show_pair cs cu))
          (fun ip => fn (fst ip) (snd ip)) None cuts h) (fun rh =>
  match fst rh with
  | Err e => Ret (Err e, snd rh)
  | Ok _ => loop_from (fun d => t_spo (r_trees d)) (shown_item (into_edge_of_entry ce SPO) (rs_show_edge cs cu))
              (fun te => fe (fst te) (snd te)) None cuts' (snd rh)
  end).

(** extend.rs:16-37 *)
Definition rs_extend_self : list bytes -> list bytes -> rhandle -> answer :=
  rs_loop_both (rs_insert_node cs cu cn) (rs_insert_edge cs cu ce).

(** merge.rs:16-37 *)
Definition rs_merge_self (mn : NP -> NP -> NP) (me : EP -> EP -> EP) : list bytes -> list bytes -> rhandle -> answer :=
  rs_loop_both (rs_merge_node cs cu cn mn) (rs_merge_edge cs cu ce me).

(** A process that extends a handle by another handle of the same database, through [rf_handle],
    and dies after [rf_dies] storage calls unless it is done before. *)
Record rself_try := RSelfTry {
  rf_handle : rhandle;
  rf_cuts : list bytes;
  rf_cuts' : list bytes;
  rf_faults : list (option SE);
  rf_dies : nat
}.

Definition rself_tries (l : list rself_try) (d : rdb) : rdb :=
  fold_left (fun d f =>
    crash (rf_dies f) (rs_extend_self (rf_cuts f) (rf_cuts' f) (rf_handle f)) (rf_faults f) d) l d.

(** The property record keys drawn for [n] edges. *)
Definition rself_keys (n : nat) (h : rhandle) : list bytes := map to_be_bytes (next_ids (h_gen (rh_graph h)) n).

End Lazy.
