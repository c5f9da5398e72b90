(** extend and merge of an RdfTripleStore over sled by one on another database
    (/repo/src/rdf/extend.rs, /repo/src/rdf/merge.rs), when others are using the names and the graphs of
    both.  No proofs here.

    The two databases are as in SledTwo.v.  An item is read from the first one as in RdfSledCopy.v; what is done
    with it are the storage steps of RdfSled.v on the second one, with those of the others in between. *)
From Coq Require Import NArith List Bool Sorted.
From Verif Require Import Bytes OMap Core IdType Store Prog Mem MemIndex Spec Sled SledHistory SledLeaf SledLazy SledBeside SledTables SledIndex
  Rdf RdfSpec RdfSled RdfSledSpec RdfSledLeaf SledTwo.
Import ListNotations.

Section Copy.
Context {S NP EP SE BE : Type}.
Context (cs : codec BE S) (cu : codec BE (Id KUlid)) (cn : codec BE NP) (ce : codec BE EP).
Notation ent := (entity S).
Notation err := (rdf_error S (sled_index_error S (Id KUlid) SE BE) (sled_error SE BE)).

Section Writing.
Context {BE' : Type} (cs' : codec BE' S) (cu' : codec BE' (Id KUlid)) (cn' : codec BE' NP) (ce' : codec BE' EP).
Notation err' := (rdf_error S (sled_index_error S (Id KUlid) SE BE') (sled_error SE BE')).
Notation answer := (prog (rdb * rdb) SE (result (lr_error err' err) unit * rhandle)).
Definition r_over_both (fn : ent * NP -> rhandle -> prog rdb SE (result err' unit * rhandle))
    (fe : triple ent * EP -> rhandle -> prog rdb SE (result err' unit * rhandle)) : list bytes -> list bytes -> rhandle -> answer :=
  over_both (fun d => t_node (r_trees d)) (fun d => t_spo (r_trees d))
    (shown_item (node_item cn) (rs_show_pair cs cu)) (shown_item (into_edge_of_entry ce SPO) (rs_show_edge cs cu)) fn fe.
(** extend.rs:16-37 *)
Definition rs_extend_both : list bytes -> list bytes -> rhandle -> answer :=
  r_over_both (fun ip => rs_insert_node cs' cu' cn' (fst ip) (snd ip)) (fun te => rs_insert_edge cs' cu' ce' (fst te) (snd te)).
(** merge.rs:16-37 *)
Definition rs_merge_both (mn : NP -> NP -> NP) (me : EP -> EP -> EP) : list bytes -> list bytes -> rhandle -> answer :=
  r_over_both (fun ip => rs_merge_node cs' cu' cn' mn (fst ip) (snd ip)) (fun te => rs_merge_edge cs' cu' ce' me (fst te) (snd te)).
End Writing.

(** What is handed over, read next to the callers [ts].  [seen]: the first database at some moment; [last]: at the end;
    [met]: the failures that were met. *)
Section Handed.
Context {E : Type} (seen : rdb -> Prop) (last : rdb) (met : SE -> Prop) (ts : list (rhandle * list (rop S NP EP E))).
Notation names := (id_now (SE := SE) cs cu last).

(** As in RdfSledCopy.v: vertices and edges that were listed at some moment, under what they were called at
    that moment or later; under the names of the end in the order of the identifiers, none twice; errors that
    say so. *)
Definition r_handed2 (s : rdf_source S NP EP err) : Prop :=
  (forall e p, In (Ok (e, p)) (rs_nodes s) -> exists i d1, seen d1 /\
     r_lists_node SE cs cu cn d1 (shown (id_now (SE := SE) cs cu d1) i) p /\ called SE cs cu (knowing SE cs cu seen d1) i e) /\
  (forall t p, In (Ok (t, p)) (rs_edges s) -> exists u d1, seen d1 /\
     r_lists_edge SE cs cu ce SPO d1 (triple_map (shown (id_now (SE := SE) cs cu d1)) u) p /\
     called3 SE cs cu (knowing SE cs cu seen d1) u t) /\
  StronglySorted (behind_lt names) (map (fun ep => by_name names (fst ep)) (ok_items (rs_nodes s))) /\
  StronglySorted (behind_edge_lt names SPO) (map (fun tp => triple_map (by_name names) (fst tp)) (ok_items (rs_edges s))) /\
  (forall x, In (Err x) (rs_nodes s) -> is_fault met x) /\
  (forall x, In (Err x) (rs_edges s) -> is_fault met x \/
     (x = GraphStorageError MissingPropertyData /\ exists u, r_rewritten (r_denotes SE cs cu last) ts u)).

(** Nothing that was there all the time is left out. *)
Definition r_complete2 (s : rdf_source S NP EP err) : Prop :=
  (forall e, (forall d1, seen d1 -> exists e1 p, by_name names e1 = by_name names e /\ r_lists_node SE cs cu cn d1 e1 p) ->
     In (by_name names e) (map (fun ep => by_name names (fst ep)) (ok_items (rs_nodes s)))) /\
  (forall t, (forall d1, seen d1 -> exists t1 p, triple_map (by_name names) t1 = triple_map (by_name names) t /\
        r_lists_edge SE cs cu ce SPO d1 t1 p) ->
     In (triple_map (by_name names) t) (map (fun tp => triple_map (by_name names) (fst tp)) (ok_items (rs_edges s)))).
End Handed.
End Copy.
