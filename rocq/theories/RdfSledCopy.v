(** /repo/src/rdf/extend.rs and /repo/src/rdf/merge.rs when the consumed store is an RdfTripleStore
    over sled whose names and graph others are using, and the store that is written is somewhere
    else.  No proofs here.

    As in SledCopy.v what is done with an item is invisible to the others, so it is one function on
    the state of the store that is written.  An item is read, its identifiers are looked up in the
    names (/repo/src/rdf/iter.rs:98-127), and then it is written; the leaf is read before, the next
    leaf afterwards. *)
From Coq Require Import NArith List Bool Sorted.
From Verif Require Import Bytes OMap Core IdType Store Prog Mem MemIndex Spec Sled SledHistory SledLeaf SledLazy SledBeside SledTables SledIndex
  Rdf RdfSpec RdfSled RdfSledSpec RdfSledLeaf SledCopy.
Import ListNotations.

Section Copy.
Context {S NP EP SE BE : Type}.
Context (cs : codec BE S) (cu : codec BE (Id KUlid)) (cn : codec BE NP) (ce : codec BE EP).
Notation ent := (entity S).
Notation err := (rdf_error S (sled_index_error S (Id KUlid) SE BE) (sled_error SE BE)).
Notation P A := (prog rdb SE A).

(** The nodes and then the edges: extend.rs:20-36, merge.rs:20-36 *)
Definition rs_take_over {H EL} (fn : ent * NP -> H -> result EL unit * H) (fe : triple ent * EP -> H -> result EL unit * H)
    (cuts cuts' : list bytes) (h : H) : P (result (lr_error EL err) unit * H) :=
  bind (loop_from (fun d => t_node (r_trees d)) (shown_item (node_item cn) (rs_show_pair cs cu))
          (fun ip h => Ret (fn ip h)) None cuts h) (fun rh =>
  match fst rh with
  | Err e => Ret (Err e, snd rh)
  | Ok _ => loop_from (fun d => t_spo (r_trees d)) (shown_item (into_edge_of_entry ce SPO) (rs_show_edge cs cu))
              (fun te h => Ret (fe te h)) None cuts' (snd rh)
  end).

(** Into a store in memory. *)
Section Mem.
Context (seqb : S -> S -> bool).
Notation M := (rdf S NP EP).
Notation merr := (rdf_error S (index_error S (Id KUlid)) unit).
(** extend.rs:16-37 *)
Definition m_rextend_live : list bytes -> list bytes -> M -> P (result (lr_error merr err) unit * M) :=
  rs_take_over (fun ip => rdf_insert_node seqb (fst ip) (snd ip)) (fun te => rdf_insert_edge seqb (fst te) (snd te)).
(** merge.rs:16-37 *)
Definition m_rmerge_live (mn : NP -> NP -> NP) (me : EP -> EP -> EP) : list bytes -> list bytes -> M -> P (result (lr_error merr err) unit * M) :=
  rs_take_over (fun ip => rdf_merge_node seqb mn (fst ip) (snd ip)) (fun te => rdf_merge_edge seqb me (fst te) (snd te)).
End Mem.

(** Into a store over sled in another database, with the failures to come there. *)
Section Sled.
Context {SE' BE' : Type} (cs' : codec BE' S) (cu' : codec BE' (Id KUlid)) (cn' : codec BE' NP) (ce' : codec BE' EP).
Notation err' := (rdf_error S (sled_index_error S (Id KUlid) SE' BE') (sled_error SE' BE')).
Notation other := (rhandle * rdb * list (option SE'))%type.

Definition r_elsewhere (p : rhandle -> prog rdb SE' (result err' unit * rhandle)) (x : other) : result err' unit * other :=
  let '(h, d, fs) := x in
  match exec (p h) fs d with (r, h', d', fs') => (r, (h', d', fs')) end.
(** extend.rs:16-37 *)
Definition s_rextend_live : list bytes -> list bytes -> other -> P (result (lr_error err' err) unit * other) :=
  rs_take_over (fun ip => r_elsewhere (rs_insert_node cs' cu' cn' (fst ip) (snd ip)))
               (fun te => r_elsewhere (rs_insert_edge cs' cu' ce' (fst te) (snd te))).
(** merge.rs:16-37 *)
Definition s_rmerge_live (mn : NP -> NP -> NP) (me : EP -> EP -> EP) : list bytes -> list bytes -> other -> P (result (lr_error err' err) unit * other) :=
  rs_take_over (fun ip => r_elsewhere (rs_merge_node cs' cu' cn' mn (fst ip) (snd ip)))
               (fun te => r_elsewhere (rs_merge_edge cs' cu' ce' me (fst te) (snd te))).
End Sled.

(** The loops over a source that is fixed before. *)
Definition r_feed_both {H EL ER} (fn : ent * NP -> H -> result EL unit * H) (fe : triple ent * EP -> H -> result EL unit * H)
    (s : rdf_source S NP EP ER) (h : H) : result (lr_error EL ER) unit * H :=
  match feed fn (rs_nodes s) h with
  | (Err e, h) => (Err e, h)
  | (Ok _, h) => feed fe (rs_edges s) h
  end.

(** What is handed over, read next to the callers [ts]. *)
Section Handed.
Context {X E : Type} (schedule : list (nat * option SE)) (ps : list (prog rdb SE X)) (d : rdb) (ts : list (rhandle * list (rop S NP EP E))).
Notation seen := (during schedule ps d).
Notation last := (snd (interleave schedule ps d)).
Notation names := (id_now (SE := SE) cs cu last).

(** Vertices and edges that were listed at some moment, under what they were called at that moment or
    later; under the names of the end in the order of the identifiers, none twice; errors that say so. *)
Definition r_handed (s : rdf_source S NP EP err) : Prop :=
  (forall e p, In (Ok (e, p)) (rs_nodes s) -> exists i d1, seen d1 /\
     r_lists_node SE cs cu cn d1 (shown (id_now (SE := SE) cs cu d1) i) p /\ called SE cs cu (knowing SE cs cu seen d1) i e) /\
  (forall t p, In (Ok (t, p)) (rs_edges s) -> exists u d1, seen d1 /\
     r_lists_edge SE cs cu ce SPO d1 (triple_map (shown (id_now (SE := SE) cs cu d1)) u) p /\
     called3 SE cs cu (knowing SE cs cu seen d1) u t) /\
  StronglySorted (behind_lt names) (map (fun ep => by_name names (fst ep)) (ok_items (rs_nodes s))) /\
  StronglySorted (behind_edge_lt names SPO) (map (fun tp => triple_map (by_name names) (fst tp)) (ok_items (rs_edges s))) /\
  (forall x, In (Err x) (rs_nodes s) -> is_fault (met schedule) x) /\
  (forall x, In (Err x) (rs_edges s) -> is_fault (met schedule) x \/
     (x = GraphStorageError MissingPropertyData /\ exists u, r_rewritten (r_denotes SE cs cu last) ts u)).

(** Nothing that was there all the time is left out. *)
Definition r_complete (s : rdf_source S NP EP err) : Prop :=
  (forall e, (forall d1, seen d1 -> exists e1 p, by_name names e1 = by_name names e /\ r_lists_node SE cs cu cn d1 e1 p) ->
     In (by_name names e) (map (fun ep => by_name names (fst ep)) (ok_items (rs_nodes s)))) /\
  (forall t, (forall d1, seen d1 -> exists t1 p, triple_map (by_name names) t1 = triple_map (by_name names) t /\
        r_lists_edge SE cs cu ce SPO d1 t1 p) ->
     In (triple_map (by_name names) t) (map (fun tp => triple_map (by_name names) (fst tp)) (ok_items (rs_edges s)))).
End Handed.
End Copy.
