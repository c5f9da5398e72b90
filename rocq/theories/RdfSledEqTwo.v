(** TripleStore::try_eq (/repo/src/traits/triplestore.rs:43-86) of two RdfTripleStores over sled on two databases,
    when others are using the names and the graphs of both.  No proofs here.

    The loops are those of SledEqTwo.v; the items are read as in RdfSledEqLive.v, names and all
    (/repo/src/rdf/iter.rs:28-51). *)
From Coq Require Import NArith List Bool Sorted.
From Verif Require Import Bytes OMap Core IdType Store Prog Mem MemIndex Spec Sled SledHistory SledLeaf SledLazy SledBeside SledTables SledIndex
  Rdf RdfSpec RdfSled RdfSledSpec RdfSledLeaf SledTwo RdfSledTwo SledEqTwo.
Import ListNotations.

Section EqTwo.
Context {S NP EP SE BE BE' : Type} (seqb : S -> S -> bool) (neqb : NP -> NP -> bool) (eeqb : EP -> EP -> bool).
Context (cs : codec BE S) (cu : codec BE (Id KUlid)) (cn : codec BE NP) (ce : codec BE EP).
Context (cs' : codec BE' S) (cu' : codec BE' (Id KUlid)) (cn' : codec BE' NP) (ce' : codec BE' EP).
Notation err := (rdf_error S (sled_index_error S (Id KUlid) SE BE) (sled_error SE BE)).
Notation err' := (rdf_error S (sled_index_error S (Id KUlid) SE BE') (sled_error SE BE')).

(** [cuts], [ecuts]: the ends of the leaves of [self], [cuts'], [ecuts'] of [other]. *)
Definition req_both (cuts ecuts cuts' ecuts' : list bytes) : prog (rdb * rdb) SE (result (lr_error err err') bool) :=
  bind (zip_both (pair_eqb (entity_eqb seqb) neqb)
          (fun d => t_node (r_trees d)) (shown_item (node_item cn) (rs_show_pair cs cu))
          (fun d => t_node (r_trees d)) (shown_item (node_item cn') (rs_show_pair cs' cu')) cuts cuts') (fun r =>
  match r with
  | Ok true =>
      zip_both (pair_eqb (triple_eqb (entity_eqb seqb)) eeqb)
        (fun d => t_spo (r_trees d)) (shown_item (edge_of_entry ce SPO) (rs_show_edge cs cu))
        (fun d => t_spo (r_trees d)) (shown_item (edge_of_entry ce' SPO) (rs_show_edge cs' cu')) ecuts ecuts'
  | _ => Ret r
  end).
End EqTwo.

(** The two halves of [r_complete2]: nothing that was there all the time is left out. *)
Section All.
Context {S NP EP SE BE : Type} (cs : codec BE S) (cu : codec BE (Id KUlid)) (cn : codec BE NP) (ce : codec BE EP).
Context (seen : rdb -> Prop) (last : rdb).
Notation err := (rdf_error S (sled_index_error S (Id KUlid) SE BE) (sled_error SE BE)).
Notation names := (id_now (SE := SE) cs cu last).
Definition r_all_nodes2 (xs : list (result err (entity S * NP))) : Prop :=
  forall e, (forall d1, seen d1 -> exists e1 p, by_name names e1 = by_name names e /\ r_lists_node SE cs cu cn d1 e1 p) ->
     In (by_name names e) (map (fun ep => by_name names (fst ep)) (ok_items xs)).
Definition r_all_edges2 (xs : list (result err (triple (entity S) * EP))) : Prop :=
  forall t, (forall d1, seen d1 -> exists t1 p, triple_map (by_name names) t1 = triple_map (by_name names) t /\
        r_lists_edge SE cs cu ce SPO d1 t1 p) ->
     In (triple_map (by_name names) t) (map (fun tp => triple_map (by_name names) (fst tp)) (ok_items xs)).
End All.

(** At some moment [p] was stored under what was called [e] then or later. *)
Section Met.
Context {S NP EP BE : Type} (SE : Type) (cs : codec BE S) (cu : codec BE (Id KUlid)) (cn : codec BE NP) (ce : codec BE EP) (seen : rdb -> Prop).
Definition node_met (e : entity S) (p : NP) : Prop := exists i d1, seen d1 /\
  r_lists_node SE cs cu cn d1 (shown (id_now (SE := SE) cs cu d1) i) p /\ called SE cs cu (knowing SE cs cu seen d1) i e.
Definition edge_met (t : triple (entity S)) (p : EP) : Prop := exists u d1, seen d1 /\
  r_lists_edge SE cs cu ce SPO d1 (triple_map (shown (id_now (SE := SE) cs cu d1)) u) p /\ called3 SE cs cu (knowing SE cs cu seen d1) u t.
(** Stored all the time, going by the names [names]. *)
Context (names : Id KUlid -> option S).
Definition node_stays (e : entity S) : Prop := forall d1, seen d1 -> exists e1 p, by_name names e1 = by_name names e /\ r_lists_node SE cs cu cn d1 e1 p.
Definition edge_stays (t : triple (entity S)) : Prop := forall d1, seen d1 -> exists t1 p,
  triple_map (by_name names) t1 = triple_map (by_name names) t /\ r_lists_edge SE cs cu ce SPO d1 t1 p.
End Met.
