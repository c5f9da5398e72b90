(** TripleStore::try_eq (/repo/src/traits/triplestore.rs:43-86) of any store of named entities and an
    RdfTripleStore over sled whose names and graph others are using.  No proofs here.

    The iterators of iter_nodes (/repo/src/rdf/iter.rs:28-51) read leaf by leaf and look up the names
    item by item as they are asked.  What the other store yields is fixed: nobody is using it. *)
From Coq Require Import NArith List Bool.
From Verif Require Import Bytes OMap Core IdType Store Prog Mem MemIndex Spec Sled SledHistory SledLeaf SledLazy SledBeside SledTables SledIndex
  Rdf RdfSpec RdfSled RdfSledSpec RdfSledLeaf SledCopy RdfSledCopy.
Import ListNotations.

(** triplestore.rs:55-68 and 70-83, from the moment the store in use has yielded [x] to the moment it is
    asked again ([Ok tt]) or the loop is left ([Err tt]).  The state is what the other store has yet to
    yield; zip_longest has asked it for the first of that. *)
Definition zip_item {A L} (eqb : A -> A -> bool) (x : A) (ls : list (result L A)) : result unit unit * list (result L A) :=
  match ls with
  | Ok l :: ls' => if eqb l x then (Ok tt, ls') else (Err tt, ls)
  | _ => (Err tt, ls)
  end.

(** What the loop returns, when the store in use is [other]: the error of [self] goes first, and neither is
    looked at if one of them has no more items. *)
Definition zip_other {A L R} (x : result (lr_error unit R) unit * list (result L A)) : result (lr_error L R) bool :=
  match x with
  | (Ok _, []) => Ok true
  | (Ok _, _ :: _) => Ok false
  | (Err _, []) => Ok false
  | (Err _, Err e :: _) => Err (LeftE e)
  | (Err (RightE e), Ok _ :: _) => Err (RightE e)
  | (Err (LeftE _), Ok _ :: _) => Ok false
  end.
(** ... and when it is [self]. *)
Definition zip_self {A L R} (x : result (lr_error unit R) unit * list (result L A)) : result (lr_error R L) bool :=
  match x with
  | (Ok _, []) => Ok true
  | (Ok _, _ :: _) => Ok false
  | (Err _, []) => Ok false
  | (Err (RightE e), _ :: _) => Err (LeftE e)
  | (Err (LeftE _), Err e :: _) => Err (RightE e)
  | (Err (LeftE _), Ok _ :: _) => Ok false
  end.

Section EqLive.
Context {S NP EP SE BE L : Type}.
Context (cs : codec BE S) (cu : codec BE (Id KUlid)) (cn : codec BE NP) (ce : codec BE EP).
Notation ent := (entity S).
Notation err := (rdf_error S (sled_index_error S (Id KUlid) SE BE) (sled_error SE BE)).
Notation P A := (prog rdb SE A).

Definition req_live {X}
    (nodeq : ent * NP -> ent * NP -> bool) (edgeq : triple ent * EP -> triple ent * EP -> bool)
    (zn : result (lr_error unit err) unit * list (result L (ent * NP)) -> result X bool)
    (ze : result (lr_error unit err) unit * list (result L (triple ent * EP)) -> result X bool)
    (cuts cuts' : list bytes) (ns : list (result L (ent * NP))) (es : list (result L (triple ent * EP))) : P (result X bool) :=
  bind (loop_from (fun d => t_node (r_trees d)) (shown_item (node_item cn) (rs_show_pair cs cu))
          (fun ip ls => Ret (zip_item nodeq ip ls)) None cuts ns) (fun x =>
  match zn x with
  | Err e => Ret (Err e)
  | Ok false => Ret (Ok false)
  | Ok true =>
      bind (loop_from (fun d => t_spo (r_trees d)) (shown_item (edge_of_entry ce SPO) (rs_show_edge cs cu))
              (fun te ls => Ret (zip_item edgeq te ls)) None cuts' es) (fun y => Ret (ze y))
  end).

(** The store in use is [other], or is [self]. *)
Section Sides.
Context (seqb : S -> S -> bool) (neqb : NP -> NP -> bool) (eeqb : EP -> EP -> bool).
Definition req_other : list bytes -> list bytes -> list (result L (ent * NP)) -> list (result L (triple ent * EP)) -> P (result (lr_error L err) bool) :=
  req_live (pair_eqb (entity_eqb seqb) neqb) (pair_eqb (triple_eqb (entity_eqb seqb)) eeqb) zip_other zip_other.
Definition req_self : list bytes -> list bytes -> list (result L (ent * NP)) -> list (result L (triple ent * EP)) -> P (result (lr_error err L) bool) :=
  req_live (fun l x => pair_eqb (entity_eqb seqb) neqb x l) (fun l x => pair_eqb (triple_eqb (entity_eqb seqb)) eeqb x l) zip_self zip_self.
End Sides.

(** The two halves of [r_complete]: nothing that was there all the time is left out. *)
Section Read.
Context {X : Type} (schedule : list (nat * option SE)) (ps : list (prog rdb SE X)) (d : rdb).
Notation seen := (during schedule ps d).
Notation names := (id_now (SE := SE) cs cu (snd (interleave schedule ps d))).
Definition r_all_nodes (xs : list (result err (ent * NP))) : Prop :=
  forall e, (forall d1, seen d1 -> exists e1 p, by_name names e1 = by_name names e /\ r_lists_node SE cs cu cn d1 e1 p) ->
     In (by_name names e) (map (fun ep => by_name names (fst ep)) (ok_items xs)).
Definition r_all_edges (xs : list (result err (triple ent * EP))) : Prop :=
  forall t, (forall d1, seen d1 -> exists t1 p, triple_map (by_name names) t1 = triple_map (by_name names) t /\
        r_lists_edge SE cs cu ce SPO d1 t1 p) ->
     In (triple_map (by_name names) t) (map (fun tp => triple_map (by_name names) (fst tp)) (ok_items xs)).

(** What the answer [Ok true] tells.  All of what the other store holds was, each at some moment, in the
    store in use, with equal properties and under a name that what was there had then or got later.  What
    was in the store in use all the time is in the other store, going by the names of the end. *)
Definition r_held (neqb : NP -> NP -> bool) (eeqb : EP -> EP -> bool)
    (nodes : list (result L (ent * NP))) (edges : list (result L (triple ent * EP))) : Prop :=
  (forall x, In x nodes -> exists e p q i d1, x = Ok (e, p) /\ neqb p q = true /\ seen d1 /\
     r_lists_node SE cs cu cn d1 (shown (id_now (SE := SE) cs cu d1) i) q /\ called SE cs cu (knowing SE cs cu seen d1) i e) /\
  (forall x, In x edges -> exists t p q v d1, x = Ok (t, p) /\ eeqb p q = true /\ seen d1 /\
     r_lists_edge SE cs cu ce SPO d1 (triple_map (shown (id_now (SE := SE) cs cu d1)) v) q /\ called3 SE cs cu (knowing SE cs cu seen d1) v t) /\
  (forall e, (forall d1, seen d1 -> exists e1 p, by_name names e1 = by_name names e /\ r_lists_node SE cs cu cn d1 e1 p) ->
     exists e2 p, by_name names e2 = by_name names e /\ In (Ok (e2, p)) nodes) /\
  (forall t, (forall d1, seen d1 -> exists t1 p, triple_map (by_name names) t1 = triple_map (by_name names) t /\ r_lists_edge SE cs cu ce SPO d1 t1 p) ->
     exists t2 p, triple_map (by_name names) t2 = triple_map (by_name names) t /\ In (Ok (t2, p)) edges).
End Read.
End EqLive.
