(** Ordered maps: std::collections::BTreeMap and sled::Tree.

    A map is the list of its entries in increasing key order.  The operations are
    those the code calls (get, insert, remove, range over inclusive bounds, iter).
    That std and sled implement these is part of the trusted base.
    No proofs here; see OMapFacts.v. *)
From Coq Require Import List.
Import ListNotations.

(** BTreeMap<K, V> (/repo/src/mem.rs:112-116); sled::Tree (/repo/src/sled.rs:145-155). *)
Definition omap (K V : Type) : Type := list (K * V).

Section Ops.
Context {K V : Type} (cmp : K -> K -> comparison).

(** BTreeMap::new (/repo/src/mem.rs:299-303). *)
Definition om_empty : omap K V := [].

(** BTreeMap::get (/repo/src/mem/iter.rs:20-22), sled Tree::get (/repo/src/sled/iter.rs:20-67). *)
Fixpoint om_get (k : K) (m : omap K V) : option V :=
  match m with
  | [] => None
  | (k', v) :: m' => match cmp k k' with Eq => Some v | _ => om_get k m' end
  end.

(** BTreeMap::insert and Entry insertion (/repo/src/mem/insert.rs:9-14, 40-47);
    sled Tree::insert (/repo/src/sled/insert.rs:18-23). Replaces the value of an existing key. *)
Fixpoint om_insert (k : K) (v : V) (m : omap K V) : omap K V :=
  match m with
  | [] => [(k, v)]
  | (k', v') :: m' =>
      match cmp k k' with
      | Lt => (k, v) :: (k', v') :: m'
      | Eq => (k, v) :: m'
      | Gt => (k', v') :: om_insert k v m'
      end
  end.

(** BTreeMap::remove (/repo/src/mem/remove.rs:48, 55, 74-79); sled Tree::remove. *)
Definition om_remove (k : K) (m : omap K V) : omap K V :=
  filter (fun kv => match cmp k (fst kv) with Eq => false | _ => true end) m.

(** [lo <= k <= hi], the test of an inclusive range. *)
Definition in_range (lo hi k : K) : bool :=
  match cmp lo k with
  | Gt => false
  | _ => match cmp k hi with Gt => false | _ => true end
  end.

(** BTreeMap::range((Included(lo), Included(hi))) (/repo/src/mem/remove.rs:16, 28;
    /repo/src/mem/query.rs:53-128); sled Tree::range. *)
Definition om_range (lo hi : K) (m : omap K V) : list (K * V) :=
  filter (fun kv => in_range lo hi (fst kv)) m.

(** BTreeMap::range panics when the start bound is greater than the end bound. *)
Definition range_panics (lo hi : K) : bool :=
  match cmp lo hi with Gt => true | _ => false end.

(** BTreeMap::iter / into_iter (/repo/src/mem/iter.rs:39, 53-55); sled Tree::iter. *)
Definition om_iter (m : omap K V) : list (K * V) := m.

End Ops.
