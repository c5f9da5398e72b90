(** TripleStore::try_eq (/repo/src/traits/triplestore.rs:43-86) of two sled stores on two databases that are
    both in use.  No proofs here.

    zip_longest asks the iterator of [self] and then the one of [other], each time both, and both read leaf
    by leaf as they are asked (/repo/src/sled/iter.rs:89-111 and 162-220, as in SledLazy.v).  The storage
    failures of the two databases are of one type, as in SledTwo.v.  Store.v has try_eq for iterators that
    are read beforehand, SledEqLive.v the case where one of the stores is a memory store. *)
From Coq Require Import NArith List Bool.
From Verif Require Import Bytes OMap Core IdType Store Prog Mem Spec History Sled SledHistory SledLeaf SledLazy SledBeside SledTables SledCopy SledTwo.
Import ListNotations.

(** An iterator that is asked for one item at a time: the entries left of the leaf it holds, and where
    it goes on ([None]: nowhere). *)
Record cursor : Type := Cursor { c_have : list (bytes * bytes); c_next : option (option bytes * list bytes) }.
Definition cursor_new (cuts : list bytes) : cursor := Cursor [] (Some (None, cuts)).

Section Ask.
Context {D SE ER A : Type} (entries : D -> list (bytes * bytes)) (item : bytes * bytes -> prog D SE (result ER A)).
Notation P A := (prog D SE A).

(** The first entry of the next leaf that has one. *)
Fixpoint next_leaf (lo : option bytes) (cuts : list bytes) : P (option (bytes * bytes) * cursor) :=
  match cuts with
  | [] => Look (fun d =>
      match piece lo None (entries d) with
      | [] => Ret (None, Cursor [] None)
      | kv :: kvs => Ret (Some kv, Cursor kvs None)
      end)
  | c :: cuts' => Look (fun d =>
      match piece lo (Some c) (entries d) with
      | [] => next_leaf (Some (later lo c)) cuts'
      | kv :: kvs => Ret (Some kv, Cursor kvs (Some (Some (later lo c), cuts')))
      end)
  end.
Definition next_entry (c : cursor) : P (option (bytes * bytes) * cursor) :=
  match c_have c, c_next c with
  | kv :: kvs, n => Ret (Some kv, Cursor kvs n)
  | [], Some (lo, cuts) => next_leaf lo cuts
  | [], None => Ret (None, c)
  end.
(** [next()] *)
Definition ask (c : cursor) : P (option (result ER A) * cursor) :=
  bind (next_entry c) (fun x =>
  match fst x with
  | Some kv => bind (item kv) (fun r => Ret (Some r, snd x))
  | None => Ret (None, snd x)
  end).
End Ask.

(** triplestore.rs:55-68 and 70-83 *)
Section Zip.
Context {DA DB SE EA EB A : Type} (eqb : A -> A -> bool)
  (entries : DA -> list (bytes * bytes)) (item : bytes * bytes -> prog DA SE (result EA A))
  (entries' : DB -> list (bytes * bytes)) (item' : bytes * bytes -> prog DB SE (result EB A)).
Notation answer := (result (lr_error EA EB) bool).

(** [self] has yielded [l]: [Ok tt] goes on, [Err] returns from try_eq. *)
Definition same_next (l : A) (c : cursor) : prog DB SE (result answer unit * cursor) :=
  bind (ask entries' item' c) (fun x =>
  Ret (match fst x with
       | Some (Ok r) => if eqb l r then Ok tt else Err (Ok false)
       | Some (Err e) => Err (Err (RightE e))
       | None => Err (Ok false)
       end, snd x)).

(** If [self] has yielded an error or has no more items, [other] is asked once more. *)
Definition zip_both (cuts cuts' : list bytes) : prog (DA * DB) SE answer :=
  bind (loop_from (fun d => entries (fst d)) (fun kv => on_first (item kv)) (fun l c => on_second (same_next l c))
          None cuts (cursor_new cuts')) (fun x =>
  match fst x with
  | Err (LeftE r) => Ret r
  | Err (RightE e) => bind (on_second (ask entries' item' (snd x))) (fun y =>
      Ret (match fst y with Some _ => Err (LeftE e) | None => Ok false end))
  | Ok _ => bind (on_second (ask entries' item' (snd x))) (fun y =>
      Ret (match fst y with Some _ => Ok false | None => Ok true end))
  end).
End Zip.

Section EqTwo.
Context {k : idkind} {NP EP SE BE BE' : Type} (cn : codec BE NP) (ce : codec BE EP) (cn' : codec BE' NP) (ce' : codec BE' EP)
  (neqb : NP -> NP -> bool) (eeqb : EP -> EP -> bool).
Notation I := (Id k).
Notation T := (triple (Id k)).
Notation answer := (result (lr_error (sled_error SE BE) (sled_error SE BE')) bool).

(** triplestore.rs:43-86; [cuts], [ecuts]: the ends of the leaves of [self], [cuts'], [ecuts'] of [other]. *)
Definition eq_both (cuts ecuts cuts' ecuts' : list bytes) : prog (db * db) SE answer :=
  bind (zip_both (pair_eqb (id_eqb (k := k)) neqb) t_node (fun kv => next (node_read cn kv)) t_node (fun kv => next (node_read cn' kv)) cuts cuts') (fun r =>
  match r with
  | Ok true => zip_both (pair_eqb (triple_eqb (id_eqb (k := k))) eeqb) t_spo (fun kv => next (edge_read ce kv)) t_spo (fun kv => next (edge_read ce' kv)) ecuts ecuts'
  | _ => Ret r
  end).
End EqTwo.

(** The states of the second database during a run. *)
Definition during2_second {DA DB SE X YA YB : Type} (schedule : list (who * option SE)) (p : prog (DA * DB) SE X)
    (psA : list (prog DA SE YA)) (psB : list (prog DB SE YB)) (d : DA * DB) (d1 : DB) : Prop :=
  exists s1 s2, schedule = s1 ++ s2 /\ d1 = snd (snd (interleave2 s1 p psA psB d)).

(** What a store had, or had not, at some moment. *)
Section Moments.
Context {k : idkind} {NP EP SE BE : Type} (cn : codec BE NP) (ce : codec BE EP) (seen : db -> Prop).
Definition had_node (i : Id k) (p : NP) : Prop := exists d1, seen d1 /\ lists_node SE cn d1 i p.
Definition had_edge (t : triple (Id k)) (e : EP) : Prop := exists d1, seen d1 /\ lists_edge SE ce SPO d1 t e.
Definition lacked_node (i : Id k) : Prop := exists d1, seen d1 /\ forall p, ~ lists_node SE cn d1 i p.
Definition lacked_edge (t : triple (Id k)) : Prop := exists d1, seen d1 /\ forall e, ~ lists_edge SE ce SPO d1 t e.
End Moments.

(** One thing of two stores: both had it with equal properties, or both lacked it, each at some moment. *)
Section Compare.
Context {A P : Type} (eqp : P -> P -> bool) (had had' : A -> P -> Prop) (lacked lacked' : A -> Prop).
Definition agree_at (a : A) : Prop :=
  (exists p q, had a p /\ had' a q /\ eqp p q = true) \/ (lacked a /\ lacked' a).
(** One had it and the other lacked it, or both had it with properties that differ, each at some moment. *)
Definition differ_at (a : A) : Prop :=
  (exists p, had a p /\ lacked' a) \/ (exists q, lacked a /\ had' a q) \/ (exists p q, had a p /\ had' a q /\ eqp p q = false).
End Compare.
