(** TripleStore::try_eq (/repo/src/traits/triplestore.rs:43-86) of a memory store and a handle on a
    sled::Db that others are using.  No proofs here.

    The iterators of iter_nodes (/repo/src/sled/iter.rs:89-111 and 162-220) read leaf by leaf as they
    are asked, as in SledLazy.v, and try_eq stops asking at the first difference.  The iterators of the
    memory store yield no errors (/repo/src/mem/iter.rs:42-115), so its items are taken as a plain list
    ([ok_items]).  Store.v has try_eq for iterators that are read beforehand. *)
From Coq Require Import NArith List Bool.
From Verif Require Import Bytes OMap Core IdType Store Prog Mem History Sled SledHistory SledLeaf SledLazy SledBeside SledTables SledCopy.
Import ListNotations.

(** triplestore.rs:55-68 and 70-83, from the moment the sled store has yielded an item to the moment it is
    asked again ([Ok tt]) or there is a difference ([Err tt]).  The state is what the memory store has
    yet to yield. *)
Definition same_item {A} (eqb : A -> A -> bool) (x : A) (ls : list A) : result unit unit * list A :=
  match ls with
  | [] => (Err tt, [])
  | l :: ls' => if eqb l x then (Ok tt, ls') else (Err tt, ls)
  end.

(** What the loop answers: [Ok true] if it is through.  zip_longest asks both sides before the body
    looks at what they have yielded, so an error that is met when the memory store has no more items is
    not reported. *)
Definition same_items {A R} (x : result (lr_error unit R) unit * list A) : result R bool :=
  match x with
  | (Ok _, []) => Ok true
  | (Ok _, _ :: _) => Ok false
  | (Err (LeftE _), _) => Ok false
  | (Err (RightE _), []) => Ok false
  | (Err (RightE e), _ :: _) => Err e
  end.

Section EqLive.
Context {k : idkind} {NP EP SE BE : Type} (cn : codec BE NP) (ce : codec BE EP).
Notation I := (Id k).
Notation T := (triple (Id k)).
Notation err := (sled_error SE BE).
Notation M := (mem k NP EP).
Notation P A := (prog db SE A).

(** [nodeq], [edgeq]: the comparisons of an item of the memory store with one of the sled store. *)
Definition eq_live {X} (side : err -> X) (nodeq : I * NP -> I * NP -> bool) (edgeq : T * EP -> T * EP -> bool)
    (cuts cuts' : list bytes) (m : M) : P (result X bool) :=
  bind (loop_from t_node (fun kv => next (node_read cn kv)) (fun ip ls => Ret (same_item nodeq ip ls)) None cuts
          (ok_items (fst (iter_nodes SPO m)))) (fun x =>
  match same_items x with
  | Err e => Ret (Err (side e))
  | Ok false => Ret (Ok false)
  | Ok true =>
      bind (loop_from t_spo (fun kv => next (edge_read ce kv)) (fun te ls => Ret (same_item edgeq te ls)) None cuts'
              (ok_items (snd (iter_nodes SPO m)))) (fun y =>
      match same_items y with
      | Err e => Ret (Err (side e))
      | Ok b => Ret (Ok b)
      end)
  end).

(** The memory store is [self], or is [other]. *)
Definition mem_eq_live (neqb : NP -> NP -> bool) (eeqb : EP -> EP -> bool) : list bytes -> list bytes -> M -> P (result (lr_error unit err) bool) :=
  eq_live RightE (pair_eqb id_eqb neqb) (pair_eqb (triple_eqb id_eqb) eeqb).
Definition sled_eq_live (neqb : NP -> NP -> bool) (eeqb : EP -> EP -> bool) : list bytes -> list bytes -> M -> P (result (lr_error err unit) bool) :=
  eq_live LeftE (fun l x => pair_eqb id_eqb neqb x l) (fun l x => pair_eqb (triple_eqb id_eqb) eeqb x l).
End EqLive.
