(** /repo/src/mem/set.rs when [other] is a handle on a sled::Db that others are using.
    No proofs here.

    The iterators of into_iter_nodes (/repo/src/sled/iter.rs:226-301) read leaf by leaf as they are
    asked, as in SledLazy.v, and intersection and difference stop asking when [self] has no more
    items.  The iterators of [self], which is a memory store, yield no errors
    (/repo/src/mem/iter.rs:117-152), so its items are taken as a plain list ([ok_items]); Mem.v has
    the loops for iterators of either kind. *)
From Coq Require Import NArith List Bool.
From Verif Require Import Bytes OMap Core IdType Store Prog Mem History Sled SledHistory SledLeaf SledLazy SledBeside SledTables SledCopy Spec.
Import ListNotations.

Section Join.
Context {A P Q R : Type} (lt : A -> A -> bool).
(** What is done with an item of [self] that [other] does not have, with a key that [self] does
    not have, and with an item that both have. *)
Context (left_only : A -> P -> R -> R) (right_only : A -> R -> R) (in_both : A -> A -> P -> R -> R).

(** The while loops of set.rs:71-89, 93-111, 133-152 and 164-185, from the moment [other.next()] has
    yielded [right_key] to the moment it is asked again ([Ok tt]) or [self] has no more items
    ([Err tt]).  The state is what [self] has yet to yield, the current item first, and the result. *)
Fixpoint join_step (right_key : A) (ls : list (A * P)) (r : R) : result unit unit * (list (A * P) * R) :=
  match ls with
  | [] => (Err tt, ([], r))
  | (left_key, left_props) :: ls' =>
      if lt left_key right_key then join_step right_key ls' (left_only left_key left_props r)
      else if lt right_key left_key then (Ok tt, (ls, right_only right_key r))
      else (Ok tt, (ls', in_both right_key left_key left_props r))
  end.

Definition join_body (kp : A * Q) (x : list (A * P) * R) : result unit unit * (list (A * P) * R) :=
  join_step (fst kp) (fst x) (snd x).
End Join.

Section SetLive.
Context {k : idkind} {NP EP SE BE : Type} (cn : codec BE NP) (ce : codec BE EP).
Notation I := (Id k).
Notation T := (triple (Id k)).
Notation err := (sled_error SE BE).
Notation M := (mem k NP EP).
Notation PR A := (prog db SE (result (set_error unit err unit) A)).

(** A loop over the nodes of [other] and then one over its edges.  The items of a loop are asked
    for until there are no more, one is an error or the body has enough ([Err tt]). *)
Definition set_live {R1 R2} (fn : I * NP -> R1 -> result unit unit * R1) (middle : R1 -> R2)
    (fe : T * EP -> R2 -> result unit unit * R2) (last : R2 -> M) (cuts cuts' : list bytes) (r : R1) : PR M :=
  bind (loop_from t_node (fun kv => next (node_read cn kv)) (fun ip r => Ret (fn ip r)) None cuts r) (fun x =>
  match fst x with
  | Err (RightE e) => Ret (Err (SetRight e))
  | _ =>
      bind (loop_from t_spo (fun kv => next (edge_read ce kv)) (fun te r => Ret (fe te r)) None cuts' (middle (snd x))) (fun y =>
      match fst y with
      | Err (RightE e) => Ret (Err (SetRight e))
      | _ => Ret (Ok (last (snd y)))
      end)
  end).

Definition self_nodes (m : M) : list (I * NP) := ok_items (fst (into_iter_nodes SPO m)).
Definition self_edges (m : M) : list (T * EP) := ok_items (snd (into_iter_nodes SPO m)).
Definition put_nodes (l : list (I * NP)) (r : M) : M := fold_left (fun r ip => insert_node (fst ip) (snd ip) r) l r.
Definition put_edges (l : list (T * EP)) (r : M) : M := fold_left (fun r te => insert_edge (fst te) (snd te) r) l r.

(** set.rs:17-52 *)
Definition union_live (g : gen k) (cuts cuts' : list bytes) (m : M) : PR M :=
  set_live (fun ip r => (Ok tt, insert_node (fst ip) (snd ip) r)) (fun r => r)
           (fun te r => (Ok tt, insert_edge (fst te) (snd te) r)) (fun r => r)
           cuts cuts' (put_edges (self_edges m) (put_nodes (self_nodes m) (mem_new g))).

(** set.rs:54-113 *)
Definition intersection_live (g : gen k) (cuts cuts' : list bytes) (m : M) : PR M :=
  set_live (join_body id_ltb (fun _ _ r => r) (fun _ r => r) (fun _ => insert_node)) (fun x => (self_edges m, snd x))
           (join_body tr_ltb (fun _ _ r => r) (fun _ r => r) (fun _ => insert_edge)) snd
           cuts cuts' (self_nodes m, mem_new g).

(** set.rs:115-195; the node part has [removed_nodes] next to the result. *)
Definition difference_live (g : gen k) (cuts cuts' : list bytes) (m : M) : PR M :=
  set_live
    (join_body id_ltb (fun i p x => (fst x, insert_node i p (snd x))) (fun i x => (i :: fst x, snd x))
                      (fun i _ _ x => (i :: fst x, snd x)))
    (fun x => (self_edges m, (fst (snd x), put_nodes (fst x) (snd (snd x)))))
    (join_body tr_ltb (fun t e x =>
                         (fst x, if negb (contains (fst x) (sub t) || contains (fst x) (obj t))
                                 then insert_edge t e (snd x) else snd x))
                      (fun _ x => x) (fun _ _ _ x => x))
    (fun x => put_edges (fst x) (snd (snd x)))
    cuts cuts' (self_nodes m, ([], mem_new g)).

(** What the other store had, or had not, at some moment during the call. *)
Section Seen.
Context {X : Type} (schedule : list (nat * option SE)) (ps : list (prog db SE X)) (d : db).
Definition node_was (i : I) (p : NP) : Prop := exists d1, during schedule ps d d1 /\ lists_node SE cn d1 i p.
Definition edge_was (t : T) (e : EP) : Prop := exists d1, during schedule ps d d1 /\ lists_edge SE ce SPO d1 t e.
Definition node_missing (i : I) : Prop := exists d1, during schedule ps d d1 /\ forall p, ~ lists_node SE cn d1 i p.
Definition edge_missing (t : T) : Prop := exists d1, during schedule ps d d1 /\ forall e, ~ lists_edge SE ce SPO d1 t e.
End Seen.
End SetLive.
