(** /repo/src/mem/extend.rs, /repo/src/mem/merge.rs, /repo/src/sled/extend.rs and
    /repo/src/sled/merge.rs when the consumed store is a handle on a sled::Db that others are
    using, and the store that is written is not on that database.  No proofs here.

    The iterators of into_iter_nodes (/repo/src/sled/iter.rs:226-301) read leaf by leaf as they are
    asked, as in SledLazy.v.  What is done with an item is invisible to the others, so it is one
    function on the state of the store that is written: a memory store, or a handle, another
    database and the failures this one has yet to come. *)
From Coq Require Import NArith List Bool.
From Verif Require Import Bytes OMap Core IdType Store Prog Mem History Sled SledHistory SledLeaf SledLazy SledBeside SledTables Spec.
From Coq Require Import Sorted.
Import ListNotations.

Section Copy.
Context {k : idkind} {NP EP SE BE : Type} (cn : codec BE NP) (ce : codec BE EP).
Notation I := (Id k).
Notation T := (triple (Id k)).
Notation err := (sled_error SE BE).
Notation P A := (prog db SE A).

(** [for r in other_nodes { .. }  for r in other_edges { .. }] *)
Definition take_over {H EL} (fn : I * NP -> H -> result EL unit * H) (fe : T * EP -> H -> result EL unit * H)
    (cuts cuts' : list bytes) (h : H) : P (result (lr_error EL err) unit * H) :=
  loop_both cn ce (fun ip h => Ret (fn ip h)) (fun te h => Ret (fe te h)) cuts cuts' h.

Notation M := (mem k NP EP).
(** /repo/src/mem/extend.rs:8-64 *)
Definition m_extend_live : list bytes -> list bytes -> M -> P (result (lr_error unit err) unit * M) :=
  take_over (fun ip m => (Ok tt, extend_node (fst ip) (snd ip) m)) (fun te m => (Ok tt, extend_edge (fst te) (snd te) m)).
(** /repo/src/mem/merge.rs:35-53 *)
Definition m_merge_live (mn : NP -> NP -> NP) (me : EP -> EP -> EP)
    : list bytes -> list bytes -> M -> P (result (lr_error unit err) unit * M) :=
  take_over (fun ip m => (Ok tt, merge_node mn (fst ip) (snd ip) m)) (fun te m => (Ok tt, merge_edge me (fst te) (snd te) m)).

(** Another database. *)
Section Sled.
Context {SE' BE' : Type} (cn' : codec BE' NP) (ce' : codec BE' EP).
Notation err' := (sled_error SE' BE').
Notation other := (handle k * db * list (option SE'))%type.

Definition elsewhere (p : handle k -> prog db SE' (result err' unit * handle k)) (x : other) : result err' unit * other :=
  let '(h, d, fs) := x in
  match exec (p h) fs d with (r, h', d', fs') => (r, (h', d', fs')) end.
(** /repo/src/sled/extend.rs:19-65 *)
Definition s_extend_live : list bytes -> list bytes -> other -> P (result (lr_error err' err) unit * other) :=
  take_over (fun ip => elsewhere (fun h => and_handle h (s_extend_node cn' (fst ip) (snd ip))))
            (fun te => elsewhere (fun h => s_extend_edge ce' (fst te) (snd te) h)).
(** /repo/src/sled/merge.rs:18-36 *)
Definition s_merge_live (mn : NP -> NP -> NP) (me : EP -> EP -> EP)
    : list bytes -> list bytes -> other -> P (result (lr_error err' err) unit * other) :=
  take_over (fun ip => elsewhere (fun h => and_handle h (s_merge_node cn' mn (fst ip) (snd ip))))
            (fun te => elsewhere (fun h => s_merge_edge ce' me (fst te) (snd te) h)).
End Sled.

(** What is handed over, read next to the callers [cs]. *)
Section Handed.
Context {X E : Type} (schedule : list (nat * option SE)) (ps : list (prog db SE X)) (d : db) (cs : list (handle k * list (op k NP EP E))).

(** Vertices and edges that were there at some moment, in order, none twice; errors that say so. *)
Definition handed (s : source k NP EP err) : Prop :=
  (forall i p, In (Ok (i, p)) (src_nodes s) -> exists d1, during schedule ps d d1 /\ lists_node SE cn d1 i p) /\
  (forall t e, In (Ok (t, e)) (src_edges s) -> exists d1, during schedule ps d d1 /\ lists_edge SE ce SPO d1 t e) /\
  StronglySorted id_lt (map fst (ok_items (src_nodes s))) /\
  StronglySorted (edge_lt SPO) (map fst (ok_items (src_edges s))) /\
  (forall x, In (Err x) (src_nodes s) -> exists y, met schedule y /\ x = SledError y) /\
  (forall x, In (Err x) (src_edges s) -> (exists y, met schedule y /\ x = SledError y) \/
     (x = MissingPropertyData /\ exists t, rewritten cs t)).

(** Nothing that was there all the time is left out. *)
Definition complete (s : source k NP EP err) : Prop :=
  (forall i, (forall d1, during schedule ps d d1 -> exists p, lists_node SE cn d1 i p) -> exists p, In (Ok (i, p)) (src_nodes s)) /\
  (forall t, (forall d1, during schedule ps d d1 -> exists e, lists_edge SE ce SPO d1 t e) -> exists e, In (Ok (t, e)) (src_edges s)).
End Handed.
End Copy.

(** The loops over a source that is fixed before, for a store with any state. *)
Section Feed.
Context {k : idkind} {NP EP H EL ER : Type}.
Fixpoint feed {A} (f : A -> H -> result EL unit * H) (xs : list (result ER A)) (h : H) : result (lr_error EL ER) unit * H :=
  match xs with
  | [] => (Ok tt, h)
  | Err e :: _ => (Err (RightE e), h)
  | Ok a :: xs' =>
      match f a h with
      | (Err e, h) => (Err (LeftE e), h)
      | (Ok _, h) => feed f xs' h
      end
  end.
Definition feed_both (fn : Id k * NP -> H -> result EL unit * H) (fe : triple (Id k) * EP -> H -> result EL unit * H)
    (s : source k NP EP ER) (h : H) : result (lr_error EL ER) unit * H :=
  match feed fn (src_nodes s) h with
  | (Err e, h) => (Err e, h)
  | (Ok _, h) => feed fe (src_edges s) h
  end.
End Feed.
