(** extend and merge of a sled store by a store on another database (/repo/src/sled/extend.rs,
    /repo/src/sled/merge.rs), when others are using both databases.  No proofs here.

    As in SledCopy.v the iterators of into_iter_nodes (/repo/src/sled/iter.rs:226-301) read leaf by leaf as
    they are asked; and what is done with an item are the storage steps of Sled.v, with those of the
    others in between. *)
From Coq Require Import NArith List Bool.
From Verif Require Import Bytes OMap Core IdType Store Prog Mem Spec History Sled SledHistory SledLeaf SledLazy SledBeside SledTables.
From Coq Require Import Sorted.
Import ListNotations.

(** ** Two databases *)
Section Two.
Context {DA DB SE : Type}.

(** A program on the first one, or on the second one. *)
Fixpoint on_first {X} (p : prog DA SE X) : prog (DA * DB) SE X :=
  match p with
  | Ret x => Ret x
  | Look k => Look (fun d => on_first (k (fst d)))
  | Act u k e => Act (fun d => (u (fst d), snd d)) (fun d => on_first (k (fst d))) (fun x => on_first (e x))
  end.
Fixpoint on_second {X} (p : prog DB SE X) : prog (DA * DB) SE X :=
  match p with
  | Ret x => Ret x
  | Look k => Look (fun d => on_second (k (snd d)))
  | Act u k e => Act (fun d => (fst d, u (snd d))) (fun d => on_second (k (snd d))) (fun x => on_second (e x))
  end.

(** One program on both, next to programs on each. *)
Inductive who : Type := Mine | First (i : nat) | Second (i : nat).
Fixpoint interleave2 {X YA YB} (schedule : list (who * option SE)) (p : prog (DA * DB) SE X)
    (psA : list (prog DA SE YA)) (psB : list (prog DB SE YB)) (d : DA * DB)
    : prog (DA * DB) SE X * list (prog DA SE YA) * list (prog DB SE YB) * (DA * DB) :=
  match schedule with
  | [] => (p, psA, psB, d)
  | (Mine, fault) :: schedule' => let (p', d') := step1 fault p d in interleave2 schedule' p' psA psB d'
  | (First i, fault) :: schedule' =>
      match nth_error psA i with
      | Some q => let (q', a) := step1 fault q (fst d) in interleave2 schedule' p (replace_nth i q' psA) psB (a, snd d)
      | None => interleave2 schedule' p psA psB d
      end
  | (Second i, fault) :: schedule' =>
      match nth_error psB i with
      | Some q => let (q', b) := step1 fault q (snd d) in interleave2 schedule' p psA (replace_nth i q' psB) (fst d, b)
      | None => interleave2 schedule' p psA psB d
      end
  end.

(** Whose steps they are, of the programs on one of them when the one on both counts as number 0. *)
Definition first_of (i : nat) : who := match i with O => Mine | S j => First j end.
Definition second_of (i : nat) : who := match i with O => Mine | S j => Second j end.

(** The first database at some moment. *)
Definition during2 {X YA YB} (schedule : list (who * option SE)) (p : prog (DA * DB) SE X)
    (psA : list (prog DA SE YA)) (psB : list (prog DB SE YB)) (d : DA * DB) (d1 : DA) : Prop :=
  exists s1 s2, schedule = s1 ++ s2 /\ d1 = fst (snd (interleave2 s1 p psA psB d)).

(** The loops over the nodes and the edges of the first database, each item being put into the second one. *)
Definition over_both {A1 A2 EL ER H} (nodes edges : DA -> list (bytes * bytes))
    (read_node : bytes * bytes -> prog DA SE (result ER A1)) (read_edge : bytes * bytes -> prog DA SE (result ER A2))
    (fn : A1 -> H -> prog DB SE (result EL unit * H)) (fe : A2 -> H -> prog DB SE (result EL unit * H))
    (cuts cuts' : list bytes) (h : H) : prog (DA * DB) SE (result (lr_error EL ER) unit * H) :=
  bind (loop_from (fun d => nodes (fst d)) (fun kv => on_first (read_node kv)) (fun a h => on_second (fn a h)) None cuts h) (fun rh =>
  match fst rh with
  | Err e => Ret (Err e, snd rh)
  | Ok _ => loop_from (fun d => edges (fst d)) (fun kv => on_first (read_edge kv)) (fun a h => on_second (fe a h)) None cuts' (snd rh)
  end).
End Two.

Section Copy.
Context {k : idkind} {NP EP SE BE BE' : Type} (cn : codec BE NP) (ce : codec BE EP) (cn' : codec BE' NP) (ce' : codec BE' EP).
Notation err := (sled_error SE BE).
Notation err' := (sled_error SE BE').
Notation answer := (prog (db * db) SE (result (lr_error err' err) unit * handle k)).
(** /repo/src/sled/extend.rs:19-65 *)
Definition s_extend_both : list bytes -> list bytes -> handle k -> answer :=
  over_both t_node t_spo (fun kv => next (node_read cn kv)) (fun kv => next (edge_read ce kv))
    (fun (ip : Id k * NP) h => and_handle h (s_extend_node cn' (fst ip) (snd ip))) (fun te h => s_extend_edge ce' (fst te) (snd te) h).
(** /repo/src/sled/merge.rs:18-36 *)
Definition s_merge_both (mn : NP -> NP -> NP) (me : EP -> EP -> EP) : list bytes -> list bytes -> handle k -> answer :=
  over_both t_node t_spo (fun kv => next (node_read cn kv)) (fun kv => next (edge_read ce kv))
    (fun (ip : Id k * NP) h => and_handle h (s_merge_node cn' mn (fst ip) (snd ip))) (fun te h => s_merge_edge ce' me (fst te) (snd te) h).

(** What is handed over: vertices and edges that were there at some moment, in order, none twice; errors
    that say so.  [seen]: the first database at some moment; [met]: the failures that were met there. *)
Section Handed.
Context {E : Type} (seen : db -> Prop) (met : SE -> Prop) (cs : list (handle k * list (op k NP EP E))).
Definition handed2 (s : source k NP EP err) : Prop :=
  (forall i p, In (Ok (i, p)) (src_nodes s) -> exists d1, seen d1 /\ lists_node SE cn d1 i p) /\
  (forall t e, In (Ok (t, e)) (src_edges s) -> exists d1, seen d1 /\ lists_edge SE ce SPO d1 t e) /\
  StronglySorted id_lt (map fst (ok_items (src_nodes s))) /\
  StronglySorted (edge_lt SPO) (map fst (ok_items (src_edges s))) /\
  (forall x, In (Err x) (src_nodes s) -> exists y, met y /\ x = SledError y) /\
  (forall x, In (Err x) (src_edges s) -> (exists y, met y /\ x = SledError y) \/
     (x = MissingPropertyData /\ exists t, rewritten cs t)).
(** Nothing that was there all the time is left out. *)
Definition complete2 (s : source k NP EP err) : Prop :=
  (forall i, (forall d1, seen d1 -> exists p, lists_node SE cn d1 i p) -> exists p, In (Ok (i, p)) (src_nodes s)) /\
  (forall t, (forall d1, seen d1 -> exists e, lists_edge SE ce SPO d1 t e) -> exists e, In (Ok (t, e)) (src_edges s)).
End Handed.
End Copy.
