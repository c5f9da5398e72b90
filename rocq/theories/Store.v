(** Definitions shared by the backends: generators, sources of data, errors and the
    default method [try_eq].  No proofs here. *)
From Coq Require Import NArith List Bool.
From Verif Require Import Bytes Core IdType.
Import ListNotations.

(** Iterator::filter_map *)
Fixpoint filter_map {A B} (f : A -> option B) (l : list A) : list B :=
  match l with
  | [] => []
  | a :: l' => match f a with Some b => b :: filter_map f l' | None => filter_map f l' end
  end.

(** Box<dyn IdGenerator<Id>> (/repo/src/traits/id_generator.rs:1-6): an arbitrary
    infinite sequence of identifiers and how many of them have been handed out to
    this store.  Nothing is assumed about the sequence; in particular a counter
    shared with other stores appears as a sequence with gaps. *)
Record gen (k : idkind) : Type := Gen { g_seq : nat -> Id k; g_pos : nat }.
Arguments Gen {k} g_seq g_pos.
Arguments g_seq {k} g.
Arguments g_pos {k} g.

(** IdGenerator::fresh (/repo/src/traits/id_generator.rs:5) *)
Definition fresh {k} (g : gen k) : Id k * gen k :=
  (g_seq g (g_pos g), Gen (g_seq g) (S (g_pos g))).

(** What a store consumed through TripleStoreIntoIter::into_iter_nodes(SPO)
    (/repo/src/traits/into_iter.rs) delivers: two finite sequences of items or errors. *)
Record source (k : idkind) (NP EP E : Type) : Type := Source {
  src_nodes : list (result E (Id k * NP));
  src_edges : list (result E (triple (Id k) * EP))
}.
Arguments Source {k NP EP E} src_nodes src_edges.
Arguments src_nodes {k NP EP E} s.
Arguments src_edges {k NP EP E} s.

(** ExtendError, MergeError, QueryError, TryEqError: /repo/src/traits/extend.rs:3-10,
    merge.rs:7-14, query.rs:7-11, triplestore.rs:26-30 *)
Inductive lr_error (L R : Type) : Type := LeftE (e : L) | RightE (e : R).
Arguments LeftE {L R} e.
Arguments RightE {L R} e.

(** SetOpsError: /repo/src/traits/set.rs:3-12 *)
Inductive set_error (L R S : Type) : Type := SetLeft (e : L) | SetRight (e : R) | SetResult (e : S).
Arguments SetLeft {L R S} e.
Arguments SetRight {L R S} e.
Arguments SetResult {L R S} e.

(** One [for zip in a.zip_longest(b)] loop of try_eq
    (/repo/src/traits/triplestore.rs:55-68 and 70-83). [Ok true] means that the loop
    ran to its end; [Ok false] is [return Ok(false)]. *)
Fixpoint zip_longest_eq {A L R} (eqb : A -> A -> bool)
    (a : list (result L A)) (b : list (result R A)) : result (lr_error L R) bool :=
  match a, b with
  | [], [] => Ok true
  | x0 :: a', y0 :: b' =>
      match x0 with
      | Err e => Err (LeftE e)
      | Ok x =>
          match y0 with
          | Err e => Err (RightE e)
          | Ok y => if eqb x y then zip_longest_eq eqb a' b' else Ok false
          end
      end
  | _, _ => Ok false
  end.

(** The derived PartialEq of pairs. *)
Definition pair_eqb {A B} (ea : A -> A -> bool) (eb : B -> B -> bool) (x y : A * B) : bool :=
  (ea (fst x) (fst y) && eb (snd x) (snd y))%bool.

(** TripleStore::try_eq (/repo/src/traits/triplestore.rs:43-86), over the results of
    iter_nodes(SPO) of both stores; [ieqb], [teqb] are PartialEq of identifiers and triples
    (the identifiers of RDF stores are entities, not [Id k]). *)
Definition try_eq {I NP EP L R}
    (ieqb : I -> I -> bool) (neqb : NP -> NP -> bool) (eeqb : EP -> EP -> bool)
    (self_nodes : list (result L (I * NP))) (self_edges : list (result L (triple I * EP)))
    (other_nodes : list (result R (I * NP))) (other_edges : list (result R (triple I * EP)))
    : result (lr_error L R) bool :=
  match zip_longest_eq (pair_eqb ieqb neqb) self_nodes other_nodes with
  | Err e => Err e
  | Ok false => Ok false
  | Ok true => zip_longest_eq (pair_eqb (triple_eqb ieqb) eeqb) self_edges other_edges
  end.
