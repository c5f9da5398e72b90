(** Triples, orders and queries: /repo/src/triple.rs and /repo/src/lib.rs.
    No proofs here. *)
From Coq Require Import List.
Import ListNotations.

(** Rust's Result. *)
Inductive result (E A : Type) : Type := Ok (a : A) | Err (e : E).
Arguments Ok {E A} a.
Arguments Err {E A} e.

(** /repo/src/triple.rs:7-11 *)
Record triple (I : Type) : Type := Triple { sub : I; pred : I; obj : I }.
Arguments Triple {I} sub pred obj.
Arguments sub {I} t.
Arguments pred {I} t.
Arguments obj {I} t.

(** /repo/src/triple.rs:14-20 *)
Definition triple_map {I O} (f : I -> O) (t : triple I) : triple O :=
  Triple (f (sub t)) (f (pred t)) (f (obj t)).

(** /repo/src/triple.rs:22-31: evaluation order sub, pred, obj with early return.
    The closure is FnMut in the code; it is a function here (no state). *)
Definition triple_try_map {I O E} (f : I -> result E O) (t : triple I) : result E (triple O) :=
  match f (sub t) with
  | Err e => Err e
  | Ok s =>
      match f (pred t) with
      | Err e => Err e
      | Ok p =>
          match f (obj t) with
          | Err e => Err e
          | Ok o => Ok (Triple s p o)
          end
      end
  end.

(** /repo/src/triple.rs:34-53: PartialOrd for Triple, given the comparison of
    identifiers. u64 and Ulid are totally ordered so the None branches are dead. *)
Definition triple_cmp {I} (cmp : I -> I -> comparison) (a b : triple I) : comparison :=
  match cmp (sub a) (sub b) with
  | Lt => Lt
  | Gt => Gt
  | Eq =>
      match cmp (pred a) (pred b) with
      | Lt => Lt
      | Gt => Gt
      | Eq => cmp (obj a) (obj b)
      end
  end.

(** The derived PartialEq of Triple (/repo/src/triple.rs:6), given equality of identifiers. *)
Definition triple_eqb {I} (eqb : I -> I -> bool) (a b : triple I) : bool :=
  (eqb (sub a) (sub b) && eqb (pred a) (pred b) && eqb (obj a) (obj b))%bool.

(** /repo/src/triple.rs:56-61 *)
Record props_triple (I NP EP : Type) : Type :=
  PropsTriple { p_sub : I * NP; p_pred : I * EP; p_obj : I * NP }.
Arguments PropsTriple {I NP EP} p_sub p_pred p_obj.
Arguments p_sub {I NP EP} p.
Arguments p_pred {I NP EP} p.
Arguments p_obj {I NP EP} p.

(** /repo/src/triple.rs:63-75: From<PropsTriple> for Triple *)
Definition triple_of_props {I NP EP} (p : props_triple I NP EP) : triple I :=
  Triple (fst (p_sub p)) (fst (p_pred p)) (fst (p_obj p)).

(** /repo/src/triple.rs:78-88 *)
Definition props_triple_map {I NP EP I' NP' EP'}
  (f : I * NP -> I' * NP') (g : I * EP -> I' * EP') (p : props_triple I NP EP)
  : props_triple I' NP' EP' :=
  PropsTriple (f (p_sub p)) (g (p_pred p)) (f (p_obj p)).

(** /repo/src/triple.rs:90-100 *)
Definition props_triple_try_map {I NP EP I' NP' EP' E}
  (f : I * NP -> result E (I' * NP')) (g : I * EP -> result E (I' * EP'))
  (p : props_triple I NP EP) : result E (props_triple I' NP' EP') :=
  match f (p_sub p) with
  | Err e => Err e
  | Ok s =>
      match g (p_pred p) with
      | Err e => Err e
      | Ok q =>
          match f (p_obj p) with
          | Err e => Err e
          | Ok o => Ok (PropsTriple s q o)
          end
      end
  end.

(** /repo/src/lib.rs:49-59 *)
Inductive edge_order : Type := SPO | POS | OSP.

(** /repo/src/lib.rs:61-65 *)
Definition edge_order_default : edge_order := SPO.

(** /repo/src/lib.rs:70-95. A HashSet is the list of its elements in an arbitrary
    order (the hash order is unspecified); repetitions are harmless. *)
Inductive query (I : Type) : Type :=
| QNodeProps (ids : list I)
| QSPO (l : list (I * I * I))
| QO (l : list I)
| QS (l : list I)
| QP (l : list I)
| QPO (l : list (I * I))
| QSO (l : list (I * I))
| QSP (l : list (I * I)).
Arguments QNodeProps {I} ids.
Arguments QSPO {I} l.
Arguments QO {I} l.
Arguments QS {I} l.
Arguments QP {I} l.
Arguments QPO {I} l.
Arguments QSO {I} l.
Arguments QSP {I} l.

(** /repo/src/lib.rs:98-114 *)
Definition query_map {I O} (f : I -> O) (q : query I) : query O :=
  let f2 := fun ab : I * I => let (a, b) := ab in (f a, f b) in
  match q with
  | QNodeProps props => QNodeProps (map f props)
  | QSPO triples =>
      QSPO (map (fun t : I * I * I => let '(s, p, o) := t in (f s, f p, f o)) triples)
  | QO set => QO (map f set)
  | QS set => QS (map f set)
  | QP set => QP (map f set)
  | QPO set => QPO (map f2 set)
  | QSO set => QSO (map f2 set)
  | QSP set => QSP (map f2 set)
  end.

(** [iter.map(f).collect::<Result<_, _>>()]: stops at the first error. *)
Fixpoint collect_result {A B E} (f : A -> result E B) (l : list A) : result E (list B) :=
  match l with
  | [] => Ok []
  | a :: l' =>
      match f a with
      | Err e => Err e
      | Ok b =>
          match collect_result f l' with
          | Err e => Err e
          | Ok bs => Ok (b :: bs)
          end
      end
  end.

(** The closure [|(a, b)| Ok((f(a)?, f(b)?))] (/repo/src/lib.rs:138, 143, 148). *)
Definition try_pair {I O E} (f : I -> result E O) (ab : I * I) : result E (O * O) :=
  match f (fst ab) with
  | Err e => Err e
  | Ok a => match f (snd ab) with Err e => Err e | Ok b => Ok (a, b) end
  end.

(** The closure at /repo/src/lib.rs:130. *)
Definition try_triple {I O E} (f : I -> result E O) (t : I * I * I)
  : result E (O * O * O) :=
  let '(s, p, o) := t in
  match f s with
  | Err e => Err e
  | Ok s' =>
      match f p with
      | Err e => Err e
      | Ok p' => match f o with Err e => Err e | Ok o' => Ok (s', p', o') end
      end
  end.

Definition res_map {E A B} (g : A -> B) (r : result E A) : result E B :=
  match r with Ok a => Ok (g a) | Err e => Err e end.

(** /repo/src/lib.rs:116-152 *)
Definition query_try_map {I O E} (f : I -> result E O) (q : query I) : result E (query O) :=
  match q with
  | QNodeProps props => res_map QNodeProps (collect_result f props)
  | QSPO triples => res_map QSPO (collect_result (try_triple f) triples)
  | QO set => res_map QO (collect_result f set)
  | QS set => res_map QS (collect_result f set)
  | QP set => res_map QP (collect_result f set)
  | QPO set => res_map QPO (collect_result (try_pair f) set)
  | QSO set => res_map QSO (collect_result (try_pair f) set)
  | QSP set => res_map QSP (collect_result (try_pair f) set)
  end.

(** /repo/src/lib.rs:155-159: From<IntoIterator<Item = Triple>> for Query *)
Definition query_from {I} (ts : list (triple I)) : query I :=
  QSPO (map (fun t => (sub t, pred t, obj t)) ts).

(** The argument of the query! macro: /repo/src/lib.rs:311-374. A position is
    either the token [?] or a list of identifiers. *)
Inductive pat (I : Type) : Type := Any | Ids (l : list I).
Arguments Any {I}.
Arguments Ids {I} l.

Inductive macro_input (I : Type) : Type :=
| MNodeProps (nodes : list I)                 (* node props for $nodes *)
| MArrow (s p o : pat I).                     (* $subs -$preds-> $objs *)
Arguments MNodeProps {I} nodes.
Arguments MArrow {I} s p o.

(** Nested for loops of the macro body (/repo/src/lib.rs:328-332, 343-347, 354-358). *)
Definition loop2 {A B} (l1 : list A) (l2 : list B) : list (A * B) :=
  flat_map (fun a => map (fun b => (a, b)) l2) l1.

(** /repo/src/lib.rs:365-371 *)
Definition loop3 {A B C} (l1 : list A) (l2 : list B) (l3 : list C) : list (A * B * C) :=
  flat_map (fun a => flat_map (fun b => map (fun c => (a, b, c)) l3) l2) l1.

(** The rules of query! in the order they are tried (/repo/src/lib.rs:313-373).
    [? -?-> ?] parses with the rule at 317 ($subs = [?]) and then fails to
    compile: None. *)
Definition query_macro {I} (m : macro_input I) : option (query I) :=
  match m with
  | MNodeProps nodes => Some (QNodeProps nodes)
  | MArrow (Ids subs) Any Any => Some (QS subs)
  | MArrow Any (Ids preds) Any => Some (QP preds)
  | MArrow (Ids subs) (Ids preds) Any => Some (QSP (loop2 subs preds))
  | MArrow Any Any (Ids objs) => Some (QO objs)
  | MArrow (Ids subs) Any (Ids objs) => Some (QSO (loop2 subs objs))
  | MArrow Any (Ids preds) (Ids objs) => Some (QPO (loop2 preds objs))
  | MArrow (Ids subs) (Ids preds) (Ids objs) => Some (QSPO (loop3 subs preds objs))
  | MArrow Any Any Any => None
  end.
