(** C24, C25: the query! macro, and mapping of queries and triples. *)
From Coq Require Import List NArith.
From Verif Require Import Core CoreFacts.
Import ListNotations.

(** ** C24: each documented form gives its query kind over the cross product. *)
Theorem C24_macro : forall I (nodes subs preds objs : list I),
  query_macro (MNodeProps nodes) = Some (QNodeProps nodes) /\
  query_macro (MArrow (Ids subs) Any Any) = Some (QS subs) /\
  query_macro (MArrow Any (Ids preds) Any) = Some (QP preds) /\
  query_macro (MArrow Any Any (Ids objs)) = Some (QO objs) /\
  (exists l, query_macro (MArrow (Ids subs) (Ids preds) Any) = Some (QSP l) /\
     forall s p, In (s, p) l <-> In s subs /\ In p preds) /\
  (exists l, query_macro (MArrow (Ids subs) Any (Ids objs)) = Some (QSO l) /\
     forall s o, In (s, o) l <-> In s subs /\ In o objs) /\
  (exists l, query_macro (MArrow Any (Ids preds) (Ids objs)) = Some (QPO l) /\
     forall p o, In (p, o) l <-> In p preds /\ In o objs) /\
  (exists l, query_macro (MArrow (Ids subs) (Ids preds) (Ids objs)) = Some (QSPO l) /\
     forall s p o, In (s, p, o) l <-> In s subs /\ In p preds /\ In o objs).
Proof. exact query_macro_forms. Qed.
Print Assumptions C24_macro.

Example C24_case :
  query_macro (MArrow (Ids [1; 2; 1]%N) (Ids [7; 8]%N) Any) =
    Some (QSP [(1, 7); (1, 8); (2, 7); (2, 8); (1, 7); (1, 8)])%N
  /\ query_macro (MArrow (Ids [1; 2]%N) (Ids []) (Ids [3]%N)) = Some (QSPO []).
Proof. split; reflexivity. Qed.

(** ** C25.  A query is its kind together with the rows of its set. *)
Theorem C25_view : forall I (q q' : query I), kind_of q = kind_of q' -> rows q = rows q' -> q = q'.
Proof. exact @rows_inj. Qed.
Print Assumptions C25_view.

Theorem C25_query_map : forall I O (f : I -> O) (q : query I),
  kind_of (query_map f q) = kind_of q /\ rows (query_map f q) = map (map f) (rows q).
Proof. exact @query_map_rows. Qed.
Print Assumptions C25_query_map.

(** try_map succeeds iff every component does, with the same shape. *)
Theorem C25_query_try_map_ok : forall I O E (f : I -> result E O) (q : query I) (q' : query O),
  query_try_map f q = Ok q' <->
  kind_of q' = kind_of q /\ Forall2 (Forall2 (fun i o => f i = Ok o)) (rows q) (rows q').
Proof. exact @query_try_map_ok. Qed.
Print Assumptions C25_query_try_map_ok.

(** Otherwise the error is that of the first failing component of the first failing row. *)
Theorem C25_query_try_map_err : forall I O E (f : I -> result E O) (q : query I) e,
  query_try_map f q = Err e <->
  exists rows1 r rows2, rows q = rows1 ++ r :: rows2 /\
    (exists pre i post, r = pre ++ i :: post /\ f i = Err e /\
       forall j, In j pre -> exists o, f j = Ok o) /\
    (forall r1, In r1 rows1 -> exists r', Forall2 (fun i o => f i = Ok o) r1 r').
Proof. exact @query_try_map_err. Qed.
Print Assumptions C25_query_try_map_err.

Theorem C25_triple_map : forall I O (f : I -> O) (t : triple I),
  sub (triple_map f t) = f (sub t) /\ pred (triple_map f t) = f (pred t) /\ obj (triple_map f t) = f (obj t).
Proof. exact triple_map_components. Qed.
Print Assumptions C25_triple_map.

Theorem C25_triple_try_map_ok : forall I O E (f : I -> result E O) (t : triple I) (t' : triple O),
  triple_try_map f t = Ok t' <->
  f (sub t) = Ok (sub t') /\ f (pred t) = Ok (pred t') /\ f (obj t) = Ok (obj t').
Proof. exact @triple_try_map_ok. Qed.
Print Assumptions C25_triple_try_map_ok.

Theorem C25_triple_try_map_err : forall I O E (f : I -> result E O) (t : triple I) e,
  triple_try_map f t = Err e <->
  exists pre i post, [sub t; pred t; obj t] = pre ++ i :: post /\ f i = Err e /\
    forall j, In j pre -> exists o, f j = Ok o.
Proof. exact @triple_try_map_err. Qed.
Print Assumptions C25_triple_try_map_err.

Theorem C25_props_triple_map : forall I NP EP I' NP' EP'
    (f : I * NP -> I' * NP') (g : I * EP -> I' * EP') p,
  p_sub (props_triple_map f g p) = f (p_sub p) /\ p_pred (props_triple_map f g p) = g (p_pred p) /\
  p_obj (props_triple_map f g p) = f (p_obj p).
Proof. exact props_triple_map_components. Qed.
Print Assumptions C25_props_triple_map.

Theorem C25_props_triple_try_map_ok : forall I NP EP I' NP' EP' E
    (f : I * NP -> result E (I' * NP')) (g : I * EP -> result E (I' * EP')) p p',
  props_triple_try_map f g p = Ok p' <->
  f (p_sub p) = Ok (p_sub p') /\ g (p_pred p) = Ok (p_pred p') /\ f (p_obj p) = Ok (p_obj p').
Proof. exact @props_triple_try_map_ok. Qed.
Print Assumptions C25_props_triple_try_map_ok.

Theorem C25_props_triple_try_map_err : forall I NP EP I' NP' EP' E
    (f : I * NP -> result E (I' * NP')) (g : I * EP -> result E (I' * EP')) p e,
  props_triple_try_map f g p = Err e <->
  f (p_sub p) = Err e \/
  ((exists x, f (p_sub p) = Ok x) /\
   (g (p_pred p) = Err e \/ ((exists y, g (p_pred p) = Ok y) /\ f (p_obj p) = Err e))).
Proof. exact @props_triple_try_map_err. Qed.
Print Assumptions C25_props_triple_try_map_err.

(** From an iterator of triples: the SPO query of exactly those triples. *)
Theorem C25_from_triples : forall I (ts : list (triple I)),
  exists l, query_from ts = QSPO l /\ forall s p o, In (s, p, o) l <-> In (Triple s p o) ts.
Proof. exact query_from_triples. Qed.
Print Assumptions C25_from_triples.

Theorem C25_props_to_triple : forall I NP EP (p : props_triple I NP EP),
  triple_of_props p = Triple (fst (p_sub p)) (fst (p_pred p)) (fst (p_obj p)).
Proof. exact triple_of_props_ids. Qed.
Print Assumptions C25_props_to_triple.

Definition ex_half (n : N) : result N N := if N.even n then Ok (N.div n 2) else Err n.
Example C25_case :
  query_try_map ex_half (QSO [(2, 4); (6, 8)]%N) = Ok (QSO [(1, 2); (3, 4)]%N)
  /\ query_try_map ex_half (QSO [(2, 4); (6, 7); (5, 8)]%N) = Err 7%N
  /\ rows (query_map N.succ (QSPO [(1, 2, 3)]%N)) = [[2; 3; 4]%N]
  /\ triple_try_map ex_half (Triple 2 5 7)%N = Err 5%N.
Proof. repeat split. Qed.
