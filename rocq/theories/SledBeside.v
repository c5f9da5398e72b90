(** A reader next to writers: what it means that something was there while it read.
    No proofs here. *)
From Coq Require Import NArith List.
From Verif Require Import Bytes OMap Core IdType Store Mem Spec History Prog Sled SledHistory.
Import ListNotations.

(** Program 0 is the reader, the others are the writers. *)
Definition beside {D SE A B} (reader : prog D SE A) (writers : list (prog D SE B)) : list (prog D SE (A + B)) :=
  bind reader (fun a => Ret (inl a)) :: map (fun p => bind p (fun b => Ret (inr b))) writers.

(** The reader is through and has returned [a]. *)
Definition has_read {D SE A B} (a : A) (ps : list (prog D SE (A + B))) : Prop :=
  nth_error ps 0 = Some (Ret (inl a)).

(** A storage failure met by program 0. *)
Definition met {SE} (schedule : list (nat * option SE)) (x : SE) : Prop := In (0, Some x) schedule.

(** The databases during the execution, from the first one to the last one. *)
Definition during {D SE A} (schedule : list (nat * option SE)) (ps : list (prog D SE A)) (d d1 : D) : Prop :=
  exists s1 s2, schedule = s1 ++ s2 /\ d1 = snd (interleave s1 ps d).

(** The calls that take no property record away (/repo/src/sled/insert.rs,
    /repo/src/sled/merge.rs:38-83). *)
Definition adds_only {k NP EP E} (o : op k NP EP E) : Prop :=
  match o with
  | OInsertNode _ _ | OInsertEdge _ _ | OMergeNode _ _ => True
  | _ => False
  end.

(** The calls that may take the property record of the edge [t] away and write it anew or not:
    remove_node (/repo/src/sled/remove.rs:18-122), remove_edge (remove.rs:124-169), merge_edge
    (/repo/src/sled/merge.rs:85-160), extend (/repo/src/sled/extend.rs:19-65) and merge of a
    store (merge.rs:18-36).  [before_error]: extend and merge stop at the first error of the
    store they read. *)
Definition rewrites {k NP EP E} (o : op k NP EP E) (t : triple (Id k)) : Prop :=
  match o with
  | OInsertNode _ _ | OInsertEdge _ _ | OMergeNode _ _ => False
  | ORemoveNode v => sub t = v \/ obj t = v
  | ORemoveEdge t' | OMergeEdge t' _ => t' = t
  | OExtend s | OMerge s => exists e, In (t, e) (before_error (src_edges s))
  end.

(** One of the callers makes such a call. *)
Definition rewritten {k NP EP E} (cs : list (handle k * list (op k NP EP E))) (t : triple (Id k)) : Prop :=
  exists hl o, In hl cs /\ In o (snd hl) /\ rewrites o t.

(** An iteration run alone on the database lists the edge, or the vertex. *)
Definition lists_edge (SE : Type) {k EP BE} (ce : codec BE EP) (o : edge_order) (d : db) (t : triple (Id k)) (e : EP) : Prop :=
  In (Ok (t, e)) (now SE (s_iter_edges (k := k) (BE := BE) ce o) d).
Definition lists_node (SE : Type) {k NP BE} (cn : codec BE NP) (d : db) (i : Id k) (p : NP) : Prop :=
  In (Ok (i, p)) (now SE (s_iter_vertices (k := k) (BE := BE) cn) d).

(** The edge of an item of an iteration with properties. *)
Definition edge_of {I NP EP} (x : props_triple I NP EP) : triple I :=
  match x with PropsTriple s p ob => Triple (fst s) (fst p) (fst ob) end.
