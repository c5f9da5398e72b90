(** What calls on an RdfTripleStore over sled should do when several callers make calls of every
    kind, removals included, at the same time.  No proofs here. *)
From Coq Require Import NArith List Bool.
From Verif Require Import Bytes Core IdType Store Spec Prog Sled SledHistory SledSched SledIndex Rdf RdfSpec RdfSled RdfSledSpec
  SledLeaf RdfSledLeaf.
Import ListNotations.

Section Mix.
Context {S NP EP SE BE E : Type} (seqb : S -> S -> bool).
Notation rop := (rop S NP EP E).
Notation EG := (egraph S NP EP).
Notation answer := (routcome (S := S) (SE := SE) (BE := BE) (E := E)).

(** ** Callers that keep out of each other's way *)
Section Apart.
Context (c : entity S -> entity S).

(** The edges that a call adds or changes, and those that it may take away. *)
Definition r_writes (o : rop) (t : triple (entity S)) : Prop :=
  exists u p, (In (RInsertEdge u p) (parts o) \/ In (RMergeEdge u p) (parts o)) /\ triple_map c u = t.
Definition r_erases (o : rop) (t : triple (entity S)) : Prop :=
  match o with
  | RRemoveNode e => sub t = c e \/ obj t = c e
  | RRemoveEdge u => triple_map c u = t
  | _ => False
  end.

(** No caller writes an edge that another one takes away. *)
Definition r_apart (cs : list (rhandle * list rop)) : Prop :=
  forall i j hi hj li lj o o' t, i <> j ->
  nth_error cs i = Some (hi, li) -> nth_error cs j = Some (hj, lj) ->
  In o li -> In o' lj -> r_erases o t -> ~ r_writes o' t.
End Apart.

(** ** What the calls of one caller amount to *)

(** The single calls [s] were performed by calls [l] that answered [rs].  Names get identifiers
    meanwhile: [known] are those that have one at the beginning, [known'] those that have one at
    the end.  A call that does not report a failure answers as it should for the names
    [kn] that have an identifier when it looks them up; if it finds that a name has none it does
    nothing, otherwise it does everything.  A call that reports a failure has done a first part
    of its single calls, not all of them; only remove_edge may report a failure after it took
    effect. *)
Fixpoint r_log_among (known known' : list S) (l : list rop) (rs : list answer) (s : list rop) : Prop :=
  match l, rs with
  | [], [] => s = []
  | o :: l', r :: rs' => exists s1 s2, s = s1 ++ s2 /\ r_log_among known known' l' rs' s2 /\
      if r_failed r then exists n, (n < length (parts o) \/ removes_edge o) /\ s1 = firstn n (parts o)
      else exists kn, incl known kn /\ incl kn known' /\ r = r_answer seqb kn o /\
           s1 = match r with Err (LeftE _) => [] | _ => parts o end
  | _, _ => False
  end.
(** The same of a caller that has got as far as the middle of a call. *)
Definition r_log_among_so_far (known known' : list S) (l : list rop) (s : list rop) : Prop :=
  exists l1 l2 rs s1, l = l1 ++ l2 /\ r_log_among known known' l1 rs s1 /\
  match l2 with [] => s = s1 | o :: _ => exists n, s = s1 ++ firstn n (parts o) end.

Section Together.
Context (mn : NP -> NP -> NP) (me : EP -> EP -> EP) (c : entity S -> entity S).
Definition r_among (ls : list (list rop)) (known : list S) (g : EG) (known' : list S) (g' : EG) : Prop :=
  named (flat_map given (concat ls)) known known' /\
  exists ss s, Forall2 (r_log_among_so_far known known') ls ss /\ shuffle ss s /\
    e_equiv g' (e_run seqb mn me c known' s g).
End Together.
End Mix.

(** ** One epoch after the other: a process of its own, or several at the same time whose scans
    are cut as in RdfSledLeaf.v *)
Section Epochs.
Context {S NP EP SE BE E : Type} (seqb : S -> S -> bool).
Context (cs : codec BE S) (cu : codec BE (Id KUlid)) (cn : codec BE NP) (ce : codec BE EP).
Context (mn : NP -> NP -> NP) (me : EP -> EP -> EP).
Notation crowd := (rcrowd (S := S) (NP := NP) (EP := EP) (SE := SE) (E := E)).

Inductive mepoch : Type :=
| MAlone (f : rlife (S := S) (NP := NP) (EP := EP) (SE := SE) (E := E))
| MTogether (cuts : nat -> nat -> cutting) (k : crowd).
Definition m_crowd (cuts : nat -> nat -> cutting) (k : crowd) (d : rdb) :=
  interleave (rc_schedule k) (rl_callers (SE := SE) cs cu cn ce mn me cuts 0 (rc_callers k)) d.
Definition m_epoch (e : mepoch) (d : rdb) : rdb :=
  match e with MAlone f => rs_live cs cu cn ce mn me f d | MTogether cuts k => snd (m_crowd cuts k d) end.
Definition m_epochs (es : list mepoch) (d : rdb) : rdb := fold_left (fun d e => m_epoch e d) es d.
Definition m_keys (e : mepoch) : list bytes :=
  match e with MAlone f => rs_keys (rl_handle f) (rl_ops f) | MTogether _ k => callers_keys (rc_callers k) end.

(** Callers at the same time keep out of each other's way, as the names are when they end. *)
Fixpoint m_apart (es : list mepoch) (d : rdb) : Prop :=
  match es with
  | [] => True
  | e :: es' =>
      match e with
      | MAlone _ => True
      | MTogether _ k => r_apart (by_name (id_now (SE := SE) cs cu (m_epoch e d))) (rc_callers k)
      end /\ m_apart es' (m_epoch e d)
  end.

Definition m_effect (c : entity S -> entity S) (e : mepoch) (known : list S) (g : egraph S NP EP)
    (known' : list S) (g' : egraph S NP EP) : Prop :=
  match e with
  | MAlone f => r_moment (SE := SE) (BE := BE) seqb mn me c (rl_ops f) known g known' g'
  | MTogether _ k => r_among (SE := SE) (BE := BE) seqb mn me c (map snd (rc_callers k)) known g known' g'
  end.
Fixpoint m_effects (c : entity S -> entity S) (es : list mepoch) (known : list S) (g : egraph S NP EP)
    (known' : list S) (g' : egraph S NP EP) : Prop :=
  match es with
  | [] => (forall s, In s known' <-> In s known) /\ e_equiv g' g
  | e :: es' => exists k1 g1, m_effect c e known g k1 g1 /\ m_effects c es' k1 g1 known' g'
  end.
End Epochs.
