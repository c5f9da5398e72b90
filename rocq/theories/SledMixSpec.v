(** Calls of every kind by several handles at the same time: what extend and merge amount to
    when others work in between.  No proofs here. *)
From Coq Require Import NArith List.
From Verif Require Import Bytes OMap Core IdType Store Mem Spec History Prog Sled SledHistory SledSched
  SledTornSpec.
Import ListNotations.

Section Mix.
Context {k : idkind} {NP EP SE BE E : Type}.
Notation op := (op k NP EP E).
Notation outcome := (outcome (SE := SE) (BE := BE) (E := E)).

(** A call that answered [r] consisted of the single calls [es] with their answers.  extend
    and merge that succeed make all the calls of their source, and these succeed; when one of
    them fails they stop there and report its failure. *)
Definition carried (x : op * outcome) (es : list (op * outcome)) : Prop :=
  match fst x with
  | OExtend _ | OMerge _ =>
      if succeeded (snd x)
      then snd x = expected (fst x) /\ es = map (fun o => (o, Ok tt)) (elements (fst x))
      else exists l o l', elements (fst x) = l ++ o :: l' /\
             es = map (fun o => (o, Ok tt)) l ++ [(o, snd x)]
  | _ => es = [x]
  end.

(** The single calls of a caller, from its calls. *)
Definition accounts (log es : list (op * outcome)) : Prop :=
  exists ess, Forall2 carried log ess /\ es = concat ess.

(** The edges a call of extend adds. *)
Definition extends (o : op) (t : triple (Id k)) : Prop :=
  match o with OExtend _ => exists e, In (OInsertEdge t e) (elements o) | _ => False end.

(** No caller writes an edge that another one takes away, or that another one extends by. *)
Definition apart (cs : list (handle k * list op)) : Prop :=
  forall i j hi hj li lj o o' a a' t, i <> j ->
  nth_error cs i = Some (hi, li) -> nth_error cs j = Some (hj, lj) ->
  In o li -> In o' lj -> In a (elements o) -> In a' (elements o') ->
  erases a t \/ extends o t -> ~ writes a' t.

(** The storage does not fail the callers that call extend. *)
Definition spared (cs : list (handle k * list op)) (schedule : list (nat * option SE)) : Prop :=
  forall i h l s e, nth_error cs i = Some (h, l) -> In (OExtend s) l -> ~ In (i, Some e) schedule.

End Mix.
