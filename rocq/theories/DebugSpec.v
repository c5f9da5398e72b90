(** What the Debug output of a store should be, in terms of the graph.  No proofs here. *)
From Coq Require Import NArith List Sorted.
From Verif Require Import Bytes OMap Core IdType Store Spec History Prog Sled SledHistory Debug.
Import ListNotations.

Section Spec.
Context {k : idkind} {NP EP NP' EP' : Type} (hash : bytes -> N).
Notation T := (triple (Id k)).

(** No two edges of [g] have the same hash. *)
Definition no_collision (g : graph k NP EP) : Prop :=
  forall t u, g_edge g t <> None -> g_edge g u <> None -> hash (encode_spo t) = hash (encode_spo u) -> t = u.

(** The nodes in increasing order, with what is written for their properties. *)
Definition node_lines (shown : NP -> NP' -> Prop) (g : graph k NP EP) (l : list (Id k * NP')) : Prop :=
  StronglySorted (fun x y => id_lt (fst x) (fst y)) l /\
  (forall i p, In (i, p) l -> exists q, g_node g i = Some q /\ shown q p) /\
  (forall i q, g_node g i = Some q -> exists p, In (i, p) l).

(** The properties of the edges, in increasing order of the hashes of the edges. *)
Definition prop_lines (shown : EP -> EP' -> Prop) (g : graph k NP EP) (l : list (N * EP')) : Prop :=
  StronglySorted (fun x y => (fst x < fst y)%N) l /\
  (forall h e, In (h, e) l -> exists t q, g_edge g t = Some q /\ hash (encode_spo t) = h /\ shown q e) /\
  (forall t q, g_edge g t = Some q -> exists e, In (hash (encode_spo t), e) l).

(** The edges of each order. *)
Definition edge_lines (g : graph k NP EP) (o : edge_order) (l : list T) : Prop :=
  StronglySorted (edge_lt o) l /\ forall t, In t l <-> g_edge g t <> None.

(** The lines, given these; [leak] are the lines for records without an edge. *)
Definition page (ns : list (Id k * NP')) (leak : list EP') (ps : list (N * EP')) (es : edge_order -> list T)
    : list (line (Id k) NP' EP') :=
  let edges o := Title (TEdges o) :: map (fun t => EdgeLine t (Some (hash (encode_spo t)))) (es o) in
  [Title TStore; Title TNodes] ++ map (fun ip => NodeLine (fst ip) (snd ip)) ns ++
  [Title TProps] ++ map (fun e => PropLine None e) leak ++ map (fun he => PropLine (Some (fst he)) (snd he)) ps ++
  edges SPO ++ edges POS ++ edges OSP.

End Spec.

(** What a MemTripleStore that holds [g] should print: everything, in full. *)
Definition prints {k NP EP} (hash : bytes -> N) (g : graph k NP EP) (l : list (line (Id k) NP EP)) : Prop :=
  exists ns ps es, node_lines eq g ns /\ prop_lines hash eq g ps /\ (forall o, edge_lines g o (es o)) /\
    l = page hash ns [] ps es.

(** What a SledTripleStore that holds [g] prints: of the nodes only the identifiers, of the
    properties of edges the serialised bytes; [leak] for records that belong to no edge. *)
Definition s_prints {k NP EP BE} (ce : codec BE EP) (hash : bytes -> N) (g : graph k NP EP) (leak : list bytes)
    (l : list (line (Id k) unit bytes)) : Prop :=
  exists ns ps es, node_lines (fun _ p => p = tt) g ns /\ prop_lines hash (fun e b => ser ce e = Ok b) g ps /\
    (forall o, edge_lines g o (es o)) /\ l = page hash ns leak ps es.

(** What it prints when the orders may differ on the edges in [K]: the nodes, the properties and the
    SPO order as before; the other orders may lack an edge of [K], or show it without its hash. *)
Definition s_prints_but {k NP EP BE} (ce : codec BE EP) (hash : bytes -> N) (K : list (triple (Id k))) (g : graph k NP EP)
    (leak : list bytes) (l : list (line (Id k) unit bytes)) : Prop :=
  exists ns ps es hs, node_lines (fun _ p => p = tt) g ns /\ prop_lines hash (fun e b => ser ce e = Ok b) g ps /\
    edge_lines g SPO (es SPO) /\ (forall t, In t (es SPO) -> hs SPO t = Some (hash (encode_spo t))) /\
    (forall o, StronglySorted (edge_lt o) (es o) /\ (forall t, In t (es o) -> g_edge g t <> None) /\
       (forall t, g_edge g t <> None -> ~ In t K -> In t (es o)) /\
       (forall t, In t (es o) -> hs o t = Some (hash (encode_spo t)) \/ (hs o t = None /\ In t K))) /\
    l = [Title TStore; Title TNodes] ++ map (fun ip => NodeLine (fst ip) (snd ip)) ns ++
        [Title TProps] ++ map (fun e => PropLine None e) leak ++ map (fun he => PropLine (Some (fst he)) (snd he)) ps ++
        flat_map (fun o => Title (TEdges o) :: map (fun t => EdgeLine t (hs o t)) (es o)) [SPO; POS; OSP].

(** The databases left by processes that fail and die anywhere, unless they call extend; and by calls
    of any kind, if none of them reported a failure. *)
Inductive left_by {k NP EP SE BE} (E : Type) (cn : codec BE NP) (ce : codec BE EP) mn me : db -> Prop :=
| left_lives (ls : list (life (k := k) (NP := NP) (EP := EP) (SE := SE) (E := E))) :
    NoDup (life_keys ls) ->
    extends_done cn ce mn me ls db_new ->
    left_by E cn ce mn me (lives cn ce mn me ls db_new)
| left_calls (h : handle k) (l : list (op k NP EP E)) (faults : list (option SE)) :
    NoDup (history_keys h l) ->
    (forall r, In r (fst (ret_of (sled_history cn ce mn me l h) faults db_new)) -> ~ failed r) ->
    left_by E cn ce mn me (db_of (sled_history cn ce mn me l h) faults db_new).
Arguments left_by {k NP EP} SE {BE} E cn ce mn me d.
