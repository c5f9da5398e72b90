(** Histories of API calls on a SledTripleStore, what they need from the environment, and
    what they should do.  No proofs here. *)
From Coq Require Import NArith List.
From Verif Require Import Bytes OMap Core IdType Store Mem Spec History Prog Sled.
Import ListNotations.

(** ** bincode *)
Section Codec.
Context {BE P : Type} (c : codec BE P).
(** What was serialized can be deserialized. *)
Definition codec_ok : Prop := forall p b, ser c p = Ok b -> de c b = Ok p.
(** Serialization does not fail. *)
Definition codec_total : Prop := forall p, exists b, ser c p = Ok b.
End Codec.

(** ** The programs *)
Section History.
Context {k : idkind} {NP EP SE BE E : Type} (cn : codec BE NP) (ce : codec BE EP).
Context (mn : NP -> NP -> NP) (me : EP -> EP -> EP).
Notation err := (sled_error SE BE).
Notation P A := (prog db SE A).
Notation op := (op k NP EP E).
Notation G := (graph k NP EP).

(** The outcome of a call, with the errors of extend and merge on the right. *)
Definition outcome : Type := result (lr_error err E) unit.

Definition left_error (r : result err unit) : outcome :=
  match r with Ok _ => Ok tt | Err e => Err (LeftE e) end.

Definition lift (p : P (result err unit * handle k)) : P (outcome * handle k) :=
  bind p (fun rh => Ret (left_error (fst rh), snd rh)).

(** One call of the API through a handle. *)
Definition sled_apply (o : op) (h : handle k) : P (outcome * handle k) :=
  match o with
  | OInsertNode n p => lift (and_handle h (s_insert_node cn n p))
  | OInsertEdge t e => lift (s_insert_edge ce t e h)
  | ORemoveNode n => lift (and_handle h (s_remove_node n))
  | ORemoveEdge t => lift (and_handle h (s_remove_edge t))
  | OMergeNode n p => lift (and_handle h (s_merge_node cn mn n p))
  | OMergeEdge t e => lift (s_merge_edge ce me t e h)
  | OExtend s => s_extend cn ce s h
  | OMerge s => s_merge cn ce mn me s h
  end.

(** Several calls in a row; a failing call does not stop the caller. *)
Fixpoint sled_history (l : list op) (h : handle k) : P (list outcome * handle k) :=
  match l with
  | [] => Ret ([], h)
  | o :: l' =>
      bind (sled_apply o h) (fun rh =>
      bind (sled_history l' (snd rh)) (fun rsh => Ret (fst rh :: fst rsh, snd rsh)))
  end.

(** The database is used by one handle after the other (SledTripleStore::new, sled.rs:157-178,
    opens existing trees as they are). *)
Fixpoint sled_sessions (l : list (handle k * list op)) : P (list (list outcome)) :=
  match l with
  | [] => Ret []
  | (h, ops) :: l' =>
      bind (sled_history ops h) (fun rs =>
      bind (sled_sessions l') (fun rss => Ret (fst rs :: rss)))
  end.

(** ** Identifiers drawn *)

(** How many identifiers a call takes from the generator, and from Ulid::new(), at most. *)
Definition draws (o : op) : nat :=
  match o with
  | OInsertEdge _ _ | OMergeEdge _ _ => 1
  | OMerge s => length (before_error (src_edges s))
  | _ => 0
  end.
Definition draws_ulid (o : op) : nat :=
  match o with
  | OExtend s => length (before_error (src_edges s))
  | _ => 0
  end.

Definition sum (l : list nat) : nat := fold_right plus 0 l.

Definition next_ids {j} (g : gen j) (n : nat) : list (Id j) := map (g_seq g) (seq (g_pos g) n).

(** The property record keys that a history may draw through a handle. *)
Definition history_keys (h : handle k) (l : list op) : list bytes :=
  map to_be_bytes (next_ids (h_gen h) (sum (map draws l))) ++
  map to_be_bytes (next_ids (h_ulid h) (sum (map draws_ulid l))).

Definition session_keys (l : list (handle k * list op)) : list bytes :=
  flat_map (fun hl => history_keys (fst hl) (snd hl)) l.

(** ** What a call does to the graph, in steps *)
Definition bulk_steps (fn : Id k -> NP -> G -> G) (fe : triple (Id k) -> EP -> G -> G)
    (s : source k NP EP E) : list (G -> G) :=
  map (fun ip => fn (fst ip) (snd ip)) (before_error (src_nodes s)) ++
  match first_error (src_nodes s) with
  | Some _ => []
  | None => map (fun te => fe (fst te) (snd te)) (before_error (src_edges s))
  end.

Definition op_steps (o : op) : list (G -> G) :=
  match o with
  | OInsertNode n p => [g_put_node n p]
  | OInsertEdge t e => [g_put_edge t e]
  | ORemoveNode n => [g_del_node n]
  | ORemoveEdge t => [g_del_edge t]
  | OMergeNode n p => [g_merge_node mn n p]
  | OMergeEdge t e => [g_merge_edge me t e]
  | OExtend s => bulk_steps g_put_node g_put_edge s
  | OMerge s => bulk_steps (g_merge_node mn) (g_merge_edge me) s
  end.

Definition run_steps (l : list (G -> G)) (g : G) : G := fold_left (fun g f => f g) l g.

(** The error a call must report when the storage works. *)
Definition op_error (o : op) : option E :=
  match o with
  | OExtend s | OMerge s => bulk_error s
  | _ => None
  end.

Definition expected (o : op) : outcome :=
  match op_error o with None => Ok tt | Some e => Err (RightE e) end.

(** How many calls of insert_edge met an edge that was there already. *)
Fixpoint replacements (l : list op) (g : G) : nat :=
  match l with
  | [] => 0
  | o :: l' =>
      match o with
      | OInsertEdge t _ => match g_edge g t with Some _ => 1 | None => 0 end
      | _ => 0
      end + replacements l' (spec_apply mn me o g)
  end.

(** ** What calls that may fail do to the graph *)

(** The storage or the serialiser failed. *)
Definition failed (r : outcome) : Prop := match r with Err (LeftE _) => True | _ => False end.

(** The only errors a call may report on its own account: a failure of the storage that
    happened, or a failure of the serialiser. *)
Definition caused (faults : list (option SE)) (r : outcome) : Prop :=
  match r with
  | Err (LeftE (SledError x)) => In (Some x) faults
  | Err (LeftE (SerializationError b)) => (exists p, ser cn p = Err b) \/ (exists p, ser ce p = Err b)
  | Err (LeftE _) => False
  | _ => True
  end.

(** A call with outcome [r] turns [g] into [g']: it does everything, or reports a failure and
    does a first part of its steps. *)
Definition effect (o : op) (r : outcome) (g g' : G) : Prop :=
  match r with
  | Err (LeftE _) => exists c, g_equiv g' (run_steps (firstn c (op_steps o)) g)
  | _ => r = expected o /\ g_equiv g' (spec_apply mn me o g)
  end.

Fixpoint tracks (l : list op) (rs : list outcome) (g g' : G) : Prop :=
  match l, rs with
  | [], [] => g_equiv g' g
  | o :: l', r :: rs' => exists g1, effect o r g g1 /\ tracks l' rs' g1 g'
  | _, _ => False
  end.

(** [g'] is what a history makes of [g] up to some moment: some calls are complete, the next
    has done a first part of its steps. *)
Definition moment (l : list op) (g g' : G) : Prop :=
  exists l1 l2 rs1 g1, l = l1 ++ l2 /\ tracks l1 rs1 g g1 /\
  match l2 with
  | [] => g_equiv g' g1
  | o :: _ => exists c, g_equiv g' (run_steps (firstn c (op_steps o)) g1)
  end.

(** A process opens the database, performs calls while the storage fails here and there, and
    dies after a number of storage steps (or stops, if there are fewer). *)
Record life : Type := Life { lf_handle : handle k; lf_ops : list op; lf_faults : list (option SE); lf_steps : nat }.

Definition live (f : life) (d : db) : db :=
  crash (lf_steps f) (sled_history (lf_ops f) (lf_handle f)) (lf_faults f) d.
Definition lives (l : list life) (d : db) : db := fold_left (fun d f => live f d) l d.

Definition life_keys (l : list life) : list bytes :=
  flat_map (fun f => history_keys (lf_handle f) (lf_ops f)) l.

(** The processes that called extend have made all of their calls, and the storage and the
    serialiser have not failed them.  The others may have failed and died anywhere. *)
Definition not_extend (o : op) : Prop := match o with OExtend _ => False | _ => True end.
Definition whole_life (f : life) (d : db) : Prop :=
  Forall not_extend (lf_ops f) \/
  let p := sled_history (lf_ops f) (lf_handle f) in
  live f d = db_of p (lf_faults f) d /\ forall r, In r (fst (ret_of p (lf_faults f) d)) -> ~ failed r.
Fixpoint extends_done (l : list life) (d : db) : Prop :=
  match l with
  | [] => True
  | f :: l' => whole_life f d /\ extends_done l' (live f d)
  end.

Fixpoint moments (l : list (list op)) (g g' : G) : Prop :=
  match l with
  | [] => g_equiv g' g
  | ops :: l' => exists g1, moment ops g g1 /\ moments l' g1 g'
  end.

End History.

(** ** What a SledTripleStore shows when the storage works *)
Section Show.
Context {k : idkind} {NP EP BE : Type} (SE : Type) (cn : codec BE NP) (ce : codec BE EP).

Definition now {A} (p : prog db SE A) (d : db) : A := ret_of p [] d.

(** The vertices, and the edges in each of the three orders, read through a handle. *)
Definition sled_shows (d : db) (g : graph k NP EP) : Prop :=
  lists_nodes (now (s_iter_vertices cn) d) (g_node g) /\
  forall o, lists_edges o (now (s_iter_edges ce o) d) (g_edge g).

End Show.
