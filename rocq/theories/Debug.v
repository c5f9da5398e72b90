(** The Debug implementations of MemTripleStore (/repo/src/mem.rs:120-229) and of SledTripleStore
    (/repo/src/sled.rs:199-328), as lists of lines.  No proofs here.

    Simplified: the text of a line is left open.  The formats write the values in the line in full
    (identifiers by Display, hashes by [{:#016x}], properties by their Debug implementation, an
    IVec as its bytes), so the lines determine the text.  [hash] stands for DefaultHasher::new(), [k.hash(..)],
    finish(): the key hash of mem.rs:142-147 and sled.rs:226-231, a fixed function of the bytes (an
    array hashes like the slice of its elements) to u64. *)
From Coq Require Import NArith List.
From Verif Require Import Bytes OMap Core IdType Store Mem Prog Sled.
Import ListNotations.

Inductive title : Type := TStore | TNodes | TProps | TEdges (o : edge_order).

Inductive line (I NP EP : Type) : Type :=
| Title (x : title)
| NodeLine (i : I) (p : NP)
| PropLine (h : option N) (e : EP)
| EdgeLine (t : triple I) (h : option N).
Arguments Title {I NP EP} x.
Arguments NodeLine {I NP EP} i p.
Arguments PropLine {I NP EP} h e.
Arguments EdgeLine {I NP EP} t h.

(** collect::<HashMap<_, _>>() and collect::<BTreeMap<_, _>>(): the last of equal keys stays. *)
Definition om_collect {K V} (cmp : K -> K -> comparison) (l : list (K * V)) : omap K V :=
  fold_left (fun m kv => om_insert cmp (fst kv) (snd kv) m) l om_empty.

(** Ord for Option<&u64> *)
Definition hash_cmp (a b : option N) : comparison :=
  match a, b with
  | None, None => Eq
  | None, Some _ => Lt
  | Some _, None => Gt
  | Some x, Some y => N.compare x y
  end.

Section MemDebug.
Context {k : idkind} {NP EP : Type} (hash : bytes -> N).
Notation I := (Id k).
Notation T := (triple (Id k)).

(** mem.rs:137-150 *)
Definition mem_hashes (m : mem k NP EP) : omap I N :=
  om_collect id_cmp (map (fun kv => (snd kv, hash (fst kv))) (spo_data m)).

(** mem.rs:157-164 *)
Definition mem_edge_data (m : mem k NP EP) : omap (option N) EP :=
  om_collect hash_cmp (map (fun ie => (om_get id_cmp (fst ie) (mem_hashes m), snd ie)) (edge_props m)).

(** mem.rs:178-190, 194-206, 210-222 *)
Definition mem_edge_lines (o : edge_order) (dc : bytes -> T) (x : omap bytes I) (m : mem k NP EP)
    : list (line I NP EP) :=
  Title (TEdges o) ::
  map (fun kv => EdgeLine (dc (fst kv)) (om_get id_cmp (snd kv) (mem_hashes m))) x.

(** mem.rs:123-226 *)
Definition mem_debug (m : mem k NP EP) : list (line I NP EP) :=
  [Title TStore; Title TNodes] ++
  map (fun ip => NodeLine (fst ip) (snd ip)) (node_props m) ++
  [Title TProps] ++
  map (fun he => PropLine (fst he) (snd he)) (mem_edge_data m) ++
  mem_edge_lines SPO decode_spo (spo_data m) m ++
  mem_edge_lines POS decode_pos (pos_data m) m ++
  mem_edge_lines OSP decode_osp (osp_data m) m.

End MemDebug.

Section SledDebug.
Context {k : idkind} {SE BE : Type} (hash : bytes -> N).
Notation I := (Id k).
Notation err := (sled_error SE BE).
Notation PR A := (prog db SE (result err A)).
Notation ln := (line I unit bytes).

(** [tree.iter().map(..).collect::<Result<Vec<_>, _>>()?] (sled.rs:219-223, 241-245) *)
Definition s_entries (x : db -> tree) : PR (list (bytes * bytes)) :=
  Look (fun d => for_ok (fun kv acc => next (Ret (Ok (acc ++ [kv])))) (x d) []).

(** sled.rs:202-209.  The type at which the properties are deserialised is determined by nothing
    and falls back to [()]; bincode reads no bytes for it and ignores the rest of the value. *)
Definition s_node_lines : PR (list ln) :=
  Look (fun d => for_ok (fun kv acc => next (
    bind_ok (Ret (decode_id (fst kv))) (fun i => Ret (Ok (acc ++ [NodeLine i tt]))))) (t_node d) []).

(** sled.rs:218-235 *)
Definition sled_hashes (spo : list (bytes * bytes)) : omap bytes N :=
  om_collect bytes_cmp (map (fun kv => (snd kv, hash (fst kv))) spo).

(** sled.rs:240-251 *)
Definition sled_edge_data (hashes : omap bytes N) (edges : list (bytes * bytes)) : omap (option N) bytes :=
  om_collect hash_cmp (map (fun ie => (om_get bytes_cmp (fst ie) hashes, snd ie)) edges).

(** sled.rs:264-283, 285-304, 306-325 *)
Definition s_edge_lines (dc : bytes -> triple I) (x : db -> tree) (hashes : omap bytes N) : PR (list ln) :=
  Look (fun d => for_ok (fun kv acc => next (
    bind_ok (Ret (decode_key dc (fst kv))) (fun t =>
    Ret (Ok (acc ++ [EdgeLine t (om_get bytes_cmp (snd kv) hashes)]))))) (x d) []).

Definition s_debug_lines : PR (list ln) :=
  bind_ok s_node_lines (fun nodes =>
  bind_ok (s_entries t_spo) (fun spo =>
  let hashes := sled_hashes spo in
  bind_ok (s_entries t_edge) (fun edges =>
  bind_ok (s_edge_lines decode_spo t_spo hashes) (fun l1 =>
  bind_ok (s_edge_lines decode_pos t_pos hashes) (fun l2 =>
  bind_ok (s_edge_lines decode_osp t_osp hashes) (fun l3 =>
  Ret (Ok ([Title TStore; Title TNodes] ++ nodes ++ [Title TProps] ++
           map (fun he => PropLine (fst he) (snd he)) (sled_edge_data hashes edges) ++
           (Title (TEdges SPO) :: l1) ++ (Title (TEdges POS) :: l2) ++ (Title (TEdges OSP) :: l3))))))))).

(** sled.rs:199-328.  Every error becomes std::fmt::Error, [Err tt]; what has been written by then
    is left out. *)
Definition s_debug : prog db SE (result unit (list ln)) :=
  bind s_debug_lines (fun r => Ret (match r with Ok l => Ok l | Err _ => Err tt end)).

End SledDebug.
