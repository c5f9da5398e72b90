(** TripleStore::try_eq (/repo/src/traits/triplestore.rs:43-86) of two handles of one sled database, a store and itself
    among them, and of two RdfTripleStores over the same names and graph, others using the database.
    No proofs here.

    The iterators of both handles (/repo/src/sled/iter.rs:89-111 and 162-220, /repo/src/rdf/iter.rs:28-51) read leaf by leaf as
    in SledEqTwo.v, from the same trees. *)
From Coq Require Import NArith List Bool.
From Verif Require Import Bytes OMap Core IdType Store Prog Mem MemIndex Spec History Sled SledHistory SledLeaf SledLazy SledBeside SledTables SledIndex SledCopy
  Rdf RdfSpec RdfSled RdfSledLeaf SledTwo SledEqTwo.
Import ListNotations.

(** triplestore.rs:55-68 and 70-83 *)
Section Zip.
Context {D SE ER A : Type} (eqb : A -> A -> bool) (entries : D -> list (bytes * bytes)) (item : bytes * bytes -> prog D SE (result ER A)).
Definition zip_same (cuts cuts' : list bytes) : prog D SE (result (lr_error ER ER) bool) :=
  bind (loop_from entries item (same_next (EA := ER) eqb entries item) None cuts (cursor_new cuts')) (fun x =>
  match fst x with
  | Err (LeftE r) => Ret r
  | Err (RightE e) => bind (ask entries item (snd x)) (fun y =>
      Ret (match fst y with Some _ => Err (LeftE e) | None => Ok false end))
  | Ok _ => bind (ask entries item (snd x)) (fun y =>
      Ret (match fst y with Some _ => Ok false | None => Ok true end))
  end).
End Zip.

(** triplestore.rs:43-86; [cuts], [ecuts]: the ends of the leaves when [self] reads them, [cuts'], [ecuts'] when [other] does. *)
Section Graph.
Context {k : idkind} {NP EP SE BE : Type} (cn : codec BE NP) (ce : codec BE EP) (neqb : NP -> NP -> bool) (eeqb : EP -> EP -> bool).
Definition eq_same (cuts ecuts cuts' ecuts' : list bytes) : prog db SE (result (lr_error (sled_error SE BE) (sled_error SE BE)) bool) :=
  bind (zip_same (pair_eqb (id_eqb (k := k)) neqb) t_node (fun kv => next (node_read cn kv)) cuts cuts') (fun r =>
  match r with
  | Ok true => zip_same (pair_eqb (triple_eqb (id_eqb (k := k))) eeqb) t_spo (fun kv => next (edge_read ce kv)) ecuts ecuts'
  | _ => Ret r
  end).
End Graph.

Section Named.
Context {S NP EP SE BE : Type} (seqb : S -> S -> bool) (neqb : NP -> NP -> bool) (eeqb : EP -> EP -> bool).
Context (cs : codec BE S) (cu : codec BE (Id KUlid)) (cn : codec BE NP) (ce : codec BE EP).
Notation err := (rdf_error S (sled_index_error S (Id KUlid) SE BE) (sled_error SE BE)).
Definition req_same (cuts ecuts cuts' ecuts' : list bytes) : prog rdb SE (result (lr_error err err) bool) :=
  bind (zip_same (pair_eqb (entity_eqb seqb) neqb) (fun d => t_node (r_trees d)) (shown_item (node_item cn) (rs_show_pair cs cu)) cuts cuts') (fun r =>
  match r with
  | Ok true => zip_same (pair_eqb (triple_eqb (entity_eqb seqb)) eeqb) (fun d => t_spo (r_trees d)) (shown_item (edge_of_entry ce SPO) (rs_show_edge cs cu)) ecuts ecuts'
  | _ => Ret r
  end).
End Named.
