(** RdfTripleStore over a SledHashIndex and a SledTripleStore: /repo/src/rdf.rs and
    /repo/src/rdf/*.rs at NameIndex = SledHashIndex<String, Ulid>,
    TripleStorage = SledTripleStore<Ulid, ..>.  No proofs here.

    The database is the trees of the index and the trees of the graph; both are opened from a
    sled::Db, the same one or two.  A handle (an RdfTripleStore) holds references to them, the
    handle of its graph, and the identifiers that Ulid::new() (rdf.rs:84) will return to it, an
    arbitrary sequence.  Simplification: sled::Error and bincode::Error of the index and of the
    graph are the same types [SE] and [BE]. *)
From Coq Require Import NArith List Bool.
From Verif Require Import Bytes OMap Core IdType Store Mem MemIndex Spec Prog Sled SledHistory SledIndex Rdf RdfSpec.
Import ListNotations.

Record rdb : Type := RDb {
  r_names : idb;
  r_trees : db
}.
Definition rdb_new : rdb := RDb idb_new db_new.

Record rhandle : Type := RHandle {
  rh_graph : handle KUlid;
  rh_ulids : gen KUlid
}.

(** ** Programs of the index and of the graph, run on the whole database *)
Section Parts.
Context {SE : Type}.

Fixpoint on_names {A} (p : prog idb SE A) : prog rdb SE A :=
  match p with
  | Ret a => Ret a
  | Look k => Look (fun d => on_names (k (r_names d)))
  | Act u k e => Act (fun d => RDb (u (r_names d)) (r_trees d)) (fun d => on_names (k (r_names d))) (fun x => on_names (e x))
  end.

Fixpoint on_graph {A} (p : prog db SE A) : prog rdb SE A :=
  match p with
  | Ret a => Ret a
  | Look k => Look (fun d => on_graph (k (r_trees d)))
  | Act u k e => Act (fun d => RDb (r_names d) (u (r_trees d))) (fun d => on_graph (k (r_trees d))) (fun x => on_graph (e x))
  end.

(** [iter.map(f).collect::<Result<Vec<_>, _>>()] *)
Fixpoint collect_prog {D A B E} (f : A -> prog D SE (result E B)) (l : list A) : prog D SE (result E (list B)) :=
  match l with
  | [] => Ret (Ok [])
  | a :: l' => bind_ok (f a) (fun b => bind_ok (collect_prog f l') (fun bs => Ret (Ok (b :: bs))))
  end.
End Parts.

Section RdfSled.
Context {S NP EP SE BE : Type}.
Context (cs : codec BE S) (cu : codec BE (Id KUlid)) (cn : codec BE NP) (ce : codec BE EP).
Notation I := (Id KUlid).
Notation ent := (entity S).
Notation ierr := (sled_index_error S (Id KUlid) SE BE).
Notation gerr := (sled_error SE BE).
Notation err := (rdf_error S ierr gerr).
Notation P A := (prog rdb SE A).
Notation PR A := (prog rdb SE (result err A)).
Notation PH A := (prog rdb SE (result err A * rhandle)).

(** [.map_err(NameIndexStorageError)] and [.map_err(GraphStorageError)] *)
Definition from_names {A} (r : result ierr A) : result err A :=
  match r with Ok a => Ok a | Err e => Err (NameIndexStorageError e) end.
Definition from_graph {A} (r : result gerr A) : result err A :=
  match r with Ok a => Ok a | Err e => Err (GraphStorageError e) end.

(** rdf.rs:70-93 *)
Definition rs_lookup_or_create (e : ent) (h : rhandle) : PH I :=
  match e with
  | EString s =>
      bind (on_names (si_left_to_right cs cu s)) (fun r =>                      (* 76-79 *)
      match r with
      | Err x => Ret (Err (NameIndexStorageError x), h)
      | Ok (Some id) => Ret (Ok id, h)
      | Ok None =>
          let (id, u) := fresh (rh_ulids h) in                                  (* 84 *)
          bind (on_names (si_set cs cu s id)) (fun r =>                         (* 85-87 *)
          Ret (match r with Ok _ => Ok id | Err x => Err (NameIndexStorageError x) end,
               RHandle (rh_graph h) u))
      end)
  | EUlid id => Ret (Ok id, h)
  end.

(** rdf.rs:95-107 *)
Definition rs_lookup_entity (e : ent) : PR I :=
  match e with
  | EString s =>
      bind (on_names (si_left_to_right cs cu s)) (fun r =>
      Ret (match r with
           | Err x => Err (NameIndexStorageError x)
           | Ok (Some id) => Ok id
           | Ok None => Err (NameNotFound s)
           end))
  | EUlid id => Ret (Ok id)
  end.

(** rdf.rs:109-122 *)
Definition rs_lookup_id (id : I) : PR ent :=
  bind (on_names (si_right_to_left cs cu id)) (fun r =>
  Ret (match r with
       | Err x => Err (NameIndexStorageError x)
       | Ok (Some s) => Ok (EString s)
       | Ok None => Ok (EUlid id)
       end)).

(** Triple::try_map (/repo/src/triple.rs:22-31) with a closure that uses the store. *)
Definition try_map_prog {A B} (f : A -> PR B) (t : triple A) : PR (triple B) :=
  bind_ok (f (sub t)) (fun s =>
  bind_ok (f (pred t)) (fun p =>
  bind_ok (f (obj t)) (fun o => Ret (Ok (Triple s p o))))).

(** [let x = p?; f(x)] with a handle. *)
Definition bind_h {A B} (p : PH A) (f : A -> rhandle -> PH B) : PH B :=
  bind p (fun rh => match fst rh with Ok a => f a (snd rh) | Err e => Ret (Err e, snd rh) end).

Definition rs_create3 (t : triple ent) (h : rhandle) : PH (triple I) :=
  bind_h (rs_lookup_or_create (sub t) h) (fun s h =>
  bind_h (rs_lookup_or_create (pred t) h) (fun p h =>
  bind_h (rs_lookup_or_create (obj t) h) (fun o h => Ret (Ok (Triple s p o), h)))).

(** [self.graph.call(..).map_err(GraphStorageError)] *)
Definition graph_call (f : handle KUlid -> prog db SE (result gerr unit * handle KUlid)) (h : rhandle) : PH unit :=
  bind (on_graph (f (rh_graph h))) (fun rh => Ret (from_graph (fst rh), RHandle (snd rh) (rh_ulids h))).

(** /repo/src/rdf/insert.rs:16-28 *)
Definition rs_insert_node (e : ent) (p : NP) (h : rhandle) : PH unit :=
  bind_h (rs_lookup_or_create e h) (fun id => graph_call (fun g => and_handle g (s_insert_node cn id p))).
Definition rs_insert_edge (t : triple ent) (p : EP) (h : rhandle) : PH unit :=
  bind_h (rs_create3 t h) (fun t => graph_call (s_insert_edge ce t p)).

(** /repo/src/rdf/remove.rs:13-23 *)
Definition rs_remove_node (e : ent) (h : rhandle) : PH unit :=
  bind_h (bind (rs_lookup_entity e) (fun r => Ret (r, h))) (fun id =>
  graph_call (fun g => and_handle g (s_remove_node id))).
Definition rs_remove_edge (t : triple ent) (h : rhandle) : PH unit :=
  bind_h (bind (try_map_prog rs_lookup_entity t) (fun r => Ret (r, h))) (fun t =>
  graph_call (fun g => and_handle g (s_remove_edge t))).

(** [for r in iter { let x = r.map_err(Right)?; self.step(x).map_err(Left)? }] *)
Fixpoint rs_for_each {A E} (step : A -> rhandle -> PH unit) (l : list (result E A)) (h : rhandle)
    : prog rdb SE (result (lr_error err E) unit * rhandle) :=
  match l with
  | [] => Ret (Ok tt, h)
  | Err e :: _ => Ret (Err (RightE e), h)
  | Ok a :: l' =>
      bind (step a h) (fun rh =>
      match fst rh with
      | Err e => Ret (Err (LeftE e), snd rh)
      | Ok _ => rs_for_each step l' (snd rh)
      end)
  end.

(** The two loops of extend.rs:20-36 and merge.rs:20-36. *)
Definition rs_bulk {E} (fn : ent -> NP -> rhandle -> PH unit) (fe : triple ent -> EP -> rhandle -> PH unit)
    (other : rdf_source S NP EP E) (h : rhandle) : prog rdb SE (result (lr_error err E) unit * rhandle) :=
  bind (rs_for_each (fun ip => fn (fst ip) (snd ip)) (rs_nodes other) h) (fun rh =>
  match fst rh with
  | Err e => Ret (Err e, snd rh)
  | Ok _ => rs_for_each (fun te => fe (fst te) (snd te)) (rs_edges other) (snd rh)
  end).

(** /repo/src/rdf/extend.rs:16-37; it does not use extend of the graph. *)
Definition rs_extend {E} : rdf_source S NP EP E -> rhandle -> prog rdb SE (result (lr_error err E) unit * rhandle) :=
  rs_bulk rs_insert_node rs_insert_edge.

Section Merge.
Context (mn : NP -> NP -> NP) (me : EP -> EP -> EP).
(** /repo/src/rdf/merge.rs:39-56 *)
Definition rs_merge_node (e : ent) (p : NP) (h : rhandle) : PH unit :=
  bind_h (rs_lookup_or_create e h) (fun id => graph_call (fun g => and_handle g (s_merge_node cn mn id p))).
Definition rs_merge_edge (t : triple ent) (p : EP) (h : rhandle) : PH unit :=
  bind_h (rs_create3 t h) (fun t => graph_call (s_merge_edge ce me t p)).
(** /repo/src/rdf/merge.rs:16-37 *)
Definition rs_merge {E} : rdf_source S NP EP E -> rhandle -> prog rdb SE (result (lr_error err E) unit * rhandle) :=
  rs_bulk rs_merge_node rs_merge_edge.
End Merge.

(** *** /repo/src/rdf/iter.rs.  An iterator of the graph is a snapshot here, as in Sled.v; every
    item is obtained from the graph and then its identifiers are looked up in the index. *)
Definition shown_item {A B} (item : bytes * bytes -> prog db SE (result gerr A)) (show : A -> PR B)
    (kv : bytes * bytes) : PR B :=
  bind (on_graph (next (item kv))) (fun r =>
  match r with Ok a => show a | Err e => Ret (Err (GraphStorageError e)) end).
Definition rs_scan {A B} (entries : db -> list (bytes * bytes)) (item : bytes * bytes -> prog db SE (result gerr A))
    (show : A -> PR B) : P (list (result err B)) :=
  Look (fun d => map_prog (shown_item item show) (entries (r_trees d))).

(** The entries and the items of the iterators of SledTripleStore (/repo/src/sled/iter.rs:99-217). *)
Definition node_item (kv : bytes * bytes) : prog db SE (result gerr (I * NP)) :=
  bind_ok (Ret (decode_id (fst kv))) (fun i => bind_ok (bincode (de cn (snd kv))) (fun v => Ret (Ok (i, v)))).
Definition edge_entries (o : edge_order) : db -> tree :=
  match o with SPO => t_spo | POS => t_pos | OSP => t_osp end.
Definition edge_decode (o : edge_order) : bytes -> triple I :=
  match o with SPO => decode_spo | POS => decode_pos | OSP => decode_osp end.
Definition edge_of_entry (o : edge_order) (kv : bytes * bytes) : prog db SE (result gerr (triple I * EP)) :=
  bind_ok (Ret (decode_key (edge_decode o) (fst kv))) (fun t => edge_item ce t (snd kv)).
Definition props_of_entry (o : edge_order) (kv : bytes * bytes) : prog db SE (result gerr (props_triple I NP EP)) :=
  bind_ok (Ret (decode_key (edge_decode o) (fst kv))) (fun t => s_iter_impl cn ce t (snd kv)).

(** The closures of iter.rs. *)
Definition rs_show_pair {X} (ip : I * X) : PR (ent * X) :=
  bind_ok (rs_lookup_id (fst ip)) (fun e => Ret (Ok (e, snd ip))).
Definition rs_show_edge (te : triple I * EP) : PR (triple ent * EP) :=
  bind_ok (try_map_prog rs_lookup_id (fst te)) (fun t => Ret (Ok (t, snd te))).
(** PropsTriple::try_map (/repo/src/triple.rs:90-101) *)
Definition rs_show_props (t : props_triple I NP EP) : PR (props_triple ent NP EP) :=
  bind_ok (rs_show_pair (p_sub t)) (fun s =>
  bind_ok (rs_show_pair (p_pred t)) (fun p =>
  bind_ok (rs_show_pair (p_obj t)) (fun o => Ret (Ok (PropsTriple s p o))))).

(** iter.rs:18-26: the vertices of the graph first, the names afterwards. *)
Definition rs_vertices : PR (list ent) :=
  bind (on_graph s_vertices) (fun r =>
  match r with Err e => Ret (Err (GraphStorageError e)) | Ok is => collect_prog rs_lookup_id is end).
(** iter.rs:53-60 *)
Definition rs_iter_vertices : P (list (result err (ent * NP))) := rs_scan t_node node_item rs_show_pair.
(** iter.rs:76-87 *)
Definition rs_iter_edges (o : edge_order) : P (list (result err (triple ent * EP))) :=
  rs_scan (edge_entries o) (edge_of_entry o) rs_show_edge.
(** iter.rs:62-74 *)
Definition rs_iter_edges_with_props (o : edge_order) : P (list (result err (props_triple ent NP EP))) :=
  rs_scan (edge_entries o) (props_of_entry o) rs_show_props.

(** iter.rs:28-51; the two iterators are run one after the other here. *)
Definition rs_iter_nodes (o : edge_order) : P (list (result err (ent * NP)) * list (result err (triple ent * EP))) :=
  bind (rs_scan t_node node_item rs_show_pair) (fun ns =>
  bind (rs_scan (edge_entries o) (edge_of_entry o) rs_show_edge) (fun es => Ret (ns, es))).

(** iter.rs:98-127; the items of into_iter_nodes of the graph are those of /repo/src/sled/iter.rs:226-301. *)
Definition into_edge_of_entry (o : edge_order) (kv : bytes * bytes) : prog db SE (result gerr (triple I * EP)) :=
  bind_ok (Ret (decode_key (edge_decode o) (fst kv))) (fun t =>
  bind_ok (tree_get TEdge (snd kv)) (fun data =>
  bind_ok (opt_de ce data) (fun pred_data =>
  match pred_data with
  | Some p => Ret (Ok (t, p))
  | None => Ret (Err MissingPropertyData)
  end))).
Definition rs_into_iter_nodes (o : edge_order) : P (list (result err (ent * NP)) * list (result err (triple ent * EP))) :=
  bind (rs_scan t_node node_item rs_show_pair) (fun ns =>
  bind (rs_scan (edge_entries o) (into_edge_of_entry o) rs_show_edge) (fun es => Ret (ns, es))).
(** iter.rs:129-135, 153-165 and 137-151 over /repo/src/sled/iter.rs:303-417 *)
Definition rs_into_iter_vertices : P (list (result err (ent * NP))) := rs_scan t_node node_item rs_show_pair.
Definition rs_into_iter_edges (o : edge_order) : P (list (result err (triple ent * EP))) :=
  rs_scan (edge_entries o) (edge_of_entry o) rs_show_edge.
Definition rs_into_iter_edges_with_props (o : edge_order) : P (list (result err (props_triple ent NP EP))) :=
  rs_scan (edge_entries o) (props_of_entry o) rs_show_props.

(** An RDF store over sled consumed by value, read at once from a database that nobody writes
    meanwhile. *)
Definition rs_source (d : rdb) : rdf_source S NP EP err :=
  RdfSource (fst (ret_of (rs_into_iter_nodes SPO) [] d)) (snd (ret_of (rs_into_iter_nodes SPO) [] d)).

(** *** /repo/src/rdf/query.rs *)

(** Query::try_map (/repo/src/lib.rs:116-152) with a closure that uses the store. *)
Definition pair_prog {A B} (f : A -> PR B) (ab : A * A) : PR (B * B) :=
  bind_ok (f (fst ab)) (fun a => bind_ok (f (snd ab)) (fun b => Ret (Ok (a, b)))).
Definition triple_prog {A B} (f : A -> PR B) (t : A * A * A) : PR (B * B * B) :=
  let '(s, p, o) := t in
  bind_ok (f s) (fun s => bind_ok (f p) (fun p => bind_ok (f o) (fun o => Ret (Ok (s, p, o))))).
Definition query_try_prog {A B} (f : A -> PR B) (q : query A) : PR (query B) :=
  match q with
  | QNodeProps l => bind_ok (collect_prog f l) (fun l => Ret (Ok (QNodeProps l)))
  | QSPO l => bind_ok (collect_prog (triple_prog f) l) (fun l => Ret (Ok (QSPO l)))
  | QO l => bind_ok (collect_prog f l) (fun l => Ret (Ok (QO l)))
  | QS l => bind_ok (collect_prog f l) (fun l => Ret (Ok (QS l)))
  | QP l => bind_ok (collect_prog f l) (fun l => Ret (Ok (QP l)))
  | QPO l => bind_ok (collect_prog (pair_prog f) l) (fun l => Ret (Ok (QPO l)))
  | QSO l => bind_ok (collect_prog (pair_prog f) l) (fun l => Ret (Ok (QSO l)))
  | QSP l => bind_ok (collect_prog (pair_prog f) l) (fun l => Ret (Ok (QSP l)))
  end.

(** The errors of run: on the left those of this store, on the right those of the result, an
    RdfTripleStore over a MemHashIndex and a MemTripleStore. *)
Notation qerr := (lr_error err (rdf_error S (index_error S (Id KUlid)) unit)).
Notation PQ A := (prog rdb SE (result qerr A)).
Definition on_left {A} (p : PR A) : PQ A :=
  bind p (fun r => Ret (match r with Ok a => Ok a | Err e => Err (LeftE e) end)).

(** query.rs:49-57 and 63-71 *)
Fixpoint rs_set_names (seqb : S -> S -> bool) (ids : list I) (new : mem_index S I) : PQ (mem_index S I) :=
  match ids with
  | [] => Ret (Ok new)
  | id :: ids' =>
      bind_ok (on_left (rs_lookup_id id)) (fun e =>
      match e with
      | EUlid _ => rs_set_names seqb ids' new
      | EString s =>
          match index_set seqb id_eqb s id new with
          | (Err x, _) => Ret (Err (RightE (NameIndexStorageError x)))
          | (Ok _, new) => rs_set_names seqb ids' new
          end
      end)
  end.
(** query.rs:59-72 *)
Fixpoint rs_set_edge_names (seqb : S -> S -> bool) (es : list (result unit (triple I * EP))) (new : mem_index S I)
    : PQ (mem_index S I) :=
  match es with
  | [] => Ret (Ok new)
  | Err e :: _ => Ret (Err (RightE (GraphStorageError e)))
  | Ok (t, _) :: es' =>
      bind_ok (rs_set_names seqb [sub t; pred t; obj t] new) (fun new => rs_set_edge_names seqb es' new)
  end.

(** query.rs:26-75.  [g] is the cloned generator of the result's graph, [u] the identifiers that
    Ulid::new() will return to the result. *)
Definition rs_run (seqb : S -> S -> bool) (g u : gen KUlid) (q : query ent) : PQ (rdf S NP EP) :=
  bind_ok (on_left (query_try_prog rs_lookup_entity q)) (fun q =>
  bind_ok (on_left (bind (on_graph (s_run cn ce g q)) (fun r => Ret (from_graph r)))) (fun query_graph =>
  bind_ok (rs_set_names seqb (vertices query_graph) index_new) (fun ix =>
  bind_ok (rs_set_edge_names seqb (iter_edges SPO query_graph) ix) (fun ix =>
  Ret (Ok (Rdf ix query_graph u)))))).

(** ** Histories *)
Section History.
Context {E : Type} (mn : NP -> NP -> NP) (me : EP -> EP -> EP).
Notation rop := (rop S NP EP E).

Definition routcome : Type := result (lr_error err E) unit.
Definition left_out (p : PH unit) : prog rdb SE (routcome * rhandle) :=
  bind p (fun rh => Ret (match fst rh with Ok _ => Ok tt | Err e => Err (LeftE e) end, snd rh)).

Definition rs_apply (o : rop) (h : rhandle) : prog rdb SE (routcome * rhandle) :=
  match o with
  | RInsertNode e p => left_out (rs_insert_node e p h)
  | RInsertEdge t p => left_out (rs_insert_edge t p h)
  | RRemoveNode e => left_out (rs_remove_node e h)
  | RRemoveEdge t => left_out (rs_remove_edge t h)
  | RMergeNode e p => left_out (rs_merge_node mn e p h)
  | RMergeEdge t p => left_out (rs_merge_edge me t p h)
  | RExtend s => rs_extend s h
  | RMerge s => rs_merge mn me s h
  end.

(** Several calls in a row; a failing call does not stop the caller. *)
Fixpoint rs_history (l : list rop) (h : rhandle) : prog rdb SE (list routcome * rhandle) :=
  match l with
  | [] => Ret ([], h)
  | o :: l' =>
      bind (rs_apply o h) (fun rh =>
      bind (rs_history l' (snd rh)) (fun rsh => Ret (fst rh :: fst rsh, snd rsh)))
  end.

(** A process opens the database and makes calls while the storage fails here and there; it
    dies after a number of storage steps (or stops, if there are fewer). *)
Record rlife : Type := RLife { rl_handle : rhandle; rl_ops : list rop; rl_faults : list (option SE); rl_steps : nat }.
Definition rs_live (f : rlife) (d : rdb) : rdb :=
  crash (rl_steps f) (rs_history (rl_ops f) (rl_handle f)) (rl_faults f) d.

(** Several processes (or threads with a handle each) use the database at the same time, all
    of them until they die or stop. *)
Record rcrowd : Type := RCrowd { rc_callers : list (rhandle * list rop); rc_schedule : list (nat * option SE) }.
Definition rs_crowd (c : rcrowd) (d : rdb) : list (prog rdb SE (list routcome * rhandle)) * rdb :=
  interleave (rc_schedule c) (map (fun hl => rs_history (snd hl) (fst hl)) (rc_callers c)) d.

Inductive repoch : Type := Alone (f : rlife) | Together (c : rcrowd).
Definition rs_epoch (e : repoch) (d : rdb) : rdb :=
  match e with Alone f => rs_live f d | Together c => snd (rs_crowd c d) end.
Definition rs_epochs (es : list repoch) (d : rdb) : rdb := fold_left (fun d e => rs_epoch e d) es d.

(** The identifiers a call takes from the generator of its graph, at most. *)
Definition r_draws (o : rop) : nat :=
  match o with
  | RInsertEdge _ _ | RMergeEdge _ _ => 1
  | RExtend s | RMerge s => length (used_edges s)
  | _ => 0
  end.
Definition rs_keys (h : rhandle) (l : list rop) : list bytes :=
  map to_be_bytes (next_ids (h_gen (rh_graph h)) (sum (map r_draws l))).
Definition epoch_keys (e : repoch) : list bytes :=
  match e with
  | Alone f => rs_keys (rl_handle f) (rl_ops f)
  | Together c => flat_map (fun hl => rs_keys (fst hl) (snd hl)) (rc_callers c)
  end.

End History.

(** What a look into the index answers, the storage working. *)
Definition name_now (d : rdb) (s : S) : option I :=
  match left_now (SE := SE) cs cu (r_names d) s with Ok (Some i) => Some i | _ => None end.
Definition id_now (d : rdb) (i : I) : option S :=
  match right_now (SE := SE) cs cu (r_names d) i with Ok (Some s) => Some s | _ => None end.

End RdfSled.

(** The readers list the graph over entities, in the order of the identifiers behind them. *)
Definition rs_shows {S NP EP BE} (SE : Type) (cs : codec BE S) (cu : codec BE (Id KUlid)) (cn : codec BE NP) (ce : codec BE EP)
    (d : rdb) (g : egraph S NP EP) : Prop :=
  let r2l := id_now (SE := SE) cs cu d in
  lists (behind_lt r2l) (ret_of (rs_iter_vertices (SE := SE) cs cu cn) [] d) (e_node g) /\
  forall o, lists (behind_edge_lt r2l o) (ret_of (rs_iter_edges (SE := SE) cs cu ce o) [] d) (e_edge g).
