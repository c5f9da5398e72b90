(** MemTripleStore: /repo/src/mem.rs and /repo/src/mem/*.rs.  No proofs here.

    Methods of MemTripleStore that return Result<(), ()> always return Ok(()); they are
    modelled as functions from store to store.  Methods that can fail because of another
    store return a result together with the store as left by the call. *)
From Coq Require Import NArith List Bool.
From Verif Require Import Bytes OMap Core IdType Store.
Import ListNotations.

Section Mem.
Context {k : idkind} {NP EP : Type}.
Notation I := (Id k).
Notation T := (triple (Id k)).

(** /repo/src/mem.rs:111-118 *)
Record mem : Type := Mem {
  node_props : omap I NP;
  edge_props : omap I EP;
  spo_data : omap bytes I;
  pos_data : omap bytes I;
  osp_data : omap bytes I;
  id_generator : gen k
}.

Notation iget := (om_get id_cmp).
Notation iinsert := (om_insert id_cmp).
Notation iremove := (om_remove id_cmp).
Notation bget := (om_get bytes_cmp).
Notation binsert := (om_insert bytes_cmp).
Notation bremove := (om_remove bytes_cmp).
Notation brange b m := (om_range bytes_cmp (fst b) (snd b) m).

(** Field updates. *)
Definition set_node_props x m :=
  Mem x (edge_props m) (spo_data m) (pos_data m) (osp_data m) (id_generator m).
Definition set_edge_props x m :=
  Mem (node_props m) x (spo_data m) (pos_data m) (osp_data m) (id_generator m).
Definition set_spo_data x m :=
  Mem (node_props m) (edge_props m) x (pos_data m) (osp_data m) (id_generator m).
Definition set_pos_data x m :=
  Mem (node_props m) (edge_props m) (spo_data m) x (osp_data m) (id_generator m).
Definition set_osp_data x m :=
  Mem (node_props m) (edge_props m) (spo_data m) (pos_data m) x (id_generator m).
Definition set_id_generator x m :=
  Mem (node_props m) (edge_props m) (spo_data m) (pos_data m) (osp_data m) x.

(** /repo/src/mem.rs:291-306 *)
Definition mem_new (g : gen k) : mem := Mem om_empty om_empty om_empty om_empty om_empty g.

(** *** /repo/src/mem/insert.rs *)

(** insert.rs:8-15 *)
Definition insert_edge_data_internal (t : T) (new_edge_data_id : I) (m : mem) : mem :=
  let m := set_spo_data (binsert (encode_spo t) new_edge_data_id (spo_data m)) m in
  let m := set_pos_data (binsert (encode_pos t) new_edge_data_id (pos_data m)) m in
  set_osp_data (binsert (encode_osp t) new_edge_data_id (osp_data m)) m.

(** insert.rs:19-33 *)
Definition insert_edge_create_data (old_edge_data_id : option I) (new_edge_data : EP) (m : mem)
    : I * mem :=
  let m :=
    match old_edge_data_id with
    | Some old => set_edge_props (iremove old (edge_props m)) m
    | None => m
    end in
  let (new_id, g) := fresh (id_generator m) in
  let m := set_id_generator g m in
  (new_id, set_edge_props (iinsert new_id new_edge_data (edge_props m)) m).

(** insert.rs:39-49 (both arms of the match insert or replace the entry) *)
Definition insert_node (node : I) (data : NP) (m : mem) : mem :=
  set_node_props (iinsert node data (node_props m)) m.

(** insert.rs:51-62 *)
Definition insert_edge (t : T) (data : EP) (m : mem) : mem :=
  let old_edge_data_id := bget (encode_spo t) (spo_data m) in
  let (new_edge_data_id, m) := insert_edge_create_data old_edge_data_id data m in
  insert_edge_data_internal t new_edge_data_id m.

(** *** /repo/src/mem/remove.rs *)

(** remove.rs:15-24 *)
Definition get_spo_edge_range (node : I) (m : mem) : list T * list I :=
  let r := brange (key_bounds_1 node) (spo_data m) in
  (map (fun kv => decode_spo (fst kv)) r, map snd r).

(** remove.rs:27-36 *)
Definition get_osp_edge_range (node : I) (m : mem) : list T * list I :=
  let r := brange (key_bounds_1 node) (osp_data m) in
  (map (fun kv => decode_osp (fst kv)) r, map snd r).

(** remove.rs:69-82 *)
Definition remove_edge (t : T) (m : mem) : mem :=
  match bget (encode_spo t) (spo_data m) with
  | Some edge_data_id =>
      let m := set_spo_data (bremove (encode_spo t) (spo_data m)) m in
      let m := set_pos_data (bremove (encode_pos t) (pos_data m)) m in
      let m := set_osp_data (bremove (encode_osp t) (osp_data m)) m in
      set_edge_props (iremove edge_data_id (edge_props m)) m
  | None => m
  end.

(** remove.rs:42-67 *)
Definition remove_node (node : I) (m : mem) : mem :=
  let (forward_triples, forward_edge_data_ids) := get_spo_edge_range node m in
  let (backward_triples, backward_edge_data_ids) := get_osp_edge_range node m in
  let m := set_node_props (iremove node (node_props m)) m in
  let m :=
    fold_left (fun m id => set_edge_props (iremove id (edge_props m)) m)
      (forward_edge_data_ids ++ backward_edge_data_ids) m in
  fold_left (fun m t => remove_edge t m) (forward_triples ++ backward_triples) m.

(** *** /repo/src/mem/merge.rs; [merge_n], [merge_e] are Mergeable::merge of the
    property types ([merge_n a b] is the value of [a] after [a.merge(b)]). *)
Section Merge.
Context (merge_n : NP -> NP -> NP) (merge_e : EP -> EP -> EP).

(** merge.rs:11-29 *)
Definition merge_edge_create_data (old_edge_data_id : option I) (new_edge_data : EP) (m : mem)
    : I * mem :=
  match old_edge_data_id with
  | Some old =>
      match iget old (edge_props m) with
      | Some o => (old, set_edge_props (iinsert old (merge_e o new_edge_data) (edge_props m)) m)
      | None => (old, set_edge_props (iinsert old new_edge_data (edge_props m)) m)
      end
  | None => insert_edge_create_data old_edge_data_id new_edge_data m
  end.

(** merge.rs:55-65 *)
Definition merge_node (node : I) (data : NP) (m : mem) : mem :=
  match iget node (node_props m) with
  | Some o => set_node_props (iinsert node (merge_n o data) (node_props m)) m
  | None => set_node_props (iinsert node data (node_props m)) m
  end.

(** merge.rs:67-78 *)
Definition merge_edge (t : T) (data : EP) (m : mem) : mem :=
  let old_edge_data_id := bget (encode_spo t) (spo_data m) in
  let (new_edge_data_id, m) := merge_edge_create_data old_edge_data_id data m in
  insert_edge_data_internal t new_edge_data_id m.

End Merge.

(** A [for r in iter { let x = r.map_err(Right)?; step(x) }] loop: stops at the first
    error of the source, keeping the effect of the earlier items
    (/repo/src/mem/merge.rs:41-50, /repo/src/mem/extend.rs:14-61). *)
Fixpoint for_each {A L E} (step : A -> mem -> mem) (l : list (result E A)) (m : mem)
    : result (lr_error L E) unit * mem :=
  match l with
  | [] => (Ok tt, m)
  | Err e :: _ => (Err (RightE e), m)
  | Ok a :: l' => for_each step l' (step a m)
  end.

(** merge.rs:35-53 *)
Definition merge {E} (merge_n : NP -> NP -> NP) (merge_e : EP -> EP -> EP)
    (other : source k NP EP E) (m : mem) : result (lr_error unit E) unit * mem :=
  match for_each (fun ip m => merge_node merge_n (fst ip) (snd ip) m) (src_nodes other) m with
  | (Err e, m) => (Err e, m)
  | (Ok _, m) => for_each (fun te m => merge_edge merge_e (fst te) (snd te) m) (src_edges other) m
  end.

(** *** /repo/src/mem/extend.rs *)

(** The body of the node loop, extend.rs:16-23 *)
Definition extend_node (id : I) (data : NP) (m : mem) : mem :=
  set_node_props (iinsert id data (node_props m)) m.

(** The body of the edge loop, extend.rs:29-60 *)
Definition extend_edge (t : T) (other_edge_props : EP) (m : mem) : mem :=
  match bget (encode_spo t) (spo_data m) with
  | None =>
      let (new_id, g) := fresh (id_generator m) in
      let m := set_id_generator g m in
      let m := set_spo_data (binsert (encode_spo t) new_id (spo_data m)) m in
      let m := set_pos_data (binsert (encode_pos t) new_id (pos_data m)) m in
      let m := set_osp_data (binsert (encode_osp t) new_id (osp_data m)) m in
      set_edge_props (iinsert new_id other_edge_props (edge_props m)) m
  | Some self_edge_props_id =>
      set_edge_props (iinsert self_edge_props_id other_edge_props (edge_props m)) m
  end.

(** extend.rs:8-64 *)
Definition extend {E} (other : source k NP EP E) (m : mem)
    : result (lr_error unit E) unit * mem :=
  match for_each (fun ip m => extend_node (fst ip) (snd ip) m) (src_nodes other) m with
  | (Err e, m) => (Err e, m)
  | (Ok _, m) => for_each (fun te m => extend_edge (fst te) (snd te) m) (src_edges other) m
  end.

(** *** /repo/src/mem/iter.rs *)

(** iter.rs:14-32 *)
Definition iter_impl (np : omap I NP) (ep : omap I EP) (t : T) (v : I)
    : option (result unit (props_triple I NP EP)) :=
  match iget (sub t) np, iget v ep, iget (obj t) np with
  | Some sub_props, Some pred_props, Some obj_props =>
      Some (Ok (PropsTriple (sub t, sub_props) (pred t, pred_props) (obj t, obj_props)))
  | _, _, _ => None
  end.

(** iter.rs:38-40 *)
Definition vertices (m : mem) : list I := map fst (om_iter (node_props m)).

(** iter.rs:52-56 *)
Definition iter_vertices (m : mem) : list (result unit (I * NP)) :=
  map (fun kv => Ok (fst kv, snd kv)) (om_iter (node_props m)).

(** iter.rs:58-83 *)
Definition iter_edges_with_props (o : edge_order) (m : mem)
    : list (result unit (props_triple I NP EP)) :=
  let edges :=
    match o with
    | SPO => map (fun kv => (decode_spo (fst kv), snd kv)) (om_iter (spo_data m))
    | POS => map (fun kv => (decode_pos (fst kv), snd kv)) (om_iter (pos_data m))
    | OSP => map (fun kv => (decode_osp (fst kv), snd kv)) (om_iter (osp_data m))
    end in
  filter_map (fun kv => iter_impl (node_props m) (edge_props m) (fst kv) (snd kv)) edges.

(** iter.rs:85-111 *)
Definition iter_edges (o : edge_order) (m : mem) : list (result unit (T * EP)) :=
  let edges :=
    match o with
    | SPO => map (fun kv => (decode_spo (fst kv), snd kv)) (om_iter (spo_data m))
    | POS => map (fun kv => (decode_pos (fst kv), snd kv)) (om_iter (pos_data m))
    | OSP => map (fun kv => (decode_osp (fst kv), snd kv)) (om_iter (osp_data m))
    end in
  filter_map
    (fun kv =>
       match iget (snd kv) (edge_props m) with
       | Some v => Some (Ok (fst kv, v))
       | None => None
       end) edges.

(** iter.rs:42-50 *)
Definition iter_nodes (o : edge_order) (m : mem)
    : list (result unit (I * NP)) * list (result unit (T * EP)) :=
  (iter_vertices m, iter_edges o m).

(** iter.rs:117-152 *)
Definition into_iter_nodes (o : edge_order) (m : mem)
    : list (result unit (I * NP)) * list (result unit (T * EP)) :=
  let node_iter := map (fun o => Ok o) (om_iter (node_props m)) in
  let edges :=
    match o with
    | SPO => map (fun kv => (decode_spo (fst kv), snd kv)) (om_iter (spo_data m))
    | POS => map (fun kv => (decode_pos (fst kv), snd kv)) (om_iter (pos_data m))
    | OSP => map (fun kv => (decode_osp (fst kv), snd kv)) (om_iter (osp_data m))
    end in
  let edge_iter :=
    filter_map
      (fun kv =>
         match iget (snd kv) (edge_props m) with
         | Some v => Some (Ok (fst kv, v))
         | None => None
         end) edges in
  (node_iter, edge_iter).

(** iter.rs:154-156 *)
Definition into_iter_vertices (m : mem) : list (result unit (I * NP)) :=
  map (fun o => Ok o) (om_iter (node_props m)).

(** iter.rs:158-183 *)
Definition into_iter_edges_with_props (o : edge_order) (m : mem)
    : list (result unit (props_triple I NP EP)) :=
  let edges :=
    match o with
    | SPO => map (fun kv => (decode_spo (fst kv), snd kv)) (om_iter (spo_data m))
    | POS => map (fun kv => (decode_pos (fst kv), snd kv)) (om_iter (pos_data m))
    | OSP => map (fun kv => (decode_osp (fst kv), snd kv)) (om_iter (osp_data m))
    end in
  filter_map (fun kv => iter_impl (node_props m) (edge_props m) (fst kv) (snd kv)) edges.

(** iter.rs:185-211 *)
Definition into_iter_edges (o : edge_order) (m : mem) : list (result unit (T * EP)) :=
  let edges :=
    match o with
    | SPO => map (fun kv => (decode_spo (fst kv), snd kv)) (om_iter (spo_data m))
    | POS => map (fun kv => (decode_pos (fst kv), snd kv)) (om_iter (pos_data m))
    | OSP => map (fun kv => (decode_osp (fst kv), snd kv)) (om_iter (osp_data m))
    end in
  filter_map
    (fun kv =>
       match iget (snd kv) (edge_props m) with
       | Some v => Some (Ok (fst kv, v))
       | None => None
       end) edges.

(** A store consumed by value: what into_iter_nodes(SPO) yields. *)
Definition mem_source (m : mem) : source k NP EP unit :=
  Source (fst (into_iter_nodes SPO m)) (snd (into_iter_nodes SPO m)).

(** *** /repo/src/mem/query.rs *)

(** The inner loops, e.g. query.rs:53-59: insert every entry of a key range into the result. *)
Definition insert_range (dec : bytes -> T) (ep : omap I EP) (entries : list (bytes * I)) (r : mem)
    : mem :=
  fold_left
    (fun r kv =>
       match iget (snd kv) ep with
       | Some data => insert_edge (dec (fst kv)) data r
       | None => r
       end) entries r.

(** query.rs:14-139.  [g] is [self.id_generator.clone()], an arbitrary generator
    (see IdGen.v for the two implementations of clone).  The result is always Ok. *)
Definition run (g : gen k) (q : query I) (m : mem) : mem :=
  match q with
  | QNodeProps nodes =>
      fold_left
        (fun r node =>
           match iget node (node_props m) with
           | Some data => set_node_props (iinsert node data (node_props r)) r
           | None => r
           end) nodes (mem_new g)
  | QSPO triples =>
      fold_left
        (fun r spo =>
           let '(s, p, o) := spo in
           let t := Triple s p o in
           match bget (encode_spo t) (spo_data m) with
           | Some data_id =>
               match iget data_id (edge_props m) with
               | Some data => insert_edge t data r
               | None => r
               end
           | None => r
           end) triples (mem_new g)
  | QS items =>
      fold_left
        (fun r s => insert_range decode_spo (edge_props m)
                      (brange (key_bounds_1 s) (spo_data m)) r) items (mem_new g)
  | QSP items =>
      fold_left
        (fun r sp => insert_range decode_spo (edge_props m)
                       (brange (key_bounds_2 (fst sp) (snd sp)) (spo_data m)) r)
        items (mem_new g)
  | QSO items =>
      fold_left
        (fun r so => insert_range decode_osp (edge_props m)
                       (brange (key_bounds_2 (snd so) (fst so)) (osp_data m)) r)
        items (mem_new g)
  | QP items =>
      fold_left
        (fun r p => insert_range decode_pos (edge_props m)
                      (brange (key_bounds_1 p) (pos_data m)) r) items (mem_new g)
  | QPO items =>
      fold_left
        (fun r po => insert_range decode_pos (edge_props m)
                       (brange (key_bounds_2 (fst po) (snd po)) (pos_data m)) r)
        items (mem_new g)
  | QO items =>
      fold_left
        (fun r o => insert_range decode_osp (edge_props m)
                      (brange (key_bounds_1 o) (osp_data m)) r) items (mem_new g)
  end.

(** *** /repo/src/mem/set.rs.  [g] is again [self.id_generator.clone()]. *)

(** The four loops of union, set.rs:24-29, 30-35, 38-43, 44-49. *)
Fixpoint insert_all {A E F} (tag : E -> F) (ins : A -> mem -> mem) (l : list (result E A))
    (r : mem) : result F mem :=
  match l with
  | [] => Ok r
  | Err e :: _ => Err (tag e)
  | Ok a :: l' => insert_all tag ins l' (ins a r)
  end.

Definition bind_res {F A B} (x : result F A) (f : A -> result F B) : result F B :=
  match x with Ok a => f a | Err e => Err e end.

(** set.rs:17-52 *)
Definition union {E} (g : gen k) (other : source k NP EP E) (m : mem)
    : result (set_error unit E unit) mem :=
  let (self_nodes, self_edges) := into_iter_nodes SPO m in
  let ins_n := fun ip r => insert_node (fst ip) (snd ip) r in
  let ins_e := fun te r => insert_edge (fst te) (snd te) r in
  bind_res (insert_all SetLeft ins_n self_nodes (mem_new g)) (fun r =>
  bind_res (insert_all SetLeft ins_e self_edges r) (fun r =>
  bind_res (insert_all SetRight ins_n (src_nodes other) r) (fun r =>
  insert_all SetRight ins_e (src_edges other) r))).

(** The merge-join of intersection, set.rs:70-89 (nodes) and 92-111 (edges): the heads of
    the lists are [self_node] and [other_node]; an error surfaces when the iterator is
    advanced to it, the left iterator first. *)
Fixpoint intersect_loop {A P E} (lt : A -> A -> bool) (ins : A -> P -> mem -> mem)
    (ls : list (result unit (A * P))) {struct ls}
    : list (result E (A * P)) -> mem -> result (set_error unit E unit) mem :=
  fix inner (rs : list (result E (A * P))) (r : mem) {struct rs} :=
    match ls with
    | Err e :: _ => Err (SetLeft e)
    | [] => match rs with Err e :: _ => Err (SetRight e) | _ => Ok r end
    | Ok (left_key, left_props) :: ls' =>
        match rs with
        | Err e :: _ => Err (SetRight e)
        | [] => Ok r
        | Ok (right_key, _) :: rs' =>
            if lt left_key right_key then intersect_loop lt ins ls' rs r
            else if lt right_key left_key then inner rs' r
            else intersect_loop lt ins ls' rs' (ins left_key left_props r)
        end
    end.

(** set.rs:54-113 *)
Definition intersection {E} (g : gen k) (other : source k NP EP E) (m : mem)
    : result (set_error unit E unit) mem :=
  let (self_nodes, self_edges) := into_iter_nodes SPO m in
  bind_res (intersect_loop id_ltb insert_node self_nodes (src_nodes other) (mem_new g))
    (fun r => intersect_loop tr_ltb insert_edge self_edges (src_edges other) r).

(** The trailing loops of difference, set.rs:154-159 and 187-192. *)
Fixpoint drain {A P F} (tag : unit -> F) (ins : A -> P -> mem -> mem)
    (ls : list (result unit (A * P))) (r : mem) : result F mem :=
  match ls with
  | [] => Ok r
  | Err e :: _ => Err (tag e)
  | Ok (left_key, left_props) :: ls' => drain tag ins ls' (ins left_key left_props r)
  end.

(** set.rs:131-160: the node part of difference; also returns [removed_nodes]. *)
Fixpoint difference_nodes {E} (ls : list (result unit (I * NP))) {struct ls}
    : list (result E (I * NP)) -> list I -> mem -> result (set_error unit E unit) (list I * mem) :=
  fix inner (rs : list (result E (I * NP))) (removed : list I) (r : mem) {struct rs} :=
    match ls with
    | Err e :: _ => Err (SetLeft e)
    | [] => match rs with Err e :: _ => Err (SetRight e) | _ => Ok (removed, r) end
    | Ok (left_key, left_props) :: ls' =>
        match rs with
        | Err e :: _ => Err (SetRight e)
        | [] =>
            bind_res (drain SetLeft insert_node ls r) (fun r => Ok (removed, r))
        | Ok (right_key, _) :: rs' =>
            if id_ltb left_key right_key
            then difference_nodes ls' rs removed (insert_node left_key left_props r)
            else if id_ltb right_key left_key then inner rs' (right_key :: removed) r
            else difference_nodes ls' rs' (right_key :: removed) r
        end
    end.

(** [removed_nodes.contains] *)
Definition contains (l : list I) (i : I) : bool := existsb (id_eqb i) l.

(** set.rs:163-193: the edge part of difference. *)
Fixpoint difference_edges {E} (removed : list I) (ls : list (result unit (T * EP))) {struct ls}
    : list (result E (T * EP)) -> mem -> result (set_error unit E unit) mem :=
  fix inner (rs : list (result E (T * EP))) (r : mem) {struct rs} :=
    match ls with
    | Err e :: _ => Err (SetLeft e)
    | [] => match rs with Err e :: _ => Err (SetRight e) | _ => Ok r end
    | Ok (self_key, self_props) :: ls' =>
        match rs with
        | Err e :: _ => Err (SetRight e)
        | [] => drain SetLeft insert_edge ls r
        | Ok (other_key, _) :: rs' =>
            if tr_ltb self_key other_key
            then difference_edges removed ls' rs
                   (if negb (contains removed (sub self_key) || contains removed (obj self_key))
                    then insert_edge self_key self_props r else r)
            else if tr_ltb other_key self_key then inner rs' r
            else difference_edges removed ls' rs' r
        end
    end.

(** set.rs:115-195 *)
Definition difference {E} (g : gen k) (other : source k NP EP E) (m : mem)
    : result (set_error unit E unit) mem :=
  let (self_nodes, self_edges) := into_iter_nodes SPO m in
  bind_res (difference_nodes self_nodes (src_nodes other) [] (mem_new g))
    (fun rr => difference_edges (fst rr) self_edges (src_edges other) (snd rr)).

(** *** PartialEq, /repo/src/mem.rs:231-286 *)
Section Eq.
Context (neqb : NP -> NP -> bool) (eeqb : EP -> EP -> bool).

(** BTreeMap::eq: same length and equal entries pairwise (mem.rs:235). *)
Fixpoint btree_eq (a b : omap I NP) : bool :=
  match a, b with
  | [], [] => true
  | (i, p) :: a', (j, q) :: b' => (id_eqb i j && neqb p q && btree_eq a' b')%bool
  | _, _ => false
  end.

(** mem.rs:241-262; the set of cached comparisons is threaded through. *)
Definition eq_edge_prop_by_id (a b : mem) (cache : list (I * I)) (i j : I)
    : bool * list (I * I) :=
  match iget i (edge_props a), iget j (edge_props b) with
  | Some x, Some y =>
      if existsb (fun c => (id_eqb i (fst c) && id_eqb j (snd c))%bool) cache
      then (true, cache)
      else if eeqb x y then (true, (i, j) :: cache) else (false, cache)
  | _, _ => (false, cache)
  end.

Definition bytes_eqb (a b : bytes) : bool :=
  match bytes_cmp a b with Eq => true | _ => false end.

(** mem.rs:264-282: the loop over [zip], which stops at the shorter sequence. *)
Fixpoint eq_loop (a b : mem) (cache : list (I * I)) (l1 l2 : list (bytes * I)) : bool :=
  match l1, l2 with
  | (k1, i) :: l1', (k2, j) :: l2' =>
      if negb (bytes_eqb k1 k2) then false
      else
        match eq_edge_prop_by_id a b cache i j with
        | (true, cache) => eq_loop a b cache l1' l2'
        | (false, _) => false
        end
  | _, _ => true
  end.

(** mem.rs:234-285 *)
Definition mem_eq (a b : mem) : bool :=
  if negb (btree_eq (node_props a) (node_props b)) then false
  else eq_loop a b [] (om_iter (spo_data a)) (om_iter (spo_data b)).

End Eq.
End Mem.

Arguments mem k NP EP : clear implicits.
