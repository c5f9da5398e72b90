(** What the readers of SledReaders.v return, said about the executions. *)
From Coq Require Import Arith NArith List Bool Sorted Lia.
From Verif Require Import Bytes BytesFacts OMap OMapFacts Core IdType IdTypeFacts Store Mem Spec
  CodecFacts ListFacts MemFacts MemSim History MemTop Prog ProgFacts Sled SledHistory SledDb SledOps SledBulk SledRead SledTables
  SledAny SledRun SledTop SledLeaf SledLeafFacts SledBeside SledRely SledOwn SledOwnOps SledBesideTop SledReaders.
Import ListNotations.

Definition none {X} : X -> Prop := fun _ => False.
Definition every {X} : X -> Prop := fun _ => True.

Lemma adds_none {k NP EP E} (cs : list (handle k * list (op k NP EP E))) :
  Forall (fun hl => Forall (fun o => forall t, none t -> ~ rewrites o t) (snd hl)) cs.
Proof. apply Forall_forall. intros hl _. apply Forall_forall. intros o _ t []. Qed.
Lemma adds_every {k NP EP E} (cs : list (handle k * list (op k NP EP E))) :
  Forall (fun hl => Forall adds_only (snd hl)) cs -> Forall (fun hl => Forall (fun o => forall t, every t -> ~ rewrites o t) (snd hl)) cs.
Proof. apply Forall_impl. intros hl. apply Forall_impl. intros o Ho t _. destruct o; simpl in *; tauto. Qed.
Lemma adds_spared {k NP EP E} (cs : list (handle k * list (op k NP EP E))) :
  Forall (fun hl => Forall (fun o => forall t, ~ rewritten cs t -> ~ rewrites o t) (snd hl)) cs.
Proof.
  apply Forall_forall. intros hl Hl. apply Forall_forall. intros o Ho t Ht Hr. apply Ht. exists hl, o. auto.
Qed.

Lemma rewrites_dec {k NP EP E} (o : op k NP EP E) t : {rewrites o t} + {~ rewrites o t}.
Proof.
  assert (forall l : list (triple (Id k) * EP), {exists e, In (t, e) l} + {~ exists e, In (t, e) l}) as Hl.
  { intros l. destruct (in_dec triple_eq_dec t (map fst l)) as [H|H].
    - left. apply in_map_iff in H. destruct H as ([t' e] & <- & H). eauto.
    - right. intros [e He]. apply H. apply in_map_iff. exists (t, e). auto. }
  destruct o as [v p|t' e|v|t'|v p|t' e|s|s]; simpl; auto using triple_eq_dec.
  destruct (id_eq_dec (sub t) v); [left; auto|]. destruct (id_eq_dec (obj t) v); [left; auto|]. right. tauto.
Qed.
Lemma rewritten_dec {k NP EP E} (cs : list (handle k * list (op k NP EP E))) t : rewritten cs t \/ ~ rewritten cs t.
Proof.
  destruct (Exists_dec (fun hl => Exists (fun o => rewrites o t) (snd hl)) cs) as [H|H].
  - intros hl. apply Exists_dec. intros o. apply rewrites_dec.
  - left. apply Exists_exists in H. destruct H as (hl & Hl & H). apply Exists_exists in H. destruct H as (o & Ho & H). exists hl, o. auto.
  - right. intros (hl & o & Hl & Ho & Hr). apply H. apply Exists_exists. exists hl. split; auto. apply Exists_exists. eauto.
Qed.
Lemma rewritten_not {k NP EP E} (cs : list (handle k * list (op k NP EP E))) t : ~ ~ rewritten cs t -> rewritten cs t.
Proof. destruct (rewritten_dec cs t); tauto. Qed.

Lemma edges_beside : forall k NP EP SE BE E (cn : codec BE NP) (ce : codec BE EP) mn me
    (ls : list (life (k := k) (NP := NP) (EP := EP) (SE := SE) (E := E)))
    (cs : list (handle k * list (op k NP EP E))) (wcuts : nat -> nat -> cutting) (rcuts : list bytes) o (schedule : list (nat * option SE)) xs,
  codec_ok cn -> codec_ok ce -> NoDup (life_keys ls ++ session_keys cs) ->
  let d := lives cn ce mn me ls db_new in
  let ps := beside (l_iter_edges (k := k) (BE := BE) ce rcuts o) (l_callers cn ce mn me wcuts 0 cs) in
  has_read xs (fst (interleave schedule ps d)) ->
  (forall t e, In (Ok (t, e)) xs -> exists d1, during schedule ps d d1 /\ lists_edge SE ce o d1 t e) /\
  StronglySorted (edge_lt o) (map fst (ok_items xs)) /\
  (forall x, In (Err x) xs -> x = MissingPropertyData \/ exists y, met schedule y /\ x = SledError y) /\
  (forall t, (forall d1, during schedule ps d d1 -> exists e, lists_edge SE ce o d1 t e) ->
     In t (map fst (ok_items xs)) \/ exists x, In (Err x) xs).
Proof.
  intros k NP EP SE BE E cn ce mn me ls cs wcuts rcuts o schedule xs Hn He Hd d ps Hx.
  destruct (beside_reads (k := k) cn ce none Hn He mn me _ (fun F => edges_read cn ce none F o) ls cs wcuts schedule Hd
    (adds_none _)
    (fun F a w1 w2 => edges_read_later cn ce none F o a w1 w2) (fun F w => rg_edges cn ce none F o w rcuts) _ Hx) as (w & Hw & Hp).
  fold d ps in Hp.
  destruct Hw as (H1 & H2 & H3 & H4). split; [|split; [exact H2|split]].
  - intros t e H. destruct (H1 t e H) as (d1 & Hd1 & Hl). exists d1. auto.
  - intros x H. destruct (H3 x H) as [[-> Hk]|(y & Hy)]; auto; right; eauto.
  - intros t H. destruct (H4 t) as [H'|(x & Hx' & _)]; [intros d1 D1; now apply H, Hp|left; exact H'|right; eauto].
Qed.

Lemma edges_beside_adding : forall k NP EP SE BE E (cn : codec BE NP) (ce : codec BE EP) mn me
    (ls : list (life (k := k) (NP := NP) (EP := EP) (SE := SE) (E := E)))
    (cs : list (handle k * list (op k NP EP E))) (wcuts : nat -> nat -> cutting) (rcuts : list bytes) o (schedule : list (nat * option SE)) xs,
  codec_ok cn -> codec_ok ce -> NoDup (life_keys ls ++ session_keys cs) ->
  Forall (fun hl => Forall adds_only (snd hl)) cs ->
  let d := lives cn ce mn me ls db_new in
  let ps := beside (l_iter_edges (k := k) (BE := BE) ce rcuts o) (l_callers cn ce mn me wcuts 0 cs) in
  has_read xs (fst (interleave schedule ps d)) ->
  (forall t e, In (Ok (t, e)) xs -> exists d1, during schedule ps d d1 /\ lists_edge SE ce o d1 t e) /\
  StronglySorted (edge_lt o) (map fst (ok_items xs)) /\
  (forall x, In (Err x) xs -> exists y, met schedule y /\ x = SledError y) /\
  (forall t, (forall d1, during schedule ps d d1 -> exists e, lists_edge SE ce o d1 t e) ->
     In t (map fst (ok_items xs)) \/ exists x, In (Err x) xs).
Proof.
  intros k NP EP SE BE E cn ce mn me ls cs wcuts rcuts o schedule xs Hn He Hd Ho d ps Hx.
  destruct (beside_reads (k := k) cn ce every Hn He mn me _ (fun F => edges_read cn ce every F o) ls cs wcuts schedule Hd
    (adds_every _ Ho)
    (fun F a w1 w2 => edges_read_later cn ce every F o a w1 w2) (fun F w => rg_edges cn ce every F o w rcuts) _ Hx) as (w & Hw & Hp).
  fold d ps in Hp.
  destruct Hw as (H1 & H2 & H3 & H4). split; [|split; [exact H2|split]].
  - intros t e H. destruct (H1 t e H) as (d1 & Hd1 & Hl). exists d1. auto.
  - intros x H. destruct (H3 x H) as [[-> [t Hk]]|(y & Hy)]; [destruct (Hk Logic.I)|]; eauto.
  - intros t H. destruct (H4 t) as [H'|(x & Hx' & _)]; [intros d1 D1; now apply H, Hp|left; exact H'|right; eauto].
Qed.

Lemma nodes_beside : forall k NP EP SE BE E (cn : codec BE NP) (ce : codec BE EP) mn me
    (ls : list (life (k := k) (NP := NP) (EP := EP) (SE := SE) (E := E)))
    (cs : list (handle k * list (op k NP EP E))) (wcuts : nat -> nat -> cutting) (rcuts : list bytes) (schedule : list (nat * option SE)) xs,
  codec_ok cn -> codec_ok ce -> NoDup (life_keys ls ++ session_keys cs) ->
  let d := lives cn ce mn me ls db_new in
  let ps := beside (l_iter_vertices (k := k) (BE := BE) cn rcuts) (l_callers cn ce mn me wcuts 0 cs) in
  has_read xs (fst (interleave schedule ps d)) ->
  (forall i p, In (Ok (i, p)) xs -> exists d1, during schedule ps d d1 /\ lists_node SE cn d1 i p) /\
  StronglySorted id_lt (map fst (ok_items xs)) /\
  (forall x, In (Err x) xs -> exists y, met schedule y /\ x = SledError y) /\
  (forall i, (forall d1, during schedule ps d d1 -> exists p, lists_node SE cn d1 i p) ->
     In i (map fst (ok_items xs)) \/ exists x, In (Err x) xs).
Proof.
  intros k NP EP SE BE E cn ce mn me ls cs wcuts rcuts schedule xs Hn He Hd d ps Hx.
  destruct (beside_reads (k := k) cn ce none Hn He mn me _ (fun F => nodes_read cn ce none F) ls cs wcuts schedule Hd
    (adds_none _)
    (fun F a w1 w2 => nodes_read_later cn ce none F a w1 w2) (fun F w => rg_nodes cn ce none F w rcuts) _ Hx) as (w & Hw & Hp).
  fold d ps in Hp.
  destruct Hw as (H1 & H2 & H3 & H4). split; [|split; [exact H2|split; [exact H3|]]].
  - intros t e H. destruct (H1 t e H) as (d1 & Hd1 & Hl). exists d1. auto.
  - intros t H. apply H4. intros d1 D1. now apply H, Hp.
Qed.

Lemma vertices_beside : forall k NP EP SE BE E (cn : codec BE NP) (ce : codec BE EP) mn me
    (ls : list (life (k := k) (NP := NP) (EP := EP) (SE := SE) (E := E)))
    (cs : list (handle k * list (op k NP EP E))) (wcuts : nat -> nat -> cutting) (rcuts : list bytes) (schedule : list (nat * option SE)) r,
  codec_ok cn -> codec_ok ce -> NoDup (life_keys ls ++ session_keys cs) ->
  let d := lives cn ce mn me ls db_new in
  let ps := beside (l_vertices (k := k) (BE := BE) rcuts) (l_callers cn ce mn me wcuts 0 cs) in
  has_read r (fst (interleave schedule ps d)) ->
  match r with
  | Err x => exists y, met schedule y /\ x = SledError y
  | Ok is => (forall i, In i is -> exists d1 p, during schedule ps d d1 /\ lists_node SE cn d1 i p) /\
      StronglySorted id_lt is /\
      (forall i, (forall d1, during schedule ps d d1 -> exists p, lists_node SE cn d1 i p) -> In i is)
  end.
Proof.
  intros k NP EP SE BE E cn ce mn me ls cs wcuts rcuts schedule r Hn He Hd d ps Hx.
  destruct (beside_reads (k := k) cn ce none Hn He mn me _ (fun F => vertices_read cn ce none F) ls cs wcuts schedule Hd
    (adds_none _)
    (fun F a w1 w2 => vertices_read_later cn ce none F a w1 w2) (fun F w => rg_vertices cn ce none F w rcuts) _ Hx) as (w & Hw & Hp).
  fold d ps in Hp. destruct r as [is|x]; [|exact Hw]. destruct Hw as (H1 & H2 & H3). split; [|split; [exact H2|]].
  - intros i Hi. destruct (H1 i Hi) as (p & d1 & Hd1 & Hl). exists d1, p. auto.
  - intros i Hi. apply H3. intros d1 D1. now apply Hi, Hp.
Qed.

Lemma props_beside : forall k NP EP SE BE E (cn : codec BE NP) (ce : codec BE EP) mn me
    (ls : list (life (k := k) (NP := NP) (EP := EP) (SE := SE) (E := E)))
    (cs : list (handle k * list (op k NP EP E))) (wcuts : nat -> nat -> cutting) (rcuts : list bytes) o (schedule : list (nat * option SE)) xs,
  codec_ok cn -> codec_ok ce -> NoDup (life_keys ls ++ session_keys cs) ->
  let d := lives cn ce mn me ls db_new in
  let ps := beside (l_iter_edges_with_props (k := k) cn ce rcuts o) (l_callers cn ce mn me wcuts 0 cs) in
  has_read xs (fst (interleave schedule ps d)) ->
  (forall s p ob, In (Ok (PropsTriple s p ob)) xs ->
     (exists d1, during schedule ps d d1 /\ lists_edge SE ce o d1 (Triple (fst s) (fst p) (fst ob)) (snd p)) /\
     (exists d1, during schedule ps d d1 /\ lists_node SE cn d1 (fst s) (snd s)) /\
     (exists d1, during schedule ps d d1 /\ lists_node SE cn d1 (fst ob) (snd ob))) /\
  StronglySorted (edge_lt o) (map edge_of (ok_items xs)) /\
  (forall x, In (Err x) xs -> x = MissingPropertyData \/ exists y, met schedule y /\ x = SledError y) /\
  (forall t, (forall d1, during schedule ps d d1 -> exists e, lists_edge SE ce o d1 t e) ->
     In t (map edge_of (ok_items xs)) \/ exists x, In (Err x) xs).
Proof.
  intros k NP EP SE BE E cn ce mn me ls cs wcuts rcuts o schedule xs Hn He Hd d ps Hx.
  destruct (beside_reads (k := k) cn ce none Hn He mn me _ (fun F => props_read cn ce none F o) ls cs wcuts schedule Hd
    (adds_none _)
    (fun F a w1 w2 => props_read_later cn ce none F o a w1 w2) (fun F w => rg_props cn ce none F o w rcuts) _ Hx) as (w & Hw & Hp).
  fold d ps in Hp.
  destruct Hw as (H1 & H2 & H3 & H4). split; [|split; [exact H2|split]].
  - intros s p ob H. destruct (H1 s p ob H) as ((d1 & D1 & L1) & (d2 & D2 & L2) & (d3 & D3 & L3)). split; [|split]; [exists d1|exists d2|exists d3]; auto.
  - intros x H. destruct (H3 x H) as [[-> _]|H']; auto.
  - intros t H. destruct (H4 t) as [H'|(x & Hx' & _)]; [intros d1 D1; now apply H, Hp|left; exact H'|right; eauto].
Qed.

Lemma props_beside_adding : forall k NP EP SE BE E (cn : codec BE NP) (ce : codec BE EP) mn me
    (ls : list (life (k := k) (NP := NP) (EP := EP) (SE := SE) (E := E)))
    (cs : list (handle k * list (op k NP EP E))) (wcuts : nat -> nat -> cutting) (rcuts : list bytes) o (schedule : list (nat * option SE)) xs,
  codec_ok cn -> codec_ok ce -> NoDup (life_keys ls ++ session_keys cs) ->
  Forall (fun hl => Forall adds_only (snd hl)) cs ->
  let d := lives cn ce mn me ls db_new in
  let ps := beside (l_iter_edges_with_props (k := k) cn ce rcuts o) (l_callers cn ce mn me wcuts 0 cs) in
  has_read xs (fst (interleave schedule ps d)) ->
  (forall s p ob, In (Ok (PropsTriple s p ob)) xs ->
     (exists d1, during schedule ps d d1 /\ lists_edge SE ce o d1 (Triple (fst s) (fst p) (fst ob)) (snd p)) /\
     (exists d1, during schedule ps d d1 /\ lists_node SE cn d1 (fst s) (snd s)) /\
     (exists d1, during schedule ps d d1 /\ lists_node SE cn d1 (fst ob) (snd ob))) /\
  StronglySorted (edge_lt o) (map edge_of (ok_items xs)) /\
  (forall x, In (Err x) xs -> (exists y, met schedule y /\ x = SledError y) \/
     (x = MissingPropertyData /\ exists (t : triple (Id k)) e i, (i = sub t \/ i = obj t) /\
        (exists d1, during schedule ps d d1 /\ lists_edge SE ce o d1 t e) /\
        (exists d1, during schedule ps d d1 /\ forall p, ~ lists_node SE cn d1 i p))) /\
  (forall t, (forall d1, during schedule ps d d1 -> exists e, lists_edge SE ce o d1 t e) ->
     (forall d1, during schedule ps d d1 -> exists p, lists_node SE cn d1 (sub t) p) ->
     (forall d1, during schedule ps d d1 -> exists p, lists_node SE cn d1 (obj t) p) ->
     In t (map edge_of (ok_items xs)) \/ exists y, met schedule y /\ In (Err (SledError y)) xs).
Proof.
  intros k NP EP SE BE E cn ce mn me ls cs wcuts rcuts o schedule xs Hn He Hd Ho d ps Hx.
  destruct (beside_reads (k := k) cn ce every Hn He mn me _ (fun F => props_read cn ce every F o) ls cs wcuts schedule Hd
    (adds_every _ Ho)
    (fun F a w1 w2 => props_read_later cn ce every F o a w1 w2) (fun F w => rg_props cn ce every F o w rcuts) _ Hx) as (w & Hw & Hp).
  fold d ps in Hp.
  destruct Hw as (H1 & H2 & H3 & H4). split; [|split; [exact H2|split]].
  - intros s p ob H. destruct (H1 s p ob H) as ((d1 & D1 & L1) & (d2 & D2 & L2) & (d3 & D3 & L3)). split; [|split]; [exists d1|exists d2|exists d3]; auto.
  - intros x H. destruct (H3 x H) as [[-> (t & [K|((e & d1 & D1 & L1) & Hw)])]|H']; [destruct (K Logic.I)| |left; exact H'].
    right. split; auto. destruct Hw as [(d2 & D2 & L2)|(d2 & D2 & L2)].
    + exists t, e, (sub t). split; auto. split; [exists d1|exists d2]; auto.
    + exists t, e, (obj t). split; auto. split; [exists d1|exists d2]; auto.
  - intros t Ht Hs Ho'. destruct (H4 t) as [H'|(x & Hx' & [[_ [K|(_ & Hw)]]|(y & Hy & ->)])]; auto.
    + intros d1 D1. now apply Ht, Hp.
    + destruct (K Logic.I).
    + exfalso. destruct Hw as [(d2 & D2 & L2)|(d2 & D2 & L2)].
      * destruct (Hs d2) as [p Hl]; [now apply Hp|]. exact (L2 p Hl).
      * destruct (Ho' d2) as [p Hl]; [now apply Hp|]. exact (L2 p Hl).
    + right. eauto.
Qed.

Lemma run_beside_writers : forall k NP EP SE BE E (cn : codec BE NP) (ce : codec BE EP) mn me
    (ls : list (life (k := k) (NP := NP) (EP := EP) (SE := SE) (E := E)))
    (cs : list (handle k * list (op k NP EP E))) (wcuts : nat -> nat -> cutting) (rcuts : bytes * bytes -> list bytes) (g : gen k) q (schedule : list (nat * option SE)) r,
  codec_ok cn -> codec_ok ce -> NoDup (life_keys ls ++ session_keys cs) ->
  let d := lives cn ce mn me ls db_new in
  let ps := beside (l_run cn ce rcuts g q) (l_callers cn ce mn me wcuts 0 cs) in
  has_read r (fst (interleave schedule ps d)) ->
  match r with
  | Err x => exists y, met schedule y /\ x = SledError y
  | Ok m => drawn_distinct (id_generator m) -> exists g', shows m g' /\
      (forall i p, g_node g' i = Some p -> selects_node q i /\ exists d1, during schedule ps d d1 /\ lists_node SE cn d1 i p) /\
      (forall t e, g_edge g' t = Some e -> selects q t /\
         exists d1, during schedule ps d d1 /\ lists_edge SE ce (order_of q) d1 t e) /\
      (forall i, selects_node q i -> (forall d1, during schedule ps d d1 -> exists p, lists_node SE cn d1 i p) ->
         g_node g' i <> None)
  end.
Proof.
  intros k NP EP SE BE E cn ce mn me ls cs wcuts rcuts g q schedule r Hn He Hd d ps Hx.
  destruct (beside_reads (k := k) cn ce none Hn He mn me _ (fun F => run_read cn ce none F q) ls cs wcuts schedule Hd
    (adds_none _)
    (fun F a w1 w2 => run_read_later cn ce none F q a w1 w2) (fun F w => rg_run cn ce none F g q rcuts w) _ Hx) as (w & Hw & Hp).
  fold d ps in Hp.
  destruct r as [m|x]; [|exact Hw]. intros D. destruct (Hw D) as (g' & S1 & H1 & H2 & H3 & H4). exists g'.
  split; auto. split; [|split].
  - intros i p H. destruct (H1 i p H) as (Hs & d1 & D1 & L1). split; auto. exists d1. auto.
  - intros t e H. destruct (H2 t e H) as (Hs & d1 & D1 & L1). split; auto. exists d1. auto.
  - intros i Hs H. apply H3; auto. intros d1 D1. now apply H, Hp.
Qed.

Lemma run_beside_writers_adding : forall k NP EP SE BE E (cn : codec BE NP) (ce : codec BE EP) mn me
    (ls : list (life (k := k) (NP := NP) (EP := EP) (SE := SE) (E := E)))
    (cs : list (handle k * list (op k NP EP E))) (wcuts : nat -> nat -> cutting) (rcuts : bytes * bytes -> list bytes) (g : gen k) q (schedule : list (nat * option SE)) r,
  codec_ok cn -> codec_ok ce -> NoDup (life_keys ls ++ session_keys cs) ->
  Forall (fun hl => Forall adds_only (snd hl)) cs ->
  let d := lives cn ce mn me ls db_new in
  let ps := beside (l_run cn ce rcuts g q) (l_callers cn ce mn me wcuts 0 cs) in
  has_read r (fst (interleave schedule ps d)) ->
  match r with
  | Err x => exists y, met schedule y /\ x = SledError y
  | Ok m => drawn_distinct (id_generator m) -> exists g', shows m g' /\
      (forall i p, g_node g' i = Some p -> selects_node q i /\ exists d1, during schedule ps d d1 /\ lists_node SE cn d1 i p) /\
      (forall t e, g_edge g' t = Some e -> selects q t /\
         exists d1, during schedule ps d d1 /\ lists_edge SE ce (order_of q) d1 t e) /\
      (forall i, selects_node q i -> (forall d1, during schedule ps d d1 -> exists p, lists_node SE cn d1 i p) ->
         g_node g' i <> None) /\
      (forall t, selects q t -> (forall d1, during schedule ps d d1 -> exists e, lists_edge SE ce (order_of q) d1 t e) ->
         g_edge g' t <> None)
  end.
Proof.
  intros k NP EP SE BE E cn ce mn me ls cs wcuts rcuts g q schedule r Hn He Hd Ho d ps Hx.
  destruct (beside_reads (k := k) cn ce every Hn He mn me _ (fun F => run_read cn ce every F q) ls cs wcuts schedule Hd
    (adds_every _ Ho)
    (fun F a w1 w2 => run_read_later cn ce every F q a w1 w2) (fun F w => rg_run cn ce every F g q rcuts w) _ Hx) as (w & Hw & Hp).
  fold d ps in Hp.
  destruct r as [m|x]; [|exact Hw]. intros D. destruct (Hw D) as (g' & S1 & H1 & H2 & H3 & H4). exists g'.
  split; auto. split; [|split; [|split]].
  - intros i p H. destruct (H1 i p H) as (Hs & d1 & D1 & L1). split; auto. exists d1. auto.
  - intros t e H. destruct (H2 t e H) as (Hs & d1 & D1 & L1). split; auto. exists d1. auto.
  - intros i Hs H. apply H3; auto. intros d1 D1. now apply H, Hp.
  - intros t Hs H. apply H4; auto; [exact Logic.I|]. intros d1 D1. now apply H, Hp.
Qed.


(** ** Next to any calls, by edge *)
Lemma edges_beside_spared : forall k NP EP SE BE E (cn : codec BE NP) (ce : codec BE EP) mn me
    (ls : list (life (k := k) (NP := NP) (EP := EP) (SE := SE) (E := E)))
    (cs : list (handle k * list (op k NP EP E))) (wcuts : nat -> nat -> cutting) (rcuts : list bytes) o (schedule : list (nat * option SE)) xs,
  codec_ok cn -> codec_ok ce -> NoDup (life_keys ls ++ session_keys cs) ->
  let d := lives cn ce mn me ls db_new in
  let ps := beside (l_iter_edges (k := k) (BE := BE) ce rcuts o) (l_callers cn ce mn me wcuts 0 cs) in
  has_read xs (fst (interleave schedule ps d)) ->
  (In (Err MissingPropertyData) xs -> exists t, rewritten cs t) /\
  (forall t, (forall d1, during schedule ps d d1 -> exists e, lists_edge SE ce o d1 t e) ->
     In t (map fst (ok_items xs)) \/ (exists y, met schedule y /\ In (Err (SledError y)) xs) \/
     (rewritten cs t /\ In (Err MissingPropertyData) xs)).
Proof.
  intros k NP EP SE BE E cn ce mn me ls cs wcuts rcuts o schedule xs Hn He Hd d ps Hx.
  destruct (beside_reads (k := k) cn ce (fun t => ~ rewritten cs t) Hn He mn me _ (fun F => edges_read cn ce (fun t => ~ rewritten cs t) F o) ls cs wcuts schedule Hd
    (adds_spared _)
    (fun F a w1 w2 => edges_read_later cn ce (fun t => ~ rewritten cs t) F o a w1 w2) (fun F w => rg_edges cn ce (fun t => ~ rewritten cs t) F o w rcuts) _ Hx) as (w & Hw & Hp).
  fold d ps in Hp.
  destruct Hw as (H1 & H2 & H3 & H4). split.
  - intros H. destruct (H3 _ H) as [[_ [t Hk]]|(y & _ & Hy)]; [|discriminate]. exists t. now apply rewritten_not.
  - intros t H. destruct (H4 t) as [H'|(x & Hx' & [[-> Hk]|(y & Hy & ->)])].
    + intros d1 D1. now apply H, Hp.
    + left. exact H'.
    + right. right. split; auto. now apply rewritten_not.
    + right. left. eauto.
Qed.

Lemma props_beside_spared : forall k NP EP SE BE E (cn : codec BE NP) (ce : codec BE EP) mn me
    (ls : list (life (k := k) (NP := NP) (EP := EP) (SE := SE) (E := E)))
    (cs : list (handle k * list (op k NP EP E))) (wcuts : nat -> nat -> cutting) (rcuts : list bytes) o (schedule : list (nat * option SE)) xs,
  codec_ok cn -> codec_ok ce -> NoDup (life_keys ls ++ session_keys cs) ->
  let d := lives cn ce mn me ls db_new in
  let ps := beside (l_iter_edges_with_props (k := k) cn ce rcuts o) (l_callers cn ce mn me wcuts 0 cs) in
  has_read xs (fst (interleave schedule ps d)) ->
  (In (Err MissingPropertyData) xs -> exists t : triple (Id k), rewritten cs t \/ exists e i, (i = sub t \/ i = obj t) /\
     (exists d1, during schedule ps d d1 /\ lists_edge SE ce o d1 t e) /\
     (exists d1, during schedule ps d d1 /\ forall p, ~ lists_node SE cn d1 i p)) /\
  (forall t, (forall d1, during schedule ps d d1 -> exists e, lists_edge SE ce o d1 t e) ->
     (forall d1, during schedule ps d d1 -> exists p, lists_node SE cn d1 (sub t) p) ->
     (forall d1, during schedule ps d d1 -> exists p, lists_node SE cn d1 (obj t) p) ->
     In t (map edge_of (ok_items xs)) \/ (exists y, met schedule y /\ In (Err (SledError y)) xs) \/
     (rewritten cs t /\ In (Err MissingPropertyData) xs)).
Proof.
  intros k NP EP SE BE E cn ce mn me ls cs wcuts rcuts o schedule xs Hn He Hd d ps Hx.
  destruct (beside_reads (k := k) cn ce (fun t => ~ rewritten cs t) Hn He mn me _ (fun F => props_read cn ce (fun t => ~ rewritten cs t) F o) ls cs wcuts schedule Hd
    (adds_spared _)
    (fun F a w1 w2 => props_read_later cn ce (fun t => ~ rewritten cs t) F o a w1 w2) (fun F w => rg_props cn ce (fun t => ~ rewritten cs t) F o w rcuts) _ Hx) as (w & Hw & Hp).
  fold d ps in Hp.
  destruct Hw as (H1 & H2 & H3 & H4). split.
  - intros H. destruct (H3 _ H) as [[_ (t & [K|((e & d1 & D1 & L1) & Hw)])]|(y & _ & Hy)]; [|  |discriminate].
    + exists t. left. now apply rewritten_not.
    + exists t. right. destruct Hw as [(d2 & D2 & L2)|(d2 & D2 & L2)].
      * exists e, (sub t). split; auto. split; [exists d1|exists d2]; auto.
      * exists e, (obj t). split; auto. split; [exists d1|exists d2]; auto.
  - intros t Ht Hs Ho'. destruct (H4 t) as [H'|(x & Hx' & [[-> [K|(_ & Hw)]]|(y & Hy & ->)])]; auto.
    + intros d1 D1. now apply Ht, Hp.
    + right. right. split; auto. now apply rewritten_not.
    + exfalso. destruct Hw as [(d2 & D2 & L2)|(d2 & D2 & L2)].
      * destruct (Hs d2) as [p Hl]; [now apply Hp|]. exact (L2 p Hl).
      * destruct (Ho' d2) as [p Hl]; [now apply Hp|]. exact (L2 p Hl).
    + right. left. eauto.
Qed.

Lemma run_beside_spared : forall k NP EP SE BE E (cn : codec BE NP) (ce : codec BE EP) mn me
    (ls : list (life (k := k) (NP := NP) (EP := EP) (SE := SE) (E := E)))
    (cs : list (handle k * list (op k NP EP E))) (wcuts : nat -> nat -> cutting) (rcuts : bytes * bytes -> list bytes) (g : gen k) q (schedule : list (nat * option SE)) m,
  codec_ok cn -> codec_ok ce -> NoDup (life_keys ls ++ session_keys cs) ->
  let d := lives cn ce mn me ls db_new in
  let ps := beside (l_run cn ce rcuts g q) (l_callers cn ce mn me wcuts 0 cs) in
  has_read (Ok m) (fst (interleave schedule ps d)) ->
  drawn_distinct (id_generator m) -> exists g', shows m g' /\
    (forall i p, g_node g' i = Some p -> selects_node q i /\ exists d1, during schedule ps d d1 /\ lists_node SE cn d1 i p) /\
    (forall t e, g_edge g' t = Some e -> selects q t /\
       exists d1, during schedule ps d d1 /\ lists_edge SE ce (order_of q) d1 t e) /\
    (forall i, selects_node q i -> (forall d1, during schedule ps d d1 -> exists p, lists_node SE cn d1 i p) ->
       g_node g' i <> None) /\
    (forall t, selects q t -> (forall d1, during schedule ps d d1 -> exists e, lists_edge SE ce (order_of q) d1 t e) ->
       g_edge g' t <> None \/ rewritten cs t).
Proof.
  intros k NP EP SE BE E cn ce mn me ls cs wcuts rcuts g q schedule m Hn He Hd d ps Hx D.
  destruct (beside_reads (k := k) cn ce (fun t => ~ rewritten cs t) Hn He mn me _ (fun F => run_read cn ce (fun t => ~ rewritten cs t) F q) ls cs wcuts schedule Hd
    (adds_spared _)
    (fun F a w1 w2 => run_read_later cn ce (fun t => ~ rewritten cs t) F q a w1 w2) (fun F w => rg_run cn ce (fun t => ~ rewritten cs t) F g q rcuts w) _ Hx) as (w & Hw & Hp).
  fold d ps in Hp.
  destruct (Hw D) as (g' & S1 & H1 & H2 & H3 & H4). exists g'.
  split; auto. split; [|split; [|split]].
  - intros i p H. destruct (H1 i p H) as (Hs & d1 & D1 & L1). split; auto. exists d1. auto.
  - intros t e H. destruct (H2 t e H) as (Hs & d1 & D1 & L1). split; auto. exists d1. auto.
  - intros i Hs H. apply H3; auto. intros d1 D1. now apply H, Hp.
  - intros t Hs H. destruct (rewritten_dec cs t) as [?|Nr]; auto. left. apply H4; auto. intros d1 D1. now apply H, Hp.
Qed.
