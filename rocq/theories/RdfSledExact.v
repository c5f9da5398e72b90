(** Names of the vertices next to writers: when no identifier that is drawn for a name is in use
    without one, every identifier in the graph has its name from the moment it is there. *)
From Coq Require Import Arith NArith List Bool Sorted Lia.
From Verif Require Import Bytes BytesFacts OMap OMapFacts Core IdType IdTypeFacts Store Mem MemIndex Spec GenSpec
  CodecFacts ListFacts MemFacts MemSim History MemTop Prog ProgFacts Sled SledHistory SledSched SledDb SledOps SledBulk SledRead SledTables
  SledAny SledRun SledTop SledMain SledLeaf SledLeafFacts SledBeside SledRely SledOwn SledOwnOps SledBesideTop SledReaders
  SledIndex SledIndexFacts Rdf RdfSpec RdfTop RdfQuery RdfSled RdfSledSpec RdfSledSafe RdfSledConc RdfSledTop RdfSledRead RdfSledMain RdfSledLeaf RdfSledOwn
  RdfSledReaders RdfSledReadTop.
Import ListNotations.

(** ** The identifiers in the graph *)
Section Graph.
Context {k : idkind} {NP EP SE BE : Type} (cn : codec BE NP) (ce : codec BE EP).
Notation I := (Id k).
Notation T := (triple (Id k)).
Notation err := (sled_error SE BE).
Notation P A := (prog db SE A).
Notation PR A := (prog db SE (result err A)).
Implicit Types G : I -> Prop.

Definition part (i : I) (t : T) : Prop := i = sub t \/ i = pred t \/ i = obj t.
Definition mentions (d : db) (i : I) : Prop :=
  (exists b, In (to_be_bytes i, b) (t_node d)) \/ exists o t r, In (enc o t, r) (idx o d) /\ part i t.

Inductive puts G : db -> db -> Prop :=
| P_refl d : puts G d d
| P_node d d' (i : I) b : G i -> puts G (set_tbl TNode (binsert (to_be_bytes i) b (t_node d)) d) d' -> puts G d d'
| P_rec d d' r b : puts G (set_tbl TEdge (binsert r b (t_edge d)) d) d' -> puts G d d'
| P_idx d d' o (t : T) r : (forall i, part i t -> G i) -> puts G (set_tbl (tab o) (binsert (enc o t) r (idx o d)) d) d' -> puts G d d'
| P_del d d' x ks : puts G (set_tbl x (removes ks (tbl x d)) d) d' -> puts G d d'.

Lemma puts_spec G d d' : puts G d d' -> forall i, mentions d' i -> mentions d i \/ G i.
Proof.
  induction 1 as [d|d d' i b Hi _ IH|d d' r b _ IH|d d' o t r Ht _ IH|d d' x ks _ IH]; intros j Hj; auto;
    (destruct (IH j Hj) as [Hm|]; [|auto]); clear IH Hj.
  - destruct Hm as [(b' & Hin)|(o & t & r & Hin & Hp)].
    + simpl in Hin. apply in_insert_weak in Hin. destruct Hin as [[E _]|Hin]; [|left; left; eauto].
      apply to_be_bytes_inj in E. subst j. auto.
    + rewrite idx_set_other in Hin by (destruct o; discriminate). left. right. eauto 6.
  - destruct Hm as [(b' & Hin)|(o & t & r' & Hin & Hp)]; [left; left; eauto|].
    rewrite idx_set_other in Hin by (destruct o; discriminate). left. right. eauto 6.
  - destruct Hm as [(b' & Hin)|(o' & t' & r' & Hin & Hp)]; [left; left; exists b'; destruct o; exact Hin|].
    destruct (order_dec o' o) as [->|No].
    + rewrite idx_set_same in Hin. apply in_insert_weak in Hin. destruct Hin as [[E _]|Hin]; [|left; right; eauto 6].
      apply enc_inj in E. subst t'. auto.
    + rewrite idx_set_other in Hin by (intros E; apply tab_inj in E; auto). left. right. eauto 6.
  - left. destruct Hm as [(b' & Hin)|(o' & t' & r' & Hin & Hp)].
    + left. destruct (table_dec x TNode) as [->|Nx].
      * apply removes_in in Hin. eauto.
      * assert (t_node (set_tbl x (removes ks (tbl x d)) d) = t_node d) as E by (destruct x; congruence || reflexivity). rewrite E in Hin. eauto.
    + right. exists o', t', r'. split; auto. destruct (table_dec (tab o') x) as [<-|Nx].
      * rewrite idx_set_same in Hin. now apply removes_in in Hin.
      * now rewrite idx_set_other in Hin.
Qed.

Fixpoint within {X} G (p : P X) : Prop :=
  match p with
  | Ret _ => True
  | Look c => forall d, within G (c d)
  | Act u c e => (forall d, puts G d (u d)) /\ (forall d, within G (c d)) /\ (forall x, within G (e x))
  end.
Lemma within_bind {X Y} G (p : P X) (f : X -> P Y) : within G p -> (forall x, within G (f x)) -> within G (bind p f).
Proof. induction p as [x|c IH|u c IH e IHe]; simpl; auto. intros (H1 & H2 & H3) Hf. auto. Qed.
Lemma within_bind_ok {X Y Er} G (p : P (result Er X)) (f : X -> P (result Er Y)) :
  within G p -> (forall x, within G (f x)) -> within G (bind_ok p f).
Proof. intros Hp Hf. apply within_bind; auto. intros [x|x]; simpl; auto. Qed.
Lemma within_readonly {X} G (p : P X) : readonly p -> within G p.
Proof. induction 1 as [x|c _ IH|u c e Hu _ IH _ IHe]; simpl; auto. split; auto. intros d. rewrite Hu. apply P_refl. Qed.
Lemma within_remove G x key : within G (tree_remove x key : PR (option bytes)).
Proof. simpl. repeat split; auto. intros d. eapply P_del with (ks := [key]). apply P_refl. Qed.
Lemma within_txn {X} G (b : txn (SE := SE) (BE := BE) X) :
  (forall d x d', b d = Ok (x, d') -> puts G d d') -> within G (transaction b : PR X).
Proof. intros H. simpl. repeat split; auto. intros d. destruct (b d) as [[x d']|e] eqn:E; eauto. apply P_refl. Qed.

Lemma within_insert_node G (n : I) p : G n -> within G (s_insert_node cn n p : PR unit).
Proof.
  intros Hn. unfold s_insert_node, bind_ok, bincode. simpl. destruct (ser cn p) as [b|e] eqn:E; simpl; auto.
  repeat split; auto. intros d. eapply P_node; [exact Hn|]. apply P_refl.
Qed.
Lemma within_insert_edge G (t : T) e h : (forall i, part i t -> G i) -> within G (s_insert_edge ce t e h : P (result err unit * handle k)).
Proof.
  intros Ht. unfold s_insert_edge. destruct (draw h) as [r h']. apply within_bind; [|simpl; auto].
  unfold bind_ok at 1, bincode. cbn [Prog.bind]. destruct (ser ce e) as [b|er]; [|simpl; auto].
  apply within_bind_ok; [|simpl; auto]. apply within_txn.
  intros d x d' [= <- <-]. eapply P_rec.
  eapply P_idx with (o := SPO) (t := t); [exact Ht|].
  eapply P_idx with (o := POS) (t := t); [exact Ht|].
  eapply P_idx with (o := OSP) (t := t); [exact Ht|]. apply P_refl.
Qed.
Lemma within_merge_node G mn (n : I) p : G n -> within G (s_merge_node cn mn n p : PR unit).
Proof.
  intros Hn. apply within_bind_ok; [|simpl; auto]. apply within_txn.
  intros d x d'. unfold merge_node_txn, t_bind, t_get. destruct (bget (to_be_bytes n) (tbl TNode d)) as [v|].
  - destruct (de cn v) as [p0|e0]; simpl; [|discriminate]. unfold t_ret.
    destruct (ser cn (mn p0 p)) as [b|e1]; simpl; [|discriminate]. intros [= <- <-]. eapply P_node; [exact Hn|]. apply P_refl.
  - destruct (ser cn p) as [b|e1]; simpl; [|discriminate]. intros [= <- <-]. eapply P_node; [exact Hn|]. apply P_refl.
Qed.
Lemma within_merge_edge G me (t : T) e h : (forall i, part i t -> G i) -> within G (s_merge_edge ce me t e h : P (result err unit * handle k)).
Proof.
  intros Ht. unfold s_merge_edge. destruct (draw h) as [r h']. apply within_bind; [|simpl; auto].
  apply within_bind_ok; [|simpl; auto]. apply within_txn.
  intros d x d'. unfold merge_edge_txn, t_bind, t_insert, t_remove. cbn [tbl].
  assert (forall d0 e0, (let put := fun props : EP => t_bind (t_bincode (ser ce props)) (fun b =>
    t_bind (t_insert (SE := SE) (BE := BE) TEdge (to_be_bytes r) b) (fun _ => t_ret tt)) in put e0 d0 = Ok (x, d')) -> puts G d0 d') as Hput.
  { intros d0 e0. cbn zeta. unfold t_bind, t_bincode. destruct (ser ce e0) as [b|?]; simpl; [|discriminate].
    intros [= <- <-]. eapply P_rec. apply P_refl. }
  cbn zeta in Hput. unfold t_bind, t_insert in Hput. intros H.
  eapply P_idx with (o := SPO) (t := t); [exact Ht|].
  eapply P_idx with (o := POS) (t := t); [exact Ht|].
  eapply P_idx with (o := OSP) (t := t); [exact Ht|].
  destruct (bget (encode_spo t) (t_spo d)) as [old|]; [|eapply Hput; exact H].
  cbn [t_edge set_tbl tbl] in H. eapply P_del with (x := TEdge) (ks := [old]).
  destruct (bget old (t_edge d)) as [v|]; [|eapply Hput; exact H].
  destruct (de ce v) as [e0|?]; simpl in H; [|discriminate]. eapply Hput. exact H.
Qed.
Lemma within_remove_edge G (t : T) : within G (s_remove_edge t : PR unit).
Proof.
  apply within_bind_ok.
  - apply within_txn. intros d x d'. unfold remove_edge_txn, t_bind, t_remove. cbn [tbl].
    destruct (bget (encode_spo t) (t_spo d)) as [r|]; intros [= <- <-].
    + eapply P_del with (x := TSpo) (ks := [encode_spo t]).
      eapply P_del with (x := TPos) (ks := [encode_pos t]).
      eapply P_del with (x := TOsp) (ks := [encode_osp t]).
      eapply P_del with (x := TEdge) (ks := [r]). apply P_refl.
    + eapply P_del with (x := TSpo) (ks := [encode_spo t]).
      eapply P_del with (x := TPos) (ks := [encode_pos t]).
      eapply P_del with (x := TOsp) (ks := [encode_osp t]). apply P_refl.
  - intros _. apply within_bind_ok; [apply within_remove|]. intros r.
    apply within_bind_ok; [apply within_remove|]. intros _.
    apply within_bind_ok; [apply within_remove|]. intros _.
    destruct r; simpl; auto. repeat split; auto. intros d. eapply P_del with (x := TEdge) (ks := [_]). apply P_refl.
Qed.
Lemma within_remove_node G c (n : I) : within G (l_remove_node c n : PR unit).
Proof.
  apply within_bind_ok; [apply within_readonly, readonly_for_from; intros; repeat constructor; destruct (decode_key _ _); repeat constructor|].
  intros f. apply within_bind_ok; [apply within_readonly, readonly_for_from; intros; repeat constructor; destruct (decode_key _ _); repeat constructor|].
  intros b. apply within_bind_ok; [|simpl; auto]. apply within_txn. intros d x d' [= <- <-].
  eapply P_del with (x := TNode) (ks := [to_be_bytes n]).
  eapply P_del with (x := TEdge) (ks := b_edge f).
  eapply P_del with (x := TEdge) (ks := b_edge b).
  eapply P_del with (x := TSpo) (ks := b_spo f).
  eapply P_del with (x := TSpo) (ks := b_spo b).
  eapply P_del with (x := TPos) (ks := b_pos f).
  eapply P_del with (x := TPos) (ks := b_pos b).
  eapply P_del with (x := TOsp) (ks := b_osp f).
  eapply P_del with (x := TOsp) (ks := b_osp b). apply P_refl.
Qed.
End Graph.

(** ** The names *)
Section Names.
Context {S NP EP SE BE E : Type} (cs : codec BE S) (cu : codec BE (Id KUlid)) (cn : codec BE NP) (ce : codec BE EP).
Context (Hcs : codec_ok cs) (Hcu : codec_ok cu) (mn : NP -> NP -> NP) (me : EP -> EP -> EP).
Notation I := (Id KUlid).
Notation ent := (entity S).
Notation gerr := (sled_error SE BE).
Notation err := (rdf_error S (sled_index_error S (Id KUlid) SE BE) gerr).
Notation P A := (prog rdb SE A).
Notation PR A := (prog rdb SE (result err A)).
Notation PH A := (prog rdb SE (result err A * rhandle)).
Notation nu := (name_now (SE := SE) cs cu).
Notation rho := (id_now (SE := SE) cs cu).
Notation rop := (rop S NP EP E).
Notation answer := (routcome (S := S) (SE := SE) (BE := BE) (E := E)).
Implicit Types M : I -> Prop.
Implicit Types d : rdb.
Implicit Types h : rhandle.

(** [B]: the identifiers in use without a name; [D]: those that are drawn for names *)
Context (B D : I -> Prop) (d0 : rdb).

Definition has_name d i : Prop := exists s, rho d i = Some s.
Record inv d : Prop := {
  iv_ok : index_ok cs cu (r_names d);
  iv_in : forall i, mentions (r_trees d) i -> B i \/ has_name d i;
  iv_names : forall i s, rho d i = Some s -> rho d0 i = Some s \/ D i;
  iv_grew : below (nu d0) (nu d)
}.
Definition known M d : Prop := forall i, M i -> has_name d i.

Fixpoint clean {X} (R : (I -> Prop) -> X -> Prop) M (p : P X) : Prop :=
  match p with
  | Ret x => R M x
  | Look c => forall d, inv d -> known M d -> clean R M (c d)
  | Act u c e => (forall d, inv d -> known M d -> inv (u d) /\ below (nu d) (nu (u d)) /\
                    clean R (fun i => M i \/ has_name (u d) i) (c d)) /\ forall x, clean R M (e x)
  end.

Lemma has_name_below d d' : inv d -> inv d' -> below (nu d) (nu d') -> forall i, has_name d i -> has_name d' i.
Proof.
  intros H H' Hb i (s & Hs). exists s. apply (one_now (SE := SE) cs cu Hcs Hcu _ (iv_ok _ H')). apply Hb.
  now apply (one_now (SE := SE) cs cu Hcs Hcu _ (iv_ok _ H)).
Qed.

Lemma clean_mono {X} (R R' : (I -> Prop) -> X -> Prop) (p : P X) :
  (forall M M' x, (forall i, M i -> M' i) -> R M x -> R' M' x) ->
  forall M M', (forall i, M i -> M' i) -> clean R M p -> clean R' M' p.
Proof.
  intros HR. induction p as [x|c IH|u c IH e IHe]; simpl; intros M M' HM Hp; eauto.
  - intros d Hd Hk. eapply IH; [exact HM|]. apply Hp; auto. intros i Hi. auto.
  - destruct Hp as [H1 H2]. split; [|intros x; eapply IHe; eauto]. intros d Hd Hk.
    destruct (H1 d Hd) as (A1 & A2 & A3); [intros i Hi; auto|]. split; auto. split; auto. eapply IH; [|exact A3].
    cbv beta. intros i [Hi|Hi]; auto.
Qed.
Lemma clean_weak {X} (R R' : (I -> Prop) -> X -> Prop) (p : P X) :
  (forall M x, R M x -> R' M x) -> forall M, clean R M p -> clean R' M p.
Proof.
  intros HR. induction p as [x|c IH|u c IH e IHe]; simpl; intros M Hp; auto. destruct Hp as [H1 H2]. split; auto.
  intros d Hd Hk. destruct (H1 d Hd Hk) as (A1 & A2 & A3). auto.
Qed.
Lemma clean_bind {X Y} (R : (I -> Prop) -> Y -> Prop) (p : P X) (f : X -> P Y) : forall M,
  clean (fun M' x => clean R M' (f x)) M p -> clean R M (bind p f).
Proof.
  induction p as [x|c IH|u c IH e IHe]; simpl; intros M Hp; auto. destruct Hp as [H1 H2]. split; auto.
  intros d Hd Hk. destruct (H1 d Hd Hk) as (A1 & A2 & A3). auto.
Qed.
(** What is known stays known. *)
Lemma clean_more {X} (R : (I -> Prop) -> X -> Prop) (p : P X) M0 : forall M, (forall i, M0 i -> M i) ->
  clean R M p -> clean (fun M' x => (forall i, M0 i -> M' i) /\ R M' x) M p.
Proof.
  induction p as [x|c IH|u c IH e IHe]; simpl; intros M HM Hp; auto. destruct Hp as [H1 H2]. split; auto.
  intros d Hd Hk. destruct (H1 d Hd Hk) as (A1 & A2 & A3). split; auto.
Qed.
Lemma clean_readonly {X} (R : (I -> Prop) -> X -> Prop) (p : P X) : readonly p -> (forall M x, R M x) -> forall M, clean R M p.
Proof.
  intros Hp HR. induction Hp as [x|c _ IH|u c e Hu _ IH _ IHe]; simpl; auto. intros M. split; auto.
  intros d Hd Hk. rewrite Hu. split; [auto|]. split; [apply below_refl|auto].
Qed.

Lemma inv_graph d g : inv d -> (forall i, mentions g i -> mentions (r_trees d) i \/ B i \/ has_name d i) -> inv (RDb (r_names d) g).
Proof.
  intros [H1 H2 H3 H4] Hg. split; auto. simpl. intros i Hi. destruct (Hg i Hi) as [Hm|Hm]; auto. exact (H2 i Hm).
Qed.
Lemma clean_graph {X} G (R : (I -> Prop) -> X -> Prop) (p : prog db SE X) : within G p -> forall M,
  (forall i, G i -> B i \/ M i) -> (forall M' x, (forall i, M i -> M' i) -> R M' x) -> clean R M (on_graph p).
Proof.
  induction p as [x|c IH|u c IH e IHe]; simpl; intros Hp M HG HR; auto.
  destruct Hp as (H1 & H2 & H3). split; auto. intros d Hd Hk. split; [|split].
  - apply inv_graph; auto. intros i Hi. destruct (puts_spec G _ _ (H1 (r_trees d)) i Hi) as [Hm|Hm]; auto.
    right. destruct (HG i Hm); auto.
  - apply below_refl.
  - apply IH; auto. intros i Hi. destruct (HG i Hi); auto.
Qed.

(** The Ulids that a handle will draw *)
Definition upto h n : Prop := forall i, In i (next_ids (rh_ulids h) n) -> D i.
Lemma upto_less h n m : n <= m -> upto h m -> upto h n.
Proof.
  intros Hn H i Hi. apply H. unfold next_ids in *. apply in_map_iff in Hi. destruct Hi as (j & <- & Hj).
  apply in_map. apply in_seq in Hj. apply in_seq. lia.
Qed.

Definition used (e : ent) : Prop := forall i, e = EUlid i -> B i.
Definition got {X} (ok : (I -> Prop) -> X -> Prop) n : (I -> Prop) -> result err X * rhandle -> Prop :=
  fun M xh => upto (snd xh) n /\ forall x, fst xh = Ok x -> ok M x.
Definition id_ok M (i : I) : Prop := B i \/ M i.

Lemma nu_rho d s i : inv d -> nu d s = Some i -> rho d i = Some s.
Proof. intros H. apply (one_now (SE := SE) cs cu Hcs Hcu _ (iv_ok _ H)). Qed.

Lemma inv_set d n i lb rb x : ser cs n = Ok lb -> ser cu i = Ok rb -> D i -> inv d ->
  set_body (L := S) (R := I) (SE := SE) cs cu n i lb rb (r_names d) = Ok x ->
  inv (RDb x (r_trees d)) /\ below (nu d) (nu (RDb x (r_trees d))) /\ has_name (RDb x (r_trees d)) i.
Proof.
  intros Hl Hr HD Hd Hx. pose proof (set_grows (SE := SE) cs cu Hcs Hcu n i lb rb (r_names d) Hl Hr) as Hg. rewrite Hx in Hg.
  destruct Hg as (Hg & Hn & Hother).
  pose proof (ok_grows _ _ _ _ Hg (iv_ok _ Hd)) as Hok. pose proof (grows_below (SE := SE) cs cu Hcu d x (iv_ok _ Hd) Hg) as Hb.
  set (d' := RDb x (r_trees d)) in *.
  pose proof (one_now (SE := SE) cs cu Hcs Hcu d' Hok) as O'. pose proof (one_now (SE := SE) cs cu Hcs Hcu d (iv_ok _ Hd)) as O.
  assert (rho d' i = Some n) as Hi by (apply O', nu_some; exact Hn).
  split; [|split; [exact Hb|exists n; exact Hi]].
  split; auto.
  - intros j Hj. destruct (iv_in _ Hd j Hj) as [|(s & Hs)]; auto. right. exists s. apply O', Hb, O. exact Hs.
  - intros j s Hs. destruct (rho d j) as [s'|] eqn:Hj.
    + assert (rho d' j = Some s') as Hj' by (apply O', Hb, O; exact Hj). rewrite Hj' in Hs. injection Hs as <-. now apply (iv_names _ Hd).
    + right. apply O' in Hs. apply nu_some in Hs. simpl in Hs.
      assert (nu d' n = Some i) as Hni by now apply nu_some.
      unfold set_body in Hx. destruct (bget lb (i_l2r (r_names d))) as [b|] eqn:E1; [destruct (de cu b); discriminate|].
      cbn [i_l2r i_r2l] in Hx. destruct (bget rb (i_r2l (r_names d))) as [b|] eqn:E2; [destruct (de cs b); discriminate|].
      injection Hx as Hx. destruct (id_eq_dec j i) as [->|Nj]; auto.
      exfalso. assert (rho d' j = rho d j) as Hsame.
      { unfold id_now. simpl. rewrite <- Hx. now rewrite (proj2 (right_insert cs cu Hcs Hcu (r_names d) n i lb rb Hl Hr j) Nj). }
      assert (rho d' j = Some s) as Hs' by (apply O', nu_some; exact Hs). congruence.
  - eapply below_trans; [exact (iv_grew _ Hd)|exact Hb].
Qed.

Lemma clean_bind_h {X Y} okx n (R : (I -> Prop) -> result err Y * rhandle -> Prop) M (p : PH X) (f : X -> rhandle -> PH Y) :
  clean (got okx n) M p ->
  (forall x h' M', (forall i, M i -> M' i) -> upto h' n -> okx M' x -> clean R M' (f x h')) ->
  (forall x h' M', upto h' n -> R M' (Err x, h')) ->
  clean R M (bind_h p f).
Proof.
  intros Hp Hf He. apply clean_bind. apply (clean_more _ _ M M) in Hp; [|auto].
  eapply clean_weak; [|exact Hp]. cbv beta. intros M' [[x|e] h'] [HM [Hu Hx]]; simpl in *; auto.
Qed.

Lemma clean_create n e h : forall M, used e -> upto h (length (name_of e) + n) ->
  clean (got id_ok n) M (rs_lookup_or_create cs cu e h : PH I).
Proof.
  intros M He Hu. destruct e as [s|i]; cbn [rs_lookup_or_create name_of length Nat.add] in *.
  2:{ split; auto. intros x [= <-]. left. auto. }
  assert (upto h n) as Hu' by (eapply upto_less; [|exact Hu]; lia).
  assert (forall x h' M', upto h' n -> got id_ok n M' (Err (NameIndexStorageError x), h' : rhandle)) as Herr
    by (intros x h' M' Hh; split; [exact Hh|discriminate]).
  apply clean_bind. unfold si_left_to_right. destruct (ser cs s) as [lb|b] eqn:Hl; [|apply Herr; auto].
  cbn [on_names clean]. split; [|intros x; apply Herr; auto]. intros d Hd Hk.
  replace (RDb (r_names d) (r_trees d)) with d by (destruct d; reflexivity).
  split; auto. split; [apply below_refl|]. rewrite (de_left (SE := SE) cs cu d s lb (iv_ok _ Hd) Hl).
  destruct (left_now cs cu (r_names d) s) as [[i|]|x] eqn:Hn.
  - split; auto. intros x [= <-]. right. right. exists s. apply nu_rho; auto. now apply nu_some.
  - unfold fresh. apply clean_bind. unfold si_set. rewrite Hl.
    assert (upto (RHandle (rh_graph h) (Gen (g_seq (rh_ulids h)) (Datatypes.S (g_pos (rh_ulids h))))) n) as Hnext.
    { intros i Hi. apply Hu. unfold next_ids in *. simpl in *. auto. }
    set (i := g_seq (rh_ulids h) (g_pos (rh_ulids h))) in *.
    destruct (ser cu i) as [rb|b] eqn:Hr; [|apply Herr; auto].
    cbn [on_names clean]. split; [|intros x; apply Herr; auto]. intros d' Hd' Hk'.
    destruct (set_body cs cu s i lb rb (r_names d')) as [x'|x'] eqn:Hx.
    + destruct (inv_set d' s i lb rb x' Hl Hr) as (I1 & I2 & I3); auto.
      { apply Hu. unfold next_ids. simpl. left. reflexivity. }
      split; auto. split; auto. split; auto. intros x [= <-]. right. right. exact I3.
    + replace (RDb (r_names d') (r_trees d')) with d' by (destruct d'; reflexivity).
      split; auto. split; [apply below_refl|]. apply Herr; auto.
  - apply Herr; auto.
Qed.

Definition triple_ok M (t : triple I) : Prop := forall i, part i t -> id_ok M i.
Lemma clean_create3 n t h : forall M, used (sub t) -> used (pred t) -> used (obj t) -> upto h (length (names_of t) + n) ->
  clean (got triple_ok n) M (rs_create3 cs cu t h : PH (triple I)).
Proof.
  intros M U1 U2 U3 Hu. unfold names_of in Hu. rewrite !app_length, <- !Nat.add_assoc in Hu. unfold rs_create3.
  assert (forall x h' m (M' : I -> Prop), upto h' (m + n) -> got triple_ok n M' (Err x, h')) as Herr.
  { intros x h' m M' Hh. split; [|discriminate]. simpl. eapply upto_less; [|exact Hh]. lia. }
  eapply clean_bind_h; [apply clean_create; eauto| |intros x h' M' Hh; rewrite Nat.add_assoc in Hh; eapply Herr; eauto].
  intros a h1 M1 HM1 Hu1 Ha. eapply clean_bind_h; [apply clean_create; eauto| |intros x h' M' Hh; eapply Herr; eauto].
  intros b h2 M2 HM2 Hu2 Hb. eapply clean_bind_h; [apply clean_create; eauto| |intros x h' M' Hh; apply (Herr x h' 0 M'); eauto].
  intros c h3 M3 HM3 Hu3 Hc. split; auto. intros x [= <-] i [Hi|[Hi|Hi]]; rewrite Hi; simpl; unfold id_ok in *; auto.
  - destruct Ha; auto.
  - destruct Hb; auto.
Qed.

Lemma clean_find n e h M : upto h n -> clean (got (fun _ _ => True) n) M (bind (rs_lookup_entity cs cu e) (fun r => Ret (r, h)) : PH I).
Proof.
  intros Hu. apply clean_bind, clean_readonly; [|intros; split; auto].
  destruct e as [s|i]; cbn [rs_lookup_entity]; [|constructor]. unfold si_left_to_right.
  destruct (ser cs s); repeat constructor. intros d. now destruct d.
Qed.
Lemma ro_lookup_entity e : readonly (rs_lookup_entity cs cu e : PR I).
Proof.
  destruct e as [s|i]; cbn [rs_lookup_entity]; [|constructor]. unfold si_left_to_right.
  destruct (ser cs s); repeat constructor. intros d. now destruct d.
Qed.
Lemma clean_find3 n t h M : upto h n ->
  clean (got (fun _ _ => True) n) M (bind (try_map_prog (rs_lookup_entity cs cu) t) (fun r => Ret (r, h)) : PH (triple I)).
Proof.
  intros Hu. apply clean_bind, clean_readonly; [|intros; split; auto].
  unfold try_map_prog. repeat (apply readonly_bind_ok; [apply ro_lookup_entity|intros ?]). constructor.
Qed.

Lemma clean_call (G : (I -> Prop) -> I -> Prop) n M f h : upto h n ->
  (forall g, within (k := KUlid) (G M) (f g)) -> (forall i, G M i -> id_ok M i) ->
  clean (got (fun _ _ => True) n) M (graph_call f h : PH unit).
Proof.
  intros Hu Hf HG. apply clean_bind. eapply (clean_graph (G M)); [apply Hf|exact HG|].
  intros M' [r g] HM. split; auto.
Qed.
Lemma clean_then {X} okx n M (p : PH X) (f : X -> handle KUlid -> prog db SE (result gerr unit * handle KUlid)) :
  clean (got okx n) M p ->
  (forall x M' g, okx M' x -> within (k := KUlid) (id_ok M') (f x g)) ->
  clean (got (fun _ _ => True) n) M (bind_h p (fun x => graph_call (f x))).
Proof.
  intros Hp Hf. eapply clean_bind_h; [exact Hp| |intros x h' M' Hh; split; [exact Hh|discriminate]].
  intros x h' M' HM Hu Hx. apply clean_call with (G := id_ok); auto.
Qed.

Notation done := (got (fun (_ : I -> Prop) (_ : unit) => True)).
Lemma within_handle {X} G (g : handle KUlid) (p : prog db SE X) : within (k := KUlid) G p -> within (k := KUlid) G (and_handle g p).
Proof. intros H. apply within_bind; simpl; auto. Qed.

Lemma clean_insert_node n M e p h : used e -> upto h (length (name_of e) + n) -> clean (done n) M (rs_insert_node cs cu cn e p h : PH unit).
Proof.
  intros He Hu. apply clean_then with (okx := id_ok); [now apply clean_create|]. intros x M' g Hx. apply within_handle. now apply within_insert_node.
Qed.
Lemma clean_merge_node n M e p h : used e -> upto h (length (name_of e) + n) -> clean (done n) M (rs_merge_node cs cu cn mn e p h : PH unit).
Proof.
  intros He Hu. apply clean_then with (okx := id_ok); [now apply clean_create|]. intros x M' g Hx. apply within_handle. now apply within_merge_node.
Qed.
Definition used3 (t : triple ent) : Prop := used (sub t) /\ used (pred t) /\ used (obj t).
Lemma clean_insert_edge n M t p h : used3 t -> upto h (length (names_of t) + n) -> clean (done n) M (rs_insert_edge cs cu ce t p h : PH unit).
Proof.
  intros (U1 & U2 & U3) Hu. apply clean_then with (okx := triple_ok); [now apply clean_create3|]. intros x M' g Hx. now apply within_insert_edge.
Qed.
Lemma clean_merge_edge n M t p h : used3 t -> upto h (length (names_of t) + n) -> clean (done n) M (rs_merge_edge cs cu ce me t p h : PH unit).
Proof.
  intros (U1 & U2 & U3) Hu. apply clean_then with (okx := triple_ok); [now apply clean_create3|]. intros x M' g Hx. now apply within_merge_edge.
Qed.

(** Loops *)
Definition through {A Er} n (l : list (result Er A)) : (I -> Prop) -> result (lr_error err Er) unit * rhandle -> Prop :=
  fun _ xh => upto (snd xh) n /\ (fst xh = Ok tt -> first_error l = None).
Lemma clean_each {A Er} (step : A -> rhandle -> PH unit) (ok : A -> Prop) (cost : A -> list S) n (l : list (result Er A)) :
  (forall a h m M, ok a -> upto h (length (cost a) + m) -> clean (done m) M (step a h)) ->
  Forall ok (before_error l) ->
  forall h M, upto h (length (flat_map cost (before_error l)) + n) -> clean (through n l) M (rs_for_each step l h).
Proof.
  intros Hs. induction l as [|[a|er] l IH]; intros Ho h M Hu.
  - simpl. split; auto.
  - cbn [rs_for_each before_error flat_map] in *. inversion Ho; subst. rewrite app_length, <- Nat.add_assoc in Hu.
    apply clean_bind. eapply clean_weak; [|apply (Hs a h _ M H1 Hu)].
    cbv beta. intros M2 [[[]|x] h'] [Hu' _]; cbn [fst snd] in *.
    + eapply clean_weak; [|apply IH; auto]. intros M4 xh H. exact H.
    + simpl. split; [|discriminate]. simpl. eapply upto_less; [|exact Hu']. lia.
  - simpl. split; [|discriminate]. exact Hu.
Qed.

Lemma clean_bulk fn fe (s : rdf_source S NP EP E) n M h :
  (forall e p h m M, used e -> upto h (length (name_of e) + m) -> clean (done m) M (fn e p h)) ->
  (forall t p h m M, used3 t -> upto h (length (names_of t) + m) -> clean (done m) M (fe t p h)) ->
  Forall (fun ip => used (fst ip)) (used_nodes s) -> Forall (fun te => used3 (fst te)) (used_edges s) ->
  upto h (length (flat_map (fun ip => name_of (fst ip)) (used_nodes s) ++ flat_map (fun te => names_of (fst te)) (used_edges s)) + n) ->
  clean (fun (_ : I -> Prop) xh => upto (snd xh) n) M (rs_bulk (SE := SE) (BE := BE) fn fe s h).
Proof.
  intros Hn He Un Ue Hu. rewrite app_length, <- Nat.add_assoc in Hu. apply clean_bind.
  eapply clean_weak; [|apply (clean_each (Er := E) (fun ip => fn (fst ip) (snd ip)) (fun ip => used (fst ip)) (fun ip => name_of (fst ip))
    (length (flat_map (fun te => names_of (fst te)) (used_edges s)) + n) (rs_nodes s)); [|exact Un|exact Hu]].
  - cbv beta. intros M2 [[[]|x] h'] [Hu' Hno]; cbn [fst snd] in *.
    + specialize (Hno eq_refl). unfold used_edges in Hu', Ue. rewrite Hno in Hu', Ue.
      eapply clean_weak; [|apply (clean_each (Er := E) (fun te => fe (fst te) (snd te)) (fun te => used3 (fst te)) (fun te => names_of (fst te)) n (rs_edges s)); [|exact Ue|exact Hu']].
      * intros M3 xh [H _]. exact H.
      * intros [t p] h0 m M0. apply He.
    + simpl. eapply upto_less; [|exact Hu']. lia.
  - intros [e p] h0 m M0. apply Hn.
Qed.

Lemma clean_out n M (p : PH unit) : clean (done n) M p -> clean (fun (_ : I -> Prop) xh => upto (snd xh) n) M (left_out (E := E) p).
Proof.
  intros H. apply clean_bind. eapply clean_weak; [|exact H].
  intros M2 [r h'] [Hs _]. exact Hs.
Qed.

Lemma clean_apply n M c (o : rop) h : Forall used (entities_of o) -> upto h (length (given o) + n) ->
  clean (fun (_ : I -> Prop) xh => upto (snd xh) n) M (rl_apply cs cu cn ce mn me c o h : P (answer * rhandle)).
Proof.
  assert (forall t, Forall used (ends t) -> used3 t) as Hends.
  { intros t H. inversion_clear H as [|? ? H1 H']. inversion_clear H' as [|? ? H2 H'']. inversion_clear H'' as [|? ? H3 _]. repeat split; auto. }
  assert (forall s : rdf_source S NP EP E, Forall used (map (fun ip => fst ip) (used_nodes s) ++ flat_map (fun te => ends (fst te)) (used_edges s)) ->
    Forall (fun ip => used (fst ip)) (used_nodes s) /\ Forall (fun te => used3 (fst te)) (used_edges s)) as Hsrc.
  { intros s H. apply Forall_app in H. destruct H as [H1 H2]. split.
    - apply Forall_forall. intros x Hx. eapply Forall_forall in H1; [exact H1|]. apply in_map_iff. eauto.
    - apply Forall_forall. intros x Hx. apply Hends. apply Forall_forall. intros e He. eapply Forall_forall in H2; [exact H2|].
      apply in_flat_map. eauto. }
  intros Ho Hu. destruct o as [e p|t p|e|t|e p|t p|s|s]; cbn [rl_apply rs_apply entities_of given] in *.
  - apply clean_out. apply clean_insert_node; auto. now inversion Ho.
  - apply clean_out. apply clean_insert_edge; auto.
  - apply clean_out. apply clean_then with (okx := fun _ _ => True); [now apply clean_find|]. intros x M' g _. apply within_handle, within_remove_node.
  - apply clean_out. apply clean_then with (okx := fun _ _ => True); [now apply clean_find3|]. intros x M' g _. apply within_handle, within_remove_edge.
  - apply clean_out. apply clean_merge_node; auto. now inversion Ho.
  - apply clean_out. apply clean_merge_edge; auto.
  - destruct (Hsrc s Ho). apply clean_bulk; auto; intros; [now apply clean_insert_node|now apply clean_insert_edge].
  - destruct (Hsrc s Ho). apply clean_bulk; auto; intros; [now apply clean_merge_node|now apply clean_merge_edge].
Qed.

Lemma clean_history cuts (l : list rop) : forall j M h, Forall used (flat_map entities_of l) -> upto h (length (flat_map given l)) ->
  clean (fun _ _ => True) M (rl_history cs cu cn ce mn me cuts j l h : P (list answer * rhandle)).
Proof.
  induction l as [|o l IH]; intros j M h Ho Hu; simpl; auto. cbn [flat_map] in Ho, Hu. apply Forall_app in Ho. destruct Ho as [H1 H2].
  rewrite app_length in Hu. apply clean_bind. eapply clean_weak; [|apply clean_apply; [exact H1|exact Hu]].
  cbv beta. intros M2 [r h'] Hu'. cbn [snd fst] in *. apply clean_bind.
  eapply clean_weak; [|apply IH; auto]. simpl. auto.
Qed.

(** ** Executions *)
Lemma clean_run {X} schedule : forall (ps : list (P X)) d, inv d ->
  (forall i p, nth_error ps i = Some p -> exists M, known M d /\ clean (fun _ _ => True) M p) ->
  forall d1, during schedule ps d d1 -> inv d1.
Proof.
  induction schedule as [|[i f] s IH]; intros ps d Hd Hps d1 (s1 & s2 & Hs & ->).
  - destruct s1; [exact Hd|discriminate].
  - destruct s1 as [|[i' f'] s1]; [exact Hd|]. simpl in Hs. injection Hs as <- <- ->. simpl.
    destruct (nth_error ps i) as [p|] eqn:Hi.
    2:{ eapply IH; [exact Hd|exact Hps|]. exists s1, s2. auto. }
    destruct (step1 f p d) as [p' d'] eqn:Est.
    assert (inv d' /\ below (nu d) (nu d') /\ exists M, known M d' /\ clean (fun _ _ => True) M p') as (Hd' & Hb & Hp').
    { destruct (Hps i p Hi) as (M & Hk & Hp). destruct p as [x|c|u c e]; simpl in Est.
      - injection Est as <- <-. split; auto. split; [apply below_refl|]. exists M. auto.
      - injection Est as <- <-. split; auto. split; [apply below_refl|]. exists M. split; [exact Hk|]. apply Hp; auto.
      - destruct Hp as [H1 H2]. destruct f as [x|]; injection Est as <- <-.
        + split; auto. split; [apply below_refl|]. exists M. auto.
        + destruct (H1 d Hd Hk) as (A1 & A2 & A3). split; auto. split; auto. eexists. split; [|exact A3].
          intros j [Hj|Hj]; auto. apply (has_name_below d); auto. }
    eapply IH; [exact Hd'| |exists s1, s2; auto].
    intros j q. rewrite nth_replace. destruct (Nat.eq_dec i j) as [->|Nj].
    + rewrite Hi. intros [= <-]. exact Hp'.
    + intros Hq. destruct (Hps j q Hq) as (M & Hk & Hq'). exists M. split; auto. intros x Hx. apply (has_name_below d); auto.
Qed.
End Names.
