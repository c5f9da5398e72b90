(** Concrete databases used by the examples beside the theorems about SledTripleStore. *)
From Coq Require Import NArith List.
From Coq.Init Require Import Byte.
From Verif Require Import Bytes BytesFacts OMap OMapFacts Core IdType Store Mem Spec History Prog Sled SledHistory Ex.
Import ListNotations.
Open Scope N_scope.

(** A serialisation of numbers: the binary digits, one per byte. *)
Fixpoint pos_bytes (p : positive) : bytes :=
  match p with xH => [] | xO p => x00 :: pos_bytes p | xI p => x01 :: pos_bytes p end.
Fixpoint bytes_pos (b : bytes) : option positive :=
  match b with
  | [] => Some xH
  | x00 :: b' => option_map xO (bytes_pos b')
  | x01 :: b' => option_map xI (bytes_pos b')
  | _ => None
  end.
Definition n_ser (n : N) : result N bytes :=
  Ok (match n with N0 => [x02] | Npos p => pos_bytes p end).
(** The error tells the length of the data. *)
Definition n_de (b : bytes) : result N N :=
  match b with
  | [x02] => Ok 0
  | _ => match bytes_pos b with Some p => Ok (Npos p) | None => Err (N.of_nat (length b)) end
  end.
Definition nc : codec N N := Codec n_ser n_de.
(** One that refuses numbers from 1000. *)
Definition small : codec N N := Codec (fun n => if n <? 1000 then n_ser n else Err n) n_de.

Lemma pos_bytes_pos p : bytes_pos (pos_bytes p) = Some p.
Proof. induction p as [p IH|p IH|]; simpl; rewrite ?IH; reflexivity. Qed.
Lemma n_round n : n_de (match n with N0 => [x02] | Npos p => pos_bytes p end) = Ok n.
Proof.
  destruct n as [|p]; [reflexivity|]. unfold n_de. rewrite pos_bytes_pos. destruct p as [p|p|]; simpl; auto.
Qed.
Lemma nc_ok : codec_ok nc.
Proof. intros n b H. injection H as <-. apply n_round. Qed.
Lemma nc_total : codec_total nc.
Proof. intros n. eexists. reflexivity. Qed.
Lemma small_ok : codec_ok small.
Proof. intros n b. simpl. destruct (n <? 1000); [|discriminate]. intros H. injection H as <-. apply n_round. Qed.

(** A handle: a counter, and Ulids that count upwards. *)
Definition ul (n : N) : Id KUlid := uint_mk 16 n.
Definition ulids (n : N) : gen KUlid := Gen (fun i => ul (n + N.of_nat i)) 0.
Definition hd1 : handle KU64 := Handle (counter 100) (ulids 7).
Definition hd2 : handle KU64 := Handle (counter 500) (ulids 900).

(** Replaced and removed edges, a failing extend, a merge, an edge to a missing vertex. *)
Definition s_ops : list exop :=
  ex_ops ++ [ ORemoveEdge (tr 1 5 2); OMergeEdge (tr 2 5 2) 4; OExtend ex_source; OMerge ex_source;
              OInsertNode (u 6) 6; OInsertEdge (tr 6 6 1) 661; ORemoveNode (u 6) ].

Definition sh (l : list exop) (h : handle KU64) := sled_history (SE := N) nc nc mg mg l h.
Definition ex_db : db := db_of (sh s_ops hd1) [] db_new.

(** Distinctness of byte strings, decided. *)
Fixpoint nodupb (l : list bytes) : bool :=
  match l with
  | [] => true
  | x :: l' => negb (existsb (fun y => match bytes_cmp x y with Eq => true | _ => false end) l') && nodupb l'
  end%bool.
Lemma nodupb_ok l : nodupb l = true -> NoDup l.
Proof.
  induction l as [|x l IH]; simpl; intros H; constructor; apply andb_prop in H; destruct H as [H1 H2]; auto.
  intros Hin. apply Bool.negb_true_iff in H1. rewrite <- Bool.not_true_iff_false in H1. apply H1.
  apply existsb_exists. exists x. split; auto. now rewrite (cmp_refl bytes_cmp_ok).
Qed.

Lemma s_ops_keys : NoDup (history_keys hd1 s_ops).
Proof. apply nodupb_ok. vm_compute. reflexivity. Qed.
