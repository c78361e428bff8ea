(** Symbolic execution of disk programs. *)
From Coq Require Import List Arith Lia Bool.
From Verif Require Import Base Disk SweepSpec.
Import ListNotations.

Lemma fset_same : forall A (f : nat -> A) i x, fset f i x i = x.
Proof. intros. unfold fset. rewrite Nat.eqb_refl. auto. Qed.
Lemma fset_other : forall A (f : nat -> A) i x j, j <> i -> fset f i x j = f j.
Proof. intros. unfold fset. destruct (Nat.eqb_spec j i); [contradiction|auto]. Qed.
Lemma fset_eq : forall A (f : nat -> A) i x j, j = i -> fset f i x j = x.
Proof. intros. subst. apply fset_same. Qed.

Section Facts.
Variables T E En : Type.
Variables (dT : T) (dE : E) (triv : side -> E) (grow : side -> nat -> E -> T -> E) (solve : bool -> nat -> E -> T -> T -> E -> T * T * En).
Variables (canoL canoR : T -> T -> T * T).
Variable dbg : bool.
Notation world := (world T E En).
Notation exec := (exec T E En dT dE triv grow solve canoL canoR dbg).
Notation exec1 := (exec1 T E En dT dE triv grow solve canoL canoR dbg).
Notation nm := (nm T E En). Notation mm := (mm T E En). Notation ne := (ne T E En). Notation dm := (dm T E En).
Notation le_ := (le_ T E En). Notation de_ := (de_ T E En). Notation acc := (acc T E En).

Lemma exec_app : forall p q w, exec (p ++ q) w = bind (exec p w) (exec q).
Proof. induction p as [|c p IH]; intros q w; simpl; auto. destruct (exec1 c w); simpl; auto. Qed.
Lemma exec_app_ok : forall p q w w', exec p w = Ok w' -> exec (p ++ q) w = exec q w'.
Proof. intros p q w w' H. rewrite exec_app, H. auto. Qed.
Lemma ltb_t : forall i n, i < n -> (i <? n) = true.
Proof. intros. apply Nat.ltb_lt. auto. Qed.
Lemma ex_Mkdir : forall q w, exec (Mkdir :: q) w = exec q (set_tmp T E En true w).
Proof. reflexivity. Qed.
Lemma ex_LoadM : forall i q w t, i < nm w -> dm w i = Some t -> exec (LoadM i :: q) w = exec q (set_mm T E En (fset (mm w) i (Some t)) w).
Proof. intros. simpl. rewrite ltb_t, H0; auto. Qed.
Lemma ex_DumpM : forall i rel q w t, i < nm w -> mm w i = Some t ->
  exec (DumpM i rel :: q) w = exec q (set_dm T E En (fset (dm w) i (Some t)) (set_mm T E En (fset (mm w) i (if rel then None else Some t)) w)).
Proof. intros. simpl. rewrite ltb_t, H0; auto. Qed.
Lemma ex_FreeM : forall i q w, i < nm w -> exec (FreeM i :: q) w = exec q (set_mm T E En (fset (mm w) i None) w).
Proof. intros. simpl. rewrite ltb_t; auto. Qed.
Lemma ex_EmptyM : forall q w, (forall i, i < nm w -> mm w i = None) -> exec (EmptyM :: q) w = exec q w.
Proof.
  intros q w H. simpl. replace (forallb (fun i => isnull (mm w i)) (seq 0 (nm w))) with true; [rewrite orb_true_r; auto|].
  symmetry. apply forallb_forall. intros i Hi. apply in_seq in Hi. rewrite H by lia. auto.
Qed.
Lemma ex_NewEnvs : forall n q w, exec (NewEnvs n :: q) w =
  exec q (mkW T E En (nm w) (mm w) n fnone fnone (acc w) (eng T E En w) (dm w) (dl T E En w) (dr T E En w) (tmp T E En w)).
Proof. reflexivity. Qed.
Lemma ex_LoadE : forall s n q w e, n < ne w -> de_ s w n = Some e -> exec (LoadE s n :: q) w = exec q (set_e T E En s (fset (le_ s w) n (Some e)) w).
Proof. intros. simpl. rewrite ltb_t, H0; auto. Qed.
Lemma ex_DumpE : forall s n q w e, n < ne w -> le_ s w n = Some e ->
  exec (DumpE s n :: q) w = exec q (set_de T E En s (fset (de_ s w) n (Some e)) (set_e T E En s (fset (le_ s w) n (Some e)) w)).
Proof. intros. simpl. rewrite ltb_t, H0; auto. Qed.
Lemma ex_FreeE : forall s n q w, n < ne w -> exec (FreeE s n :: q) w = exec q (set_e T E En s (fset (le_ s w) n None) w).
Proof. intros. simpl. rewrite ltb_t; auto. Qed.
Lemma ex_RmE : forall s n q w, exec (RmE s n :: q) w = exec q (set_de T E En s (fset (de_ s w) n None) w).
Proof. reflexivity. Qed.
Lemma ex_SetAcc : forall s i q w t, i < nm w -> mm w i = Some t -> exec (SetAcc s i :: q) w = exec q (set_acc T E En (Some (triv s)) w).
Proof. intros. simpl. unfold getM. rewrite ltb_t, H0; auto. Qed.
Lemma ex_GrowAcc : forall s i q w t e, i < nm w -> mm w i = Some t -> acc w = Some e -> exec (GrowAcc s i :: q) w = exec q (set_acc T E En (Some (grow s i e t)) w).
Proof. intros. simpl. unfold getM. rewrite ltb_t, H0, H1; auto. Qed.
Lemma ex_WriteAcc : forall s n q w e, acc w = Some e -> exec (WriteAcc s n :: q) w = exec q (set_de T E En s (fset (de_ s w) n (Some e)) w).
Proof. intros. simpl. rewrite H; auto. Qed.
Lemma ex_UpdR : forall l q w el er a b a' b' x, l + 1 < nm w -> l + 1 < ne w -> nm w - (l + 2) < ne w ->
  le_ L w l = Some el -> le_ R w (nm w - (l + 2)) = Some er -> mm w l = Some a -> mm w (l + 1) = Some b -> solve true l el a b er = (a', b', x) ->
  exec (Upd2 true l :: q) w = exec q (set_eng T E En (Some x) (set_e T E En L (fset (le_ L w) (l + 1) (Some (grow L l el a')))
    (set_mm T E En (fset (fset (mm w) l (Some a')) (l + 1) (Some b')) w))).
Proof.
  intros. simpl. unfold getE, getM, putM, putE. destruct w as [nm_ mm_ ne_ le0 re0 acc_ eng_ dm_ dl_ dr_ tmp_]; simpl in *.
  rewrite !ltb_t by lia. rewrite H2, H3, H4, H5. simpl. rewrite H6. simpl. repeat (rewrite ltb_t by lia; simpl). reflexivity.
Qed.
Lemma ex_UpdL : forall l q w el er a b a' b' x, l + 1 < nm w -> l < ne w -> nm w - (l + 1) < ne w ->
  le_ L w l = Some el -> le_ R w (nm w - (l + 2)) = Some er -> mm w l = Some a -> mm w (l + 1) = Some b -> solve false l el a b er = (a', b', x) ->
  exec (Upd2 false l :: q) w = exec q (set_eng T E En (Some x) (set_e T E En R (fset (le_ R w) (nm w - (l + 1)) (Some (grow R (l + 1) er b')))
    (set_mm T E En (fset (fset (mm w) l (Some a')) (l + 1) (Some b')) w))).
Proof.
  intros. simpl. unfold getE, getM, putM, putE. destruct w as [nm_ mm_ ne_ le0 re0 acc_ eng_ dm_ dl_ dr_ tmp_]; simpl in *.
  rewrite !ltb_t by lia. rewrite H2, H3, H4, H5. simpl. rewrite H6. simpl. repeat (rewrite ltb_t by lia; simpl). reflexivity.
Qed.
Lemma ex_CanoL : forall i q w a b, i + 1 < nm w -> mm w i = Some a -> mm w (i + 1) = Some b ->
  exec (CanoL i :: q) w = exec q (set_mm T E En (fset (fset (mm w) i (Some (fst (canoL a b)))) (i + 1) (Some (snd (canoL a b)))) w).
Proof. intros. simpl. unfold getM, putM. rewrite !ltb_t by lia. rewrite H0, H1. simpl. destruct (canoL a b). simpl. repeat (rewrite ltb_t by (simpl; lia); simpl). reflexivity. Qed.
Lemma ex_CanoR : forall i q w a b, i < nm w -> mm w (i - 1) = Some a -> mm w i = Some b ->
  exec (CanoR i :: q) w = exec q (set_mm T E En (fset (fset (mm w) (i - 1) (Some (fst (canoR a b)))) i (Some (snd (canoR a b)))) w).
Proof. intros. simpl. unfold getM, putM. rewrite !ltb_t by lia. rewrite H0, H1. simpl. destruct (canoR a b). simpl. repeat (rewrite ltb_t by (simpl; lia); simpl). reflexivity. Qed.

(** environments only depend on the tensors they contain *)
Variable N : nat.
Notation left_env := (left_env T E triv grow). Notation right_env := (right_env T E triv grow N).
Lemma left_env_ext : forall ts ts' k, (forall i, i < k -> ts i = ts' i) -> left_env ts k = left_env ts' k.
Proof. induction k; intros H; simpl; auto. rewrite IHk by (intros; apply H; lia). rewrite H by lia. auto. Qed.
Lemma right_env_ext : forall ts ts' k, k <= N -> (forall i, N - k <= i < N -> ts i = ts' i) -> right_env ts k = right_env ts' k.
Proof. induction k; intros HK H; simpl; auto. rewrite IHk by (try lia; intros; apply H; lia). rewrite H by lia. auto. Qed.
End Facts.
