(** A concrete instance of the generator model (integer coefficients, U(1) charge, spin-1/2 sites) used to show that
    the hypotheses of the generator theorems are met and to exhibit the two cases where the code loses or negates a
    term. *)
From Coq Require Import List Arith Lia Bool ZArith Ring.
From Verif Require Import Base SparMat CoefOp Fsm MpoGen MpoSpec MpoTen MpoTenSpec MpoTopSpec MpoRunSpec.
Import ListNotations.
Local Open Scope Z_scope.

Definition zneg (x : Z) : bool := x <? 0.
Definition znone (x : Z) : bool := false.

(** charge of an operator: column minus row of its first non-zero element *)
Fixpoint find_col (r : list Z) (b : nat) : option nat :=
  match r with [] => None | x :: t => if Z.eqb x 0 then find_col t (S b) else Some b end.
Fixpoint find_pos (d : list (list Z)) (a : nat) : Z :=
  match d with [] => 0 | r :: t => match find_col r 0 with Some b => Z.of_nat b - Z.of_nat a | None => find_pos t (S a) end end.
Definition zdv (o : lop Z) : Z := find_pos (lo_dat o) 0.
Definition zblk (ix a b : nat) (d : Z) : Prop := d = Z.of_nat b - Z.of_nat a.
Definition zpd (ix : nat) : nat := 2%nat.

Lemma find_col_neg : forall r b, find_col (map Z.opp r) b = find_col r b.
Proof. induction r as [|x r IH]; intros b; simpl; auto. rewrite IH. destruct (Z.eqb_spec x 0), (Z.eqb_spec (-x) 0); auto; lia. Qed.
Lemma zdv_neg : forall o, zdv (lop_neg Z Z.opp o) = zdv o.
Proof.
  intros o. unfold zdv, lop_neg. simpl. generalize 0%nat. induction (lo_dat o) as [|r d IH]; intros a; simpl; auto.
  rewrite find_col_neg, IH. reflexivity.
Qed.
Lemma Zth2 : ring_theory 0 1 Z.add Z.mul Z.sub Z.opp (@eq Z).
Proof. constructor; intros; ring. Qed.

Definition iden : lop Z := mkLop 0%nat [[1;0];[0;1]].
Definition sz : lop Z := mkLop 0%nat [[1;0];[0;-1]].
Definition sp : lop Z := mkLop 0%nat [[0;1];[0;0]].
Definition smi : lop Z := mkLop 0%nat [[0;0];[1;0]].
Definition fneg : lop Z := mkLop 0%nat [[-1;0];[0;1]].

Definition sites4 : list nat := [0;0;0;0]%nat.
Definition ids4 : list (lop Z) := [iden;iden;iden;iden].

Definition zrun := run Z 0 1 Z.opp Z.eqb zneg znone.
Definition zlegal := legal Z 0 Z.eqb znone sites4 ids4 zpd Z 0 Z.sub zdv zblk.
Definition zcounted := acounted Z 0 Z.eqb znone.
Definition zgen := gen_mpo Z 0 Z.add Z.mul Z Z.sub Z.eqb zdv.
Definition zamp := mpo_amp Z 0 1 Z.add Z.mul Z.eqb Z.
Definition ztotal := total Z 0 1 Z.mul Z.eqb znone sites4 Z.add.

(** operators given site by site, identity elsewhere *)
Definition opl (l : list (lop Z)) (i : nat) : lop Z := nth i l (id_on Z ids4 i).

Lemma nth_any : forall A (l : list A) d d' i, (i < length l)%nat -> nth i l d = nth i l d'.
Proof. intros. apply nth_indep. auto. Qed.

Lemma ids_good : good_ids Z zpd Z Z.sub zdv sites4 ids4.
Proof.
  unfold good_ids, sites4, ids4. repeat constructor; simpl; auto; intros; cbn; lia.
Qed.
Ltac elem_small :=
  let a := fresh "a" in let b := fresh "b" in let H := fresh "H" in
  intros a b H; unfold elem in H; cbn in H; unfold zblk; cbn;
  destruct a as [|[|a]]; destruct b as [|[|b]]; cbn in *; try reflexivity; exfalso; apply H; cbn;
  repeat match goal with |- context [match ?x with _ => _ end] => destruct x end; reflexivity.
Lemma blk_iden : block_op Z 0 Z zdv zblk iden. Proof. elem_small. Qed.
Lemma blk_sz : block_op Z 0 Z zdv zblk sz. Proof. elem_small. Qed.
Lemma blk_sp : block_op Z 0 Z zdv zblk sp. Proof. elem_small. Qed.
Lemma blk_smi : block_op Z 0 Z zdv zblk smi. Proof. elem_small. Qed.
Lemma blk_fneg : block_op Z 0 Z zdv zblk fneg. Proof. elem_small. Qed.
Lemma ids_blk : Forall (block_op Z 0 Z zdv zblk) ids4.
Proof. repeat constructor; apply blk_iden. Qed.

Definition nice (o : lop Z) : Prop := o = iden \/ o = sz \/ o = sp \/ o = smi \/ o = fneg.
Lemma nice_ok : forall o, nice o -> square Z zpd o /\ block_op Z 0 Z zdv zblk o.
Proof.
  intros o [->|[->|[->|[->| ->]]]]; (split; [split; repeat constructor|]);
  auto using blk_iden, blk_sz, blk_sp, blk_smi, blk_fneg.
Qed.

(** 2 sz_1 + 3 (sp_0 fneg_1 fneg_2 smi_3) - 5 sz_3 sz_1 + 7 smi_1 fneg_2 fneg_3 sp_0(given out of order) + 0 sp_2
    + a two-body term with explicit string sites *)
Definition calls_ex : list (acall Z) :=
  [ATerm Z 2 [sz] [1%nat];
   AInst Z 3 [sp; smi] [0;3]%nat [fneg] [];
   ATerm Z (-5) [sz; sz] [3;1]%nat;
   ATwo Z 7 smi 1%nat (Some sp) 3%nat (Some fneg) [2%nat];
   ATerm Z 0 [sp] [2%nat];
   ATwo Z (-1) sp 0%nat (Some smi) 2%nat (Some sz) [];
   AInst Z 4 [sz; sz] [1;2]%nat [fneg; sz] []].
Definition ops_ex : list (nat -> lop Z) :=
  [opl [iden; sz]; opl [sp; fneg; fneg; smi]; opl [iden; sz; iden; sz]; opl [iden; smi; fneg; sp]; opl [iden; iden; sp];
   opl [sp; sz; smi]; opl [iden; sz; sz; sz]].

Ltac idx H := unfold nth_error in H.
Ltac pick k := destruct k as [|[|[|[|k]]]]; cbn in *; try discriminate; try lia.
Ltac finish := repeat match goal with
  | H : Some _ = Some _ |- _ => injection H; clear H; intros; subst
  | H : nth_error [] ?k = Some _ |- _ => destruct k; discriminate
  end; auto.
Ltac site4 i := destruct i as [|[|[|[|i]]]]; cbn in *; try reflexivity; try lia; try (exfalso; tauto); try (split; reflexivity); auto.
Ltac mterm := unfold means_term; split; [discriminate|]; split; [reflexivity|]; split;
  [repeat constructor; cbn; intuition discriminate|]; split;
  [let k := fresh "k" in intros k ? ? ? ?; pick k; finish; split; reflexivity
  |let i := fresh "i" in let H := fresh "H" in intros i H; unfold opl; site4 i; destruct i; reflexivity].
Ltac phys := intros _; unfold physical; split;
  [let i := fresh "i" in intros i ?; apply nice_ok; site4 i; unfold nice; cbn; tauto | reflexivity].
Ltac mstr := unfold means_strings; cbv zeta; cbn [length]; split; [lia|]; split; [reflexivity|]; split; [cbn; lia|]; split;
  [let k := fresh "k" in intros k ? ? ? ?; pick k; finish; split; reflexivity|]; split;
  [let k := fresh "k" in intros k ? ? ? ?; pick k; finish; try lia|]; split;
  [let k := fresh "k" in let i := fresh "i" in intros k ? ? ? i ? ? ? ?; pick k; finish; site4 i|]; split;
  [let i := fresh "i" in cbn; intros i ?; site4 i|]; split;
  [let i := fresh "i" in let H := fresh in cbn; intros H; try discriminate H; intros i ?; site4 i; destruct i; reflexivity
  |let i := fresh "i" in let H := fresh in cbn; intros ? H; try discriminate H; intros ?; finish; split; intros i ?; site4 i].

Lemma legal_ex : zlegal calls_ex ops_ex.
Proof.
  unfold zlegal, legal, calls_ex, ops_ex.
  constructor; [split; [mterm|phys]|].
  constructor; [split; [unfold means; mstr|phys]|].
  constructor; [split; [mterm|phys]|].
  constructor; [split|].
  { split; [discriminate|]. unfold means_explicit. cbv zeta. cbn [length]. split; [lia|]. split; [reflexivity|]. split; [cbn; lia|].
    split; [reflexivity|]. split; [repeat constructor; cbn; intuition discriminate|]. split.
    { intros k ? ? ? ?. pick k; finish; split; reflexivity. }
    split.
    { intros k f js i H1 H2 H3. pick k; finish. destruct H3 as [<-|[]]. split; reflexivity. }
    intros i H. unfold opl. site4 i; destruct i; reflexivity. }
  { phys. }
  constructor; [split; [mterm|discriminate]|].
  constructor; [split; [unfold means; mstr|phys]|].
  constructor; [split; [unfold means; mstr|phys]|].
  constructor.
Qed.

Lemma no_twice_ex : no_twice Z 0 Z.opp Z.eqb zneg (filter zcounted calls_ex).
Proof.
  intros j j' a a' o o' i H1 H2 H3 H4 H5. cbn in H2, H3.
  destruct j as [|[|[|[|[|[|j]]]]]]; cbn in H2; try (destruct j; discriminate); injection H2 as <-; try discriminate.
  destruct j' as [|[|[|[|[|[|j']]]]]]; cbn in H3; try (destruct j'; discriminate); try injection H3 as <-; try discriminate. lia.
Qed.
Lemma no_tail_ex : Forall (fun a => tail_neg Z 0 Z.eqb zneg a = false) (filter zcounted calls_ex).
Proof. repeat constructor. Qed.

(** the same one-site term twice: 3 sz_1 + 3 sz_1 (and a two-site term) *)
Definition calls_twice : list (acall Z) := [ATerm Z 3 [sz] [1%nat]; ATerm Z 3 [sz] [1%nat]; ATerm Z 1 [sz; sz] [0;1]%nat].
Definition ops_twice : list (nat -> lop Z) := [opl [iden; sz]; opl [iden; sz]; opl [sz; sz]].
Lemma legal_twice : zlegal calls_twice ops_twice.
Proof.
  unfold zlegal, legal, calls_twice, ops_twice.
  constructor; [split; [mterm|phys]|]. constructor; [split; [mterm|phys]|]. constructor; [split; [mterm|phys]|]. constructor.
Qed.
Lemma twice_wrong : exists g ts, zrun false sites4 ids4 calls_twice = Ok g /\ zgen false true 0 g = Ok ts /\
  zamp ts (fun _ => 0%nat) (fun _ => 0%nat) = 4 /\ ztotal calls_twice ops_twice (fun _ => 0%nat) (fun _ => 0%nat) = 7.
Proof.
  destruct (zrun false sites4 ids4 calls_twice) as [g| |] eqn:E1; [|vm_compute in E1; discriminate E1|vm_compute in E1; discriminate E1].
  exists g. vm_compute in E1. injection E1 as <-.
  match goal with |- context [zgen false true 0 ?g] => destruct (zgen false true 0 g) as [ts| |] eqn:E2;
    [|vm_compute in E2; discriminate E2|vm_compute in E2; discriminate E2] end.
  exists ts. vm_compute in E2. injection E2 as <-. repeat split; vm_compute; reflexivity.
Qed.

(** two sz operators with a tail string whose operator starts with -1 *)
Definition calls_tail : list (acall Z) := [AInst Z 1 [sz; sz] [0;2]%nat [fneg; fneg] []].
Definition ops_tail : list (nat -> lop Z) := [opl [sz; fneg; sz; fneg]].
Lemma legal_tail : zlegal calls_tail ops_tail.
Proof.
  unfold zlegal, legal, calls_tail, ops_tail. constructor; [split; [unfold means; mstr|phys]|]. constructor.
Qed.
Lemma tail_wrong : exists g ts, zrun true sites4 ids4 calls_tail = Ok g /\ zgen true true 0 g = Ok ts /\
  zamp ts (fun _ => 0%nat) (fun _ => 0%nat) = -1 /\ ztotal calls_tail ops_tail (fun _ => 0%nat) (fun _ => 0%nat) = 1.
Proof.
  destruct (zrun true sites4 ids4 calls_tail) as [g| |] eqn:E1; [|vm_compute in E1; discriminate E1|vm_compute in E1; discriminate E1].
  exists g. vm_compute in E1. injection E1 as <-.
  match goal with |- context [zgen true true 0 ?g] => destruct (zgen true true 0 g) as [ts| |] eqn:E2;
    [|vm_compute in E2; discriminate E2|vm_compute in E2; discriminate E2] end.
  exists ts. vm_compute in E2. injection E2 as <-. repeat split; vm_compute; reflexivity.
Qed.
