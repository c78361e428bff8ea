(** Three spins, each in the state (3/5, 4/5): Z on the sites before site 1 and the raising operator on site 1, measured with Z ... and the lowering operator. *)
From Coq Require Import List Arith Bool Lia QArith Qreals Reals Lra Field.
From Verif Require Import Base Disk SweepSpec Tdvp TdvpSpec TdvpRun FiniteMps FmpsSpec EffHam EffHamSpec ChainSpec Legs VmpsLocal VmpsSpec Cx KrylovInst GVec DmrgStep ChainUpdate DmrgVarSpec DmrgVar DmrgVarInst ConserveSpec ConserveInst CorrUpdate CorrSpec CorrFacts CorrChain CorrRun.
Import ListNotations.
Local Open Scope nat_scope.
(** |1> -> |0>; |0> -> |1>; diag(1, -1) *)
Definition z_up : cg := mkG cx [2; 2] (fun l => if (nth 0 l 0 =? 1) && (nth 1 l 0 =? 0) then c1 else c0).
Definition z_down : cg := mkG cx [2; 2] (fun l => if (nth 0 l 0 =? 0) && (nth 1 l 0 =? 1) then c1 else c0).
Definition z_sign : cg := mkG cx [2; 2] (fun l => if nth 0 l 0 =? nth 1 l 0 then if nth 0 l 0 =? 0 then c1 else copp c1 else c0).
Notation z0 := (cstring 3 (str_of (Some z_sign)) (op_of z_up) 1).
Notation z1 i := (cstring 3 (str_of (Some z_sign)) (op_of z_down) i).
Lemma z_square : square 2 z_up /\ square 2 z_down /\ square 2 z_sign.
Proof. repeat split. Qed.
Lemma cconj_opp : forall x, cconj (copp x) = copp (cconj x).
Proof. intros [a b]. reflexivity. Qed.
Section Gen.
Variable v : nat -> cx.
Notation n := (cadd (cmul (cconj (v 0)) (v 0)) (cmul (cconj (v 1)) (v 1))).
Lemma z_amp : forall a b c, amp 3 (y_gen v) [a; b; c] = cmul (v a) (cmul (v b) (v c)).
Proof. intros. unfold amp. cbn -[cadd cmul c0 c1]. ring. Qed.
Lemma cfg_222 : configs [2; 2; 2] = [[0;0;0];[0;0;1];[0;1;0];[0;1;1];[1;0;0];[1;0;1];[1;1;0];[1;1;1]].
Proof. reflexivity. Qed.
Ltac crush := unfold applied; rewrite cfg_222; cbn -[cadd cmul cconj copp c0 c1 amp]; rewrite !z_amp; repeat match goal with |- context [op_of ?o ?s ?t] => let x := eval cbn -[c0 c1 copp] in (op_of o s t) in change (op_of o s t) with x end; unfold delta; cbn [Nat.eqb].
Lemma z_applied : forall a b c, a < 2 -> b < 2 -> c < 2 -> capplied [2; 2; 2] z0 (amp 3 (y_gen v)) [a; b; c] =
  cmul (if a =? 0 then v a else copp (v a)) (cmul (if b =? 0 then v 1 else c0) (v c)).
Proof.
  intros a b c Ha Hb Hc. destruct a as [|[|a]]; [| |lia]; (destruct b as [|[|b]]; [| |lia]); (destruct c as [|[|c]]; [| |lia]); crush; ring.
Qed.
Notation m := (cmul (cconj (v 0)) (v 0)). Notation k := (cmul (cconj (v 1)) (v 1)).
Lemma z_weight_gen : weight [2; 2; 2] (capplied [2; 2; 2] z0 (amp 3 (y_gen v))) = cmul k (cmul n n).
Proof.
  unfold weight. rewrite cfg_222. cbn [lsum fold_right]. rewrite !z_applied by lia. cbn [Nat.eqb].
  repeat (rewrite ?cconj_mul, ?cconj_add, ?cconj_opp, ?cconj0, ?cconj1). ring.
Qed.
(** site 1: the lowering operator meets the raised spin; site 0: the product of two matrix elements *)
Lemma z_corr_gen : ccorr [2; 2; 2] (z1 1) (amp 3 (y_gen v)) (capplied [2; 2; 2] z0 (amp 3 (y_gen v))) = cmul n (cmul k n) /\
  ccorr [2; 2; 2] (z1 0) (amp 3 (y_gen v)) (capplied [2; 2; 2] z0 (amp 3 (y_gen v))) = cmul (cmul (cconj (v 1)) (v 0)) (cmul (cmul (cconj (v 0)) (v 1)) n).
Proof.
  assert (E : forall i phi, ccorr [2; 2; 2] (z1 i) (amp 3 (y_gen v)) phi = lsum cx c0 cadd (configs [2; 2; 2]) (fun c' => cmul (cconj (amp 3 (y_gen v) c')) (lsum cx c0 cadd (configs [2; 2; 2]) (fun c => cmul (prod_op cx c0 c1 cmul (z1 i) c c') (phi c))))) by reflexivity.
  rewrite !E. rewrite cfg_222. cbn [lsum fold_right]. rewrite !z_applied by lia. rewrite !z_amp. cbn [Nat.eqb].
  split; cbn -[cadd cmul cconj copp c0 c1]; unfold delta; cbn [Nat.eqb]; repeat match goal with |- context [op_of ?o ?s ?t] => let x := eval cbn -[c0 c1 copp] in (op_of o s t) in change (op_of o s t) with x end;
    repeat (rewrite ?cconj_mul, ?cconj_add, ?cconj0, ?cconj1); ring.
Qed.
End Gen.
Lemma z_weight : weight [2; 2; 2] (capplied [2; 2; 2] z0 (amp 3 y_ts)) = cre (16 / 25).
Proof. unfold y_ts. rewrite z_weight_gen, y_n. unfold y_vec. cbn [Nat.eqb]. unfold c1, cadd, cmul, cconj, cre. cbn [fst snd]. f_equal; field. Qed.
Lemma z_nz : weight [2; 2; 2] (capplied [2; 2; 2] z0 (amp 3 y_ts)) <> c0.
Proof. rewrite z_weight. unfold cre, c0. intros E. injection E as E. lra. Qed.
Lemma z_corr : ccorr [2; 2; 2] (z1 1) (amp 3 y_ts) (capplied [2; 2; 2] z0 (amp 3 y_ts)) = cre (16 / 25) /\ ccorr [2; 2; 2] (z1 0) (amp 3 y_ts) (capplied [2; 2; 2] z0 (amp 3 y_ts)) = cre (144 / 625).
Proof. unfold y_ts. destruct (z_corr_gen y_vec) as [-> ->]. rewrite y_n. unfold y_vec. cbn [Nat.eqb]. unfold c1, cadd, cmul, cconj, cre. cbn [fst snd]. split; f_equal; field. Qed.
