(** Three spins, H = X_0 + X_1 + X_2: the state |+++> of energy 3, and |+-+> of energy 1. *)
From Coq Require Import List Arith Bool Lia QArith Qreals Reals Lra Ring_theory.
From Verif Require Import Base Disk SweepSpec TwoSite TwoSiteFacts Tdvp TdvpSpec TdvpRun FiniteMps FmpsSpec EffHam EffHamSpec ChainSpec Legs VmpsLocal VmpsSpec Cx KrylovInst GVec DmrgStep ChainUpdate DmrgVarSpec DmrgVar DmrgVarInst ConserveSpec ConserveInst CorrUpdate CorrSpec CorrFacts CorrChain CorrRun CorrInst EigenSpec EigenRun EigenRecord.
Import ListNotations.
Local Open Scope nat_scope.

(** spin i in the state (a_i, a_i) *)
Definition q_gen (v : nat -> cx) (i : nat) : cg := mkG cx [1; 2; 1] (fun l => v i).
Definition q_half : real := sqrt (1 / 2).
(** the first spin is not normalized: (2q, 2q) *)
Definition q_vec (i : nat) : cx := if i =? 0 then cre (2 * q_half) else cre q_half.
Definition q_ts : nat -> cg := q_gen q_vec.
Definition q_one : nat -> cg := q_gen (fun _ => cre q_half).
Lemma q_sq : (q_half * q_half = 1 / 2)%R.
Proof. apply sqrt_sqrt. lra. Qed.
Section Gen.
Variable v : nat -> cx.
Lemma q_amp : forall a b c, amp 3 (q_gen v) [a; b; c] = cmul (v 0) (cmul (v 1) (v 2)).
Proof. intros. unfold amp. cbn -[cadd cmul c0 c1]. ring. Qed.
Lemma q_norm_gen : sq_norm 3 (q_gen v) = cmul (cmul (cadd c1 c1) (cmul (cconj (v 0)) (v 0))) (cmul (cmul (cadd c1 c1) (cmul (cconj (v 1)) (v 1))) (cmul (cadd c1 c1) (cmul (cconj (v 2)) (v 2)))).
Proof. unfold sq_norm, norm2. cbn -[cadd cmul cconj c0 c1]. repeat (rewrite ?cconj_mul, ?cconj_add, ?cconj0, ?cconj1). ring. Qed.
Lemma q_three : cre 3 = cadd c1 (cadd c1 c1).
Proof. unfold cre, cadd, c1. cbn [fst snd]. f_equal; ring. Qed.
Lemma q_eigen_gen : eigenstate 3 y_ws [2; 2; 2] (amp 3 (q_gen v)) 3.
Proof.
  intros c' Ic. rewrite q_three. rewrite cfg_222 in Ic.
  cbn [In] in Ic. repeat (destruct Ic as [<-|Ic]; [rewrite cfg_222; cbn [lsum fold_right]; rewrite !q_amp; cbn -[cadd cmul cconj c0 c1]; unfold oX, oI, delta, mval; cbn -[cadd cmul cconj c0 c1]; ring|]). destruct Ic.
Qed.
End Gen.
Lemma q_chain : forall v, chain 3 y_ws [2; 2; 2] (q_gen v).
Proof. intros v. split; [|reflexivity]. split; [|split; cbn; auto]. repeat constructor; repeat eexists. Qed.
Lemma q_right : forall v i, v i = cre q_half -> cright (cten_of (q_gen v i)).
Proof.
  intros v i H k k' Hk Hk'. cbn [q_gen Legs.ten_of gd nth d0 d1 d2 el] in *. replace k with 0 by lia. replace k' with 0 by lia.
  cbn [FmpsSpec.sumn]. unfold ge, q_gen. rewrite H. unfold delta. cbn [Nat.eqb]. pose proof q_sq as Q. unfold c1, c0, cadd, cmul, cconj, cre. cbn [fst snd]. f_equal; [lra|ring].
Qed.
Lemma q_mixed : mixed_at 3 0 q_ts.
Proof. split; intros i Hi; [lia|]. apply q_right. unfold q_vec. replace (i =? 0) with false by (symmetry; apply Nat.eqb_neq; lia). reflexivity. Qed.
Lemma q_norm : sq_norm 3 q_ts = cre 4.
Proof.
  unfold q_ts. rewrite q_norm_gen. unfold q_vec. cbn [Nat.eqb]. pose proof q_sq as Q. generalize dependent q_half. intros h Q.
  assert (A : cmul (cadd c1 c1) (cmul (cconj (cre h)) (cre h)) = c1) by (unfold c1, cadd, cmul, cconj, cre; cbn [fst snd]; f_equal; nra).
  assert (B : cmul (cadd c1 c1) (cmul (cconj (cre (2 * h))) (cre (2 * h))) = cre 4) by (unfold c1, cadd, cmul, cconj, cre; cbn [fst snd]; f_equal; nra).
  rewrite A, B. ring.
Qed.
Lemma q_nz : sq_norm 3 q_ts <> c0.
Proof. rewrite q_norm. unfold cre, c0. intros E. injection E as E. lra. Qed.
Definition q_w {En} : world (res cg) (res cg) En := mkW _ _ _ 3 fnone 0 fnone fnone None None (fun i => Some (Ok (q_ts i))) fnone fnone false.
Definition q_w1 {En} : world (res cg) (res cg) En := mkW _ _ _ 3 fnone 0 fnone fnone None None (fun i => Some (Ok (q_one i))) fnone fnone false.
(** Z on spin 1: |+-+> *)
Notation qz i := (cstring 3 (str_of None) (op_of z_sign) i).
Section Gen1.
Variable v : nat -> cx.
Notation p := (cmul (v 0) (cmul (v 1) (v 2))).
Lemma q_applied : forall a b c, a < 2 -> b < 2 -> c < 2 -> capplied [2; 2; 2] (qz 1) (amp 3 (q_gen v)) [a; b; c] = if b =? 0 then p else copp p.
Proof.
  intros a b c Ha Hb Hc. destruct a as [|[|a]]; [| |lia]; (destruct b as [|[|b]]; [| |lia]); (destruct c as [|[|c]]; [| |lia]);
  unfold applied; rewrite cfg_222; cbn -[cadd cmul cconj copp c0 c1 amp]; rewrite !q_amp; repeat match goal with |- context [op_of ?o ?s ?t] => let x := eval cbn -[c0 c1 copp] in (op_of o s t) in change (op_of o s t) with x end; unfold delta; cbn [Nat.eqb]; ring.
Qed.
Lemma q_minus : eigenstate 3 y_ws [2; 2; 2] (capplied [2; 2; 2] (qz 1) (amp 3 (q_gen v))) 1.
Proof.
  intros c' Ic. change (cre 1) with c1. rewrite cfg_222 in Ic.
  cbn [In] in Ic. repeat (destruct Ic as [<-|Ic]; [rewrite cfg_222; cbn [lsum fold_right]; rewrite !q_applied by lia; cbn -[cadd cmul cconj copp c0 c1]; unfold oX, oI, delta, mval; cbn -[cadd cmul cconj copp c0 c1]; ring|]). destruct Ic.
Qed.
Notation m := (cmul (cconj p) p).
Notation eight := (cmul (cadd c1 c1) (cmul (cadd c1 c1) (cadd c1 c1))).
Lemma q_weight_gen : weight [2; 2; 2] (capplied [2; 2; 2] (qz 1) (amp 3 (q_gen v))) = cmul eight m.
Proof. unfold weight. rewrite cfg_222. cbn [lsum fold_right]. rewrite !q_applied by lia. cbn [Nat.eqb]. repeat (rewrite ?cconj_mul, ?cconj_add, ?cconj_opp, ?cconj0, ?cconj1). ring. Qed.
Lemma q_corr_gen : ccorr [2; 2; 2] (qz 1) (amp 3 (q_gen v)) (capplied [2; 2; 2] (qz 1) (amp 3 (q_gen v))) = cmul eight m /\
  ccorr [2; 2; 2] (qz 0) (amp 3 (q_gen v)) (capplied [2; 2; 2] (qz 1) (amp 3 (q_gen v))) = c0.
Proof.
  assert (E : forall i phi, ccorr [2; 2; 2] (qz i) (amp 3 (q_gen v)) phi = lsum cx c0 cadd (configs [2; 2; 2]) (fun c' => cmul (cconj (amp 3 (q_gen v) c')) (lsum cx c0 cadd (configs [2; 2; 2]) (fun c => cmul (prod_op cx c0 c1 cmul (qz i) c c') (phi c))))) by reflexivity.
  rewrite !E. rewrite cfg_222. cbn [lsum fold_right]. rewrite !q_applied by lia. rewrite !q_amp. cbn [Nat.eqb].
  split; cbn -[cadd cmul cconj copp c0 c1]; unfold delta; cbn [Nat.eqb]; repeat match goal with |- context [op_of ?o ?s ?t] => let x := eval cbn -[c0 c1 copp] in (op_of o s t) in change (op_of o s t) with x end;
    repeat (rewrite ?cconj_mul, ?cconj_add, ?cconj0, ?cconj1); ring.
Qed.
End Gen1.
Lemma q_eight : forall h, (h * h = 1 / 2)%R -> let p := cmul (cre h) (cmul (cre h) (cre h)) in cmul (cmul (cadd c1 c1) (cmul (cadd c1 c1) (cadd c1 c1))) (cmul (cconj p) p) = c1.
Proof.
  intros h H p. unfold p. rewrite !cconj_mul. replace (cconj (cre h)) with (cre h) by (unfold cconj, cre; cbn [fst snd]; f_equal; ring).
  assert (A : cmul (cadd c1 c1) (cmul (cre h) (cre h)) = c1) by (unfold c1, cadd, cmul, cre; cbn [fst snd]; f_equal; nra).
  transitivity (cmul (cmul (cadd c1 c1) (cmul (cre h) (cre h))) (cmul (cmul (cadd c1 c1) (cmul (cre h) (cre h))) (cmul (cadd c1 c1) (cmul (cre h) (cre h))))); [ring|]. rewrite A. ring.
Qed.
Lemma q_weight : weight [2; 2; 2] (capplied [2; 2; 2] (qz 1) (amp 3 q_one)) <> c0.
Proof. unfold q_one. rewrite q_weight_gen, (q_eight _ q_sq). unfold c0, c1. intros E. injection E as E. lra. Qed.
Lemma q_corr : ccorr [2; 2; 2] (qz 1) (amp 3 q_one) (capplied [2; 2; 2] (qz 1) (amp 3 q_one)) = c1 /\ ccorr [2; 2; 2] (qz 0) (amp 3 q_one) (capplied [2; 2; 2] (qz 1) (amp 3 q_one)) = c0.
Proof. unfold q_one. destruct (q_corr_gen (fun _ => cre q_half)) as [-> ->]. rewrite (q_eight _ q_sq). auto. Qed.
