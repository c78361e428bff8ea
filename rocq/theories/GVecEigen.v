(** Both solvers on a vector that is already an eigenvector. *)
From Coq Require Import List Arith Bool Lia Reals Lra Ring_theory.
From Verif Require Import Base FiniteMps FmpsSpec EffHam EffHamSpec EffHamFacts Legs Lanczos LanczosSpec Krylov KrylovSpec Cx KrylovInst GVec GVecFacts DmrgStep.
Import ListNotations.
Local Open Scope nat_scope.

Section Vec.
Variable ds : list nat.
Notation ip := (g_ip ds). Notation dot := (g_dot ds). Notation normalize := (g_normalize ds).
Variable mul : cvec -> cvec.
Hypothesis mul_h : forall x y, ip (mul x) y = ip x (mul y).
Variables (stev : list real -> list real -> list real * list real) (maxit dim : nat).
Hypothesis Hmax : 2 <= maxit.

(** equal up to elements that do not exist *)
Definition same_vec (x y : cvec) : Prop := forall k, In k (configs ds) -> x k = y k.
Lemma same_ip : forall x y, (forall w, ip x w = ip y w) -> same_vec x y.
Proof.
  intros x y H k Ik. set (z := g_lc1 1 y x). assert (Z : dot z z = 0%R).
  { unfold g_dot, z. rewrite ip_lc1', H. transitivity (fst c0); [f_equal; change (cre 1) with c1; ring|reflexivity]. }
  pose proof (proj2 (g_pos ds z) Z k Ik) as E. unfold z, g_lc1 in E. change (cre 1) with c1 in E. transitivity (cadd (csub (x k) (cmul c1 (y k))) (y k)); [ring|]. rewrite E. ring.
Qed.
Lemma mul_scale : forall a v, same_vec (mul (g_scale a v)) (g_scale a (mul v)).
Proof. intros a v. apply same_ip. intros w. rewrite mul_h, !ip_scale', mul_h. reflexivity. Qed.
Lemma normalize_scale : forall v, ip v v <> c0 -> exists n, (0 < n)%R /\ cmul (cre n) (cre n) = ip v v /\ normalize v = (g_scale (cre (/ n)) v, n).
Proof.
  intros v NZ. pose proof (g_nz ds v NZ) as E. pose proof (g_sq ds v) as Q. unfold g_normalize in *. destruct (g_isz (sqrt (dot v v))) eqn:Z; cbn [fst snd] in *.
  - change (g_isz 0) with (kz 0) in E. rewrite kz_0 in E. discriminate.
  - apply kz_false in Z. exists (sqrt (dot v v)). split; [|auto]. pose proof (sqrt_pos (dot v v)). lra.
Qed.
Lemma zero_norm : forall v, same_vec v (fun _ => c0) -> normalize v = (v, 0%R).
Proof.
  intros v H. unfold g_normalize. assert (Z : dot v v = 0%R).
  { unfold g_dot. rewrite (g_ext ds v (g_scale c0 v) v); [rewrite ip_scale'; transitivity (fst c0); [f_equal; ring|reflexivity]|]. intros k Ik. rewrite (H k Ik). unfold g_scale. ring. }
  rewrite Z, sqrt_0. change (g_isz 0) with (kz 0). rewrite kz_0. reflexivity.
Qed.
Lemma free_none : forall V C n h, free_from V C (repeat None n) h = Ok h.
Proof. intros V C. induction n as [|n IH]; intros h; [reflexivity|]. cbn [repeat free_from delo bind]. apply IH. Qed.
Section Eigen.
Variables (v : cvec) (lam : real).
Hypothesis NZ : ip v v <> c0.
Hypothesis EV : same_vec (mul v) (g_scale (cre lam) v).
Lemma eigen_first : forall n, (n <> 0)%R -> cmul (cre n) (cre n) = ip v v -> let q := g_scale (cre (/ n)) v in dot (mul q) q = lam /\ same_vec (g_lc1 (dot (mul q) q) q (mul q)) (fun _ => c0).
Proof.
  intros n Hn Q q. assert (MQ : same_vec (mul q) (g_scale (cre lam) q)).
  { intros k Ik. unfold q. rewrite (mul_scale _ v k Ik). unfold g_scale at 1. rewrite (EV k Ik). unfold g_scale. ring. }
  assert (QQ : ip q q = c1).
  { unfold q. rewrite ip_scale', <- (g_conj ds (g_scale _ v) v), ip_scale', cconj_mul, g_conj, <- Q. destruct (ip v v). unfold cmul, cconj, cre, c1. cbn [fst snd]. f_equal; field; exact Hn. }
  assert (A : dot (mul q) q = lam).
  { unfold g_dot. rewrite (g_ext ds _ _ q MQ), ip_scale', QQ. unfold cmul, cre, c1. cbn [fst snd]. ring. }
  split; [exact A|]. rewrite A. intros k Ik. unfold g_lc1. rewrite (MQ k Ik). unfold g_scale. ring.
Qed.
(** the eigenvalue solver stops after one step; it returns the eigenvalue and the normalized vector *)
Lemma lanczos_eigen : forall close, exists r g n, g_lanczos ds mul stev close maxit dim v = Ok (r, g) /\ iters real r = 1 /\ eng real r = lam /\ (0 < n)%R /\ cmul (cre n) (cre n) = ip v v /\ g = g_scale (cre (/ n)) v.
Proof.
  intros close. destruct (normalize_scale v NZ) as [n [Hp [Q NV]]]. assert (Hn : (n <> 0)%R) by lra. destruct (eigen_first n Hn Q) as [A Z]. set (q := g_scale (cre (/ n)) v) in *.
  destruct maxit as [|[|mi]]; try lia.
  eexists. exists q, n. split; [|split; [|split; [|split; [exact Hp|split; [exact Q|reflexivity]]]]].
  - unfold g_lanczos, eig_solver. cbn [rd nth_error cells bind]. rewrite NV. cbn [fst]. cbn [wr upd vset vget base rd bind nth_error cells arrs new length app repeat Nat.ltb Nat.leb].
    cbn. fold q. rewrite (zero_norm _ Z). cbn. change (g_isz 0) with (kz 0). rewrite kz_0. cbn. rewrite free_none. cbn. reflexivity.
  - reflexivity.
  - cbn. exact A.
Qed.
(** the exponential: a phase *)
Lemma expmv_eigen : forall d far, exists r g, g_expmv ds mul stev d far maxit dim v = Ok (r, g) /\ xiters r = 1 /\ same_vec g (g_scale (cph d lam) v).
Proof.
  intros d far. destruct (normalize_scale v NZ) as [n [Hp [Q NV]]]. assert (Hn : (n <> 0)%R) by lra. destruct (eigen_first n Hn Q) as [A Z]. set (q := g_scale (cre (/ n)) v) in *.
  destruct maxit as [|[|mi]]; try lia.
  eexists. exists (g_phase d n lam q). split; [|split].
  - unfold g_expmv, exp_solver. cbn [rd nth_error cells bind]. rewrite NV. cbn. fold q. rewrite (zero_norm _ Z). cbn. change (g_isz 0) with (kz 0). rewrite kz_0. cbn. rewrite free_none. cbn. rewrite A. reflexivity.
  - reflexivity.
  - intros k Ik. unfold g_phase, q, g_scale. transitivity (cmul (cmul (cre n) (cre (/ n))) (cmul (cph d lam) (v k))); [ring|]. replace (cmul (cre n) (cre (/ n))) with c1; [ring|]. unfold cmul, cre, c1. cbn [fst snd]. f_equal; field; exact Hn.
Qed.
End Eigen.
End Vec.
