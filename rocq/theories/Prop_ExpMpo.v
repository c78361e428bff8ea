(** ExpFiniteMPO with truncation, the variational product and the stored powers.  C82. *)
From Coq Require Import List Arith Lia Bool ZArith Reals Lra.
From Verif Require Import Base FiniteMps FmpsSpec EffHam EffHamSpec FinMpo FinMpoSpec FinMpoExp Cx GVec TruncMps MpoCano MpoCanoSpec MpoCanoInst Legs MpoVar MpoVarSpec MpoVarInst ExpMpo ExpMpoSpec ExpMath ExpRun ExpMpoInst ExpMpoCase.
Import ListNotations.
Local Open Scope nat_scope.

(** For an operator on two sites or more, ExpFiniteMPO does the orders h of the series of X = - tau H, at most max_order - 1 of them, with bond dimensions as limited.  It returns the norm of the last sum and the sum
    divided by it, right canonical behind the first site; or it stops at the assertion of a debug build because the trace of an even power is not positive; or a zero operator has to be decomposed.
    In the first case the loop ended with its last order or at an even one with a small trace, the printed errors are those of the orders, and the directory of every order done holds its power. *)
Theorem C82_exp : forall qr svd svdt svd6 terr Dmin Dmax sweeps tol ttol eps dbg ds ham H tau top dirs stored fl fr,
  qr4_exact qr -> svd4_exact svd -> (forall a b, 1 <= b -> good4 eps a b svdt) -> good6 terr Dmin Dmax svd6 -> 1 <= Dmax -> 2 <= length ds ->
  holds4 cx ham H -> oper_on cx ds H -> good_center cx ham (length ds) -> (forall n, dir_holds ds (dirs n) (stored n)) ->
  exists h, orders ds (o_times (- tau) (melem H)) stored 1 (o_times (- tau) (melem H)) ident h /\ widths (still ds sweeps) (width H) Dmax (width H) 1 h /\ went_on ds ttol h /\ length h <= top - 1 /\
  ((exists rho x out, exp_finite_mpo qr svd svdt svd6 terr Dmin Dmax sweeps tol ttol eps dbg ham tau top dirs fl fr = Ok (onorm ds (last_sum ident h), rho, x, out) /\
      normal_form ds (last_sum ident h) rho /\ ended ds ttol (o_times (- tau) (melem H)) (top - 1) h /\ Forall2 (reported ds terr eps Dmax) out h /\ files ds dirs h (es_dirs x)) \/
   (exp_finite_mpo qr svd svdt svd6 terr Dmin Dmax sweeps tol ttol eps dbg ham tau top dirs fl fr = Abort /\ stopped_at_sign ds (o_times (- tau) (melem H)) dbg h) \/
   degenerate ds (o_times (- tau) (melem H)) stored (top - 1) h).
Proof. exact exp_mpo_ok. Qed.
Print Assumptions C82_exp.
(** The last sum is as close to the Taylor polynomial as the errors of the truncations and the distances of the starts allow. *)
Theorem C82_bound : forall ds a H stored h, orders ds (o_times a H) stored 1 (o_times a H) ident h ->
  (odist ds (last_sum ident h) (taylor ds a H (1 + length h)) <= bound ds (o_times a H) 1 (o_times a H) ident 0 0 h)%R.
Proof. exact series_bound. Qed.
Print Assumptions C82_bound.
(** The exponential exists, and the last sum is as close to it as these errors and the rest of the series of exp |a H| allow. *)
Theorem C82_exponential : forall ds a H stored h, orders ds (o_times a H) stored 1 (o_times a H) ident h ->
  exists E, is_exp ds a H E /\ (odist ds (last_sum ident h) E <= bound ds (o_times a H) 1 (o_times a H) ident 0 0 h + (exp (onorm ds (o_times a H)) - exp_poly (onorm ds (o_times a H)) (1 + length h)))%R.
Proof.
  intros ds a H stored h HO. destruct (exp_exists ds a H) as [E HE]. exists E. split; [exact HE|].
  pose proof (odist_tri ds (last_sum ident h) (taylor ds a H (1 + length h)) E) as T. pose proof (series_bound ds a H stored h HO) as B. pose proof (exp_rest ds a H E (1 + length h) HE (Nat.le_add_r 1 (length h))) as R. unfold gen in *. lra.
Qed.
Print Assumptions C82_exponential.
(** If no error is printed and no power was found by optimisation, the last sum is the Taylor polynomial. *)
Theorem C82_lossless : forall ds a H stored h, orders ds (o_times a H) stored 1 (o_times a H) ident h ->
  Forall (fun o => lost_sum (od_cut o) = 0%R /\ match od_made o with First => True | Exact e => lost_sum e = 0%R | _ => False end) h ->
  same_oper ds (last_sum ident h) (taylor ds a H (1 + length h)).
Proof. exact series_exact. Qed.
Print Assumptions C82_lossless.
(** On two sites the optimisation makes no step and the power of an order it is used in is the start divided by n.  The operator 3/10 |00><00| + 4/10 |11><11| and tau = -1, Dmax 3, two orders and no stored powers:
    the second power is half of the first instead of half of its square, and so is the stored one; without printed errors the squared distance of the sum from the Taylor polynomial is 1017/40000. *)
Theorem C82_two_sites_refuted : exists st ts, holds4 cx st ts /\ oper_on cx [2; 2] ts /\ hs2 [2; 2] (product [2; 2] (melem ts) (melem ts)) <> hs2 [2; 2] (melem ts) /\
  forall qr svd svdt svd6 terr Dmin sweeps tol ttol eps dbg fl fr, qr4_exact qr -> svd4_exact svd -> (forall a b, 1 <= b -> good4 eps a b svdt) -> good6 terr Dmin 3 svd6 ->
  exists S rho x out o cut d gs, exp_finite_mpo qr svd svdt svd6 terr Dmin 3 sweeps tol ttol eps dbg st (- 1) 3 (fun _ => None) fl fr = Ok (onorm [2; 2] S, rho, x, out) /\ normal_form [2; 2] S rho /\
    es_dirs x 2 = Some d /\ dir_chain [2; 2] d gs /\ same_oper [2; 2] (melem gs) (o_times (1 / 2) (melem ts)) /\
    nth_error out 1 = Some o /\ match ol_rho o with None => cut = [] | Some l => cut = map fst l end /\ cut_from [2; 2] (o_plus (o_plus ident (melem ts)) (o_times (1 / 2) (melem ts))) cut S /\
    (lost_sum cut = 0%R -> hsdist2 [2; 2] S (taylor [2; 2] 1 (melem ts) 3) = (1017 / 40000)%R).
Proof. exact hf_wrong_exp. Qed.
Print Assumptions C82_two_sites_refuted.

(** Decompositions as assumed exist for every limit; for minus twice the identity of three sites, written with bond dimension two, tau = 1/10, Dmax 1 and two orders the call returns,
    and the second power was found by optimisation. *)
Theorem C82_case : qr4_exact qr4 /\ svd4_exact svd4 /\ (forall a b, 1 <= b -> good4 0 a b svd4_any) /\ (forall terr Dmin, good6 terr Dmin 1 svd6_one) /\ holds4 cx ii_st ii /\ oper_on cx [2; 2; 2] ii /\
  forall sweeps tol fl fr, 1 <= sweeps -> exists h rho x out, exp_finite_mpo qr4 svd4 svd4_any svd6_one (1 / 10) 1 1 sweeps tol 0 0 true ii_st (1 / 10) 3 (fun _ => None) fl fr = Ok (onorm [2; 2; 2] (last_sum ident h), rho, x, out) /\
    orders [2; 2; 2] (o_times (- (1 / 10)) (melem ii)) (fun _ => None) 1 (o_times (- (1 / 10)) (melem ii)) ident h /\ normal_form [2; 2; 2] (last_sum ident h) rho /\ Forall2 (reported [2; 2; 2] (1 / 10) 0 1) out h /\
    files [2; 2; 2] (fun _ => None) h (es_dirs x) /\ exists a b G e, h = [a; b] /\ od_made a = First /\ od_made b = Varied G e.
Proof.
  split; [exact qr4_ok|]. split; [exact svd4_ok|]. split; [exact (fun a b => svd4_any_good 0 a b (Rle_refl 0))|]. split; [exact svd6_one_good|]. split; [apply ii_ok|]. split; [apply ii_ok|exact ii_run].
Qed.
Print Assumptions C82_case.
