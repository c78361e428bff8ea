(** The local updates of the VMPS and TDVP sweeps with numbers: environments, effective Hamiltonians, solver and decomposition put together.

    Simplifications: the real numbers of the standard library (no rounding); LAPACK ([stev]), the decomposition ([svd]), the two
    comparisons with a tolerance ([close], [far]) and the size of a tensor ([size], number of stored elements) are parameters;
    quantum numbers and index directions are left out.  A tensor that cannot be computed (legs that do not fit) is [Ub]. *)
From Coq Require Import List Arith Bool QArith Qreals Reals.
From Verif Require Import Base Disk FiniteMps FmpsSpec EffHam Legs VmpsLocal Lanczos Krylov Cx GVec.
Import ListNotations.
Local Open Scope nat_scope.
Notation cg := (gten cx). Notation cgd := (gd cx). Notation cge := (ge cx).

Section Update.
Variable ws : nat -> cg.                                                (* the MPO *)
Variable stev : list real -> list real -> list real * list real.
Variables (maxit : nat) (size : list nat -> nat).                       (* lancz_params.max_iterations, size() of the state *)
Variable svd : nat -> cg -> cg * cg * cg.
(** environments: UpdateSiteLenvs, UpdateSiteRenvs, vmps_init.h 343-373; the trivial ones, 292-298, 318-325 *)
Definition w_triv (s : side) : res cg := Ok (trivial_env cx c0 c1 1 1).
Definition w_grow (s : side) (i : nat) (e t : res cg) : res cg :=
  let! e := e in let! t := t in
  match s with L => update_lenv cx c0 cadd cmul cconj e t (ws i) | R => update_renv cx c0 cadd cmul cconj e t (ws i) end.
(** the products of the solvers: eff_ham_mul_two_site_state and eff_ham_mul_single_site_state, lanczos_vmps_solver_impl.h 261-304,
    on the elements of a state with legs [ds].  Whether they are defined does not depend on the elements *)
Definition h_two (l : nat) (el er : cg) (ds : list nat) (y : cvec) : cvec :=
  match mul2 cx c0 cadd cmul el (ws l) (ws (l + 1)) er (mkG cx ds y) with Ok z => cge z | _ => y end.
Definition h_one (j : nat) (el er : cg) (ds : list nat) (y : cvec) : cvec :=
  match mul1 cx c0 cadd cmul el (ws j) er (mkG cx ds y) with Ok z => cge z | _ => y end.
Definition both (r : res (cg * cg)) : res cg * res cg :=
  match r with Ok (a, b) => (Ok a, Ok b) | Ub => (Ub, Ub) | Abort => (Abort, Abort) end.

(** ** TDVP, two_site_update_finite_tdvp_impl.h *)
Variable far : list cx -> list cx -> bool.
(** TwoSiteFiniteTDVPEvolution, 273-366: sites l, l+1 evolved by [t] (the caller passes tau / 2), u and s * vt to the right, u * s and vt to the left *)
Definition t_evo (rt : bool) (l : nat) (t : Q) (el a b er : res cg) : res cg * res cg :=
  both (let! el := el in let! a := a in let! b := b in let! er := er in
        let! x := gcontract cx c0 cadd cmul [2] [0] a b in
        let! _ := mul2 cx c0 cadd cmul el (ws l) (ws (l + 1)) er x in
        let! (_, g) := g_expmv (cgd x) (h_two l el er (cgd x)) stev (Q2R t) far maxit (size (cgd x)) (cge x) in
        split2 cx c0 cadd cmul svd rt (mkG cx (cgd x) g)).
(** SingleSiteFiniteTDVPBackwardEvolution, 404-450 with dir 'n': site j evolved by [t] (the caller passes -tau / 2); no decomposition *)
Definition t_back (j : nat) (t : Q) (el a er : res cg) : res cg :=
  let! el := el in let! a := a in let! er := er in
  let! _ := mul1 cx c0 cadd cmul el (ws j) er a in
  let! (_, g) := g_expmv (cgd a) (h_one j el er (cgd a)) stev (Q2R t) far maxit (size (cgd a)) (cge a) in
  Ok (mkG cx (cgd a) g).

(** ActOperatorOnMps, 24-54, on one tensor: the operator (or the string on the sites before) acts on the physical leg *)
Definition t_act (op : cg) (t : res cg) : res cg :=
  let! t := t in let! x := gcontract cx c0 cadd cmul [0] [1] op t in gtrans cx [1; 0; 2] x.
(** RightCanonicalizeTen of the second of two neighbours, finite_mps.h 239-274 with QR (line 150 of the TDVP): (left neighbour, tensor).
    [qr n x]: x as a matrix with the first n legs as rows *)
Variable qr : nat -> cg -> cg * cg.
Definition t_rcano (a b : res cg) : res cg * res cg :=
  both (let! a := a in let! b := b in
        let! bt := gtrans cx [2; 1; 0] b in
        let (q, r) := qr 2 bt in
        let! b' := gtrans cx [2; 1; 0] q in
        let! a' := gcontract cx c0 cadd cmul [2] [1] a r in
        Ok (a', b')).

(** ** VMPS, two_site_update_finite_vmps_impl.h TwoSiteFiniteVMPSUpdate 233-335: the new tensors and the energy *)
Variable close : real -> real -> bool.
Definition v_update (rt : bool) (l : nat) (el a b er : res cg) : res cg * res cg * res real :=
  match (let! el := el in let! a := a in let! b := b in let! er := er in
         let! x := gcontract cx c0 cadd cmul [2] [0] a b in
         let! _ := mul2 cx c0 cadd cmul el (ws l) (ws (l + 1)) er x in
         let! (r, g) := g_lanczos (cgd x) (h_two l el er (cgd x)) stev close maxit (size (cgd x)) (cge x) in
         let! (a, b) := split2 cx c0 cadd cmul svd rt (mkG cx (cgd x) g) in
         Ok (a, b, eng real r))
  with Ok (a, b, e) => (Ok a, Ok b, Ok e) | Ub => (Ub, Ub, Ub) | Abort => (Abort, Abort, Abort) end.
End Update.
