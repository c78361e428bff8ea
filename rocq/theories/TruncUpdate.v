(** The updates of [ChainUpdate] with the truncation error that the decomposition returns.

    Simplifications: as in [ChainUpdate]; the truncation error is a function [err] of the tensor that is decomposed (its cutoff, Dmin and Dmax are fixed
    during a sweep). *)
From Coq Require Import List Arith Bool QArith Qreals Reals.
From Verif Require Import Base Disk FiniteMps FmpsSpec EffHam Legs VmpsLocal Lanczos Krylov Cx GVec ChainUpdate.
Import ListNotations.
Local Open Scope nat_scope.

Section Update.
Variable ws : nat -> cg.
Variable stev : list real -> list real -> list real * list real.
Variables (maxit : nat) (size : list nat -> nat).
Variable svd : nat -> cg -> cg * cg * cg.
Variable err : cg -> real.                                              (* actual_trunc_err *)

(** TwoSiteFiniteVMPSUpdate, two_site_update_finite_vmps_impl.h 233-373: the singular values are used as they come (300-340), the energy is that of the
    solver, before the decomposition (372); the second number is the truncation error in the line that is printed (361-371) *)
Variable close : real -> real -> bool.
Definition v_update_e (rt : bool) (l : nat) (el a b er : res cg) : res cg * res cg * res (real * real) :=
  match (let! el := el in let! a := a in let! b := b in let! er := er in
         let! x := gcontract cx c0 cadd cmul [2] [0] a b in
         let! _ := mul2 cx c0 cadd cmul el (ws l) (ws (l + 1)) er x in
         let! (r, g) := g_lanczos (cgd x) (h_two ws l el er (cgd x)) stev close maxit (size (cgd x)) (cge x) in
         let! (a, b) := split2 cx c0 cadd cmul svd rt (mkG cx (cgd x) g) in
         Ok (a, b, (eng real r, err (mkG cx (cgd x) g))))
  with Ok (a, b, e) => (Ok a, Ok b, Ok e) | Ub => (Ub, Ub, Ub) | Abort => (Abort, Abort, Abort) end.

(** TwoSiteFiniteTDVPEvolution, two_site_update_finite_tdvp_impl.h 273-403: the truncation error of the substep (337-343, printed 391-402) *)
Variable far : list cx -> list cx -> bool.
Definition t_err (l : nat) (t : Q) (el a b er : res cg) : res real :=
  let! el := el in let! a := a in let! b := b in let! er := er in
  let! x := gcontract cx c0 cadd cmul [2] [0] a b in
  let! (_, g) := g_expmv (cgd x) (h_two ws l el er (cgd x)) stev (Q2R t) far maxit (size (cgd x)) (cge x) in
  Ok (err (mkG cx (cgd x) g)).
End Update.
