(** The DMRG update of [DmrgUpdate] with the truncation error that the SVD returns: TwoSiteUpdate_, algorithm/dmrg/dmrg_impl.h 214-317.

    Simplifications: as in [DmrgUpdate]; the truncation error is a function [err] of the tensor that is decomposed (trunc_err, Dmin and Dmax are
    fixed during a run). *)
From Coq Require Import List Arith Bool Reals.
From Verif Require Import Base Disk FiniteMps FmpsSpec EffHam Lanczos Krylov Cx DmrgUpdate.
Import ListNotations.

Section Update.
Variable ws : nat -> cmpo.
Variable stev : list real -> list real -> list real * list real.
Variable close : real -> real -> bool.
Variables (maxit : nat) (size : nat -> nat -> nat -> nat -> nat).
Variable svd : nat -> nat -> nat -> nat -> cten4 -> cten * (nat -> nat -> cx) * cten.
Variable err : nat -> nat -> nat -> nat -> cten4 -> real.                (* actual_trunc_err, line 245 *)
(** 217-231: the solver on the two tensors; 247-252: the SVD of the state it found; 264-277: the singular values are used as they come; 316: the
    energy is the one of the solver, before the decomposition.  The second number is the truncation error that 303-314 print *)
Definition d_update_e (rt : bool) (l : nat) (gl : list cop) (t1 t2 : cten) (gr : list cop) : cten * cten * res (real * real) :=
  if negb (d2 t1 =? d0 t2) then (t1, t2, Ub) else
  match d_mul ws l gl gr t1 t2 (d_init t1 t2) with
  | Ok _ =>
    let mul := fun x => match d_mul ws l gl gr t1 t2 x with Ok y => y | _ => x end in
    match v_lanczos (d0 t1) (d1 t1) (d1 t2) (d2 t2) mul stev close maxit (size (d0 t1) (d1 t1) (d1 t2) (d2 t2)) (d_init t1 t2) with
    | Ok (r, g) => let (a, b) := d_split svd rt (d0 t1) (d1 t1) (d1 t2) (d2 t2) g in (a, b, Ok (eng real r, err (d0 t1) (d1 t1) (d1 t2) (d2 t2) g))
    | Ub => (t1, t2, Ub) | Abort => (t1, t2, Abort)
    end
  | Ub => (t1, t2, Ub) | Abort => (t1, t2, Abort)
  end.
End Update.

(** CheckAndUpdateBoundaryMPSTensors, algorithm/vmps/vmps_init.h 139-246: the tests of a tensor on the left (174, 177) and on the right (217, 220) *)
Definition big_l (Dmax : nat) (t : cten) : bool := Dmax <? d0 t * d1 t.
Definition small_l (t : cten) : bool := d2 t <? d0 t * d1 t.
Definition big_r (Dmax : nat) (t : cten) : bool := Dmax <? d1 t * d2 t.
Definition small_r (t : cten) : bool := d0 t <? d1 t * d2 t.
