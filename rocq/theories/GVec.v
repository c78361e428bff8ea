(** Tensors of the VMPS and TDVP solvers as vectors, in exact complex arithmetic, and the two Lanczos solvers on them:
    algorithm/vmps/lanczos_vmps_solver_impl.h 115-248 and algorithm/tdvp/lanczos_expmv_solver_impl.h 77-184.

    A vector is the function of the elements of a tensor; [ds] are the dimensions of its legs (four legs: two sites, three legs: one site).
    Real numbers are those of the standard library: rounding is not modelled.  LAPACK ([stev]) is a parameter. *)
From Coq Require Import List Arith Bool Reals.
From Verif Require Import Base FiniteMps FmpsSpec Legs Lanczos Krylov Cx.
Import ListNotations.
Notation real := Rdefinitions.R.
Notation cvec := (list nat -> cx).

(** *** vector operations *)
Section Vec.
Variable ds : list nat.
(** Contract(x, Dag(y), all legs), and the Real of it *)
Definition g_ip (x y : cvec) : cx := gsum cx c0 cadd ds (fun k => cmul (x k) (cconj (y k))).
Definition g_dot (x y : cvec) : real := fst (g_ip x y).
(** LinearCombine: g - a q, then - b q' *)
Definition g_lc1 (a : real) (q g : cvec) : cvec := fun k => csub (g k) (cmul (cre a) (q k)).
Definition g_lc2 (rt : real -> real) (a : real) (q : cvec) (n : real) (q' g : cvec) : cvec := g_lc1 (rt n) q' (g_lc1 a q g).
Definition g_scale (a : cx) (x : cvec) : cvec := fun k => cmul a (x k).
Definition g_comb (c : list cx) (l : list cvec) : cvec := fun k => fold_right (fun p s => cadd (cmul (fst p) (snd p k)) s) c0 (List.combine c l).
Definition g_isz (x : real) : bool := if Req_EM_T x 0 then true else false.
(** Normalize: divides by the norm and returns it.  The elements of a zero vector, NaN in the code, are never used *)
Definition g_normalize (v : cvec) : cvec * real := let n := sqrt (g_dot v v) in if g_isz n then (v, 0%R) else (g_scale (cre (/ n)) v, n).

Variable mul : cvec -> cvec.
Variable stev : list real -> list real -> list real * list real.
(** *** the eigenvalue solver on the initial state: its result and the vector it points to *)
Definition g_lanczos (close : real -> real -> bool) (maxit dim : nat) (v : cvec) : res (lres real * cvec) :=
  let! (r, h) := eig_solver real cvec real 0%R (fun x => (x * x)%R) g_isz mul g_dot g_lc1 (g_lc2 sqrt) g_normalize (fun x => x) (gs_eng real 0%R stev) (gs_vec real 0%R stev)
                   (fun c l => g_comb (map cre c) l) close maxit dim 0 (mkH cvec real [Some v] []) in
  let! g := rd cvec real (gs real r) h in Ok (r, g).
(** *** the exponential, step length d.  The coefficients after Distance are the differences *)
Definition g_diff (c d : list cx) : list cx := map (fun p => csub (fst p) (snd p)) (List.combine c d) ++ skipn (length d) c.
Definition g_phase (d n a : real) (q : cvec) : cvec := g_scale (cmul (cre n) (cph d a)) q.
Definition g_expmv (d : real) (far : list cx -> list cx -> bool) (maxit dim : nat) (v : cvec) : res (xres * cvec) :=
  let! (r, h) := exp_solver real cvec cx 0%R g_isz mul g_dot g_lc1 (g_lc2 (fun x => x)) g_normalize g_comb c0 (expme1 real cx 0%R c0 cadd cmul cre (cph d) stev) far g_diff
                   (vscale real cx cmul cre) (g_phase d) maxit dim 0 (mkH cvec cx [Some v] []) in
  let! g := rd cvec cx (expmv r) h in Ok (r, g).
End Vec.
