(** The small tridiagonal problems of the Lanczos solvers: TridiagGsSolver, algorithm/vmps/lanczos_vmps_solver_impl.h 306-355, and
    TridiagExpme1Solver, algorithm/tdvp/lanczos_expmv_solver_impl.h 199-242.
    [stev]: LAPACKE_dstev with row-major eigenvectors; its result is a parameter (eigenvalues and the n*n array z), the error exit is
    left out.  F: double, K: QLTEN_Complex, [r]: the conversion of a double, [ph]: exp(-i step_length x). *)
From Coq Require Import List Arith.
From Verif Require Import Base Lanczos.
Import ListNotations.

Section Tri.
Variables F K : Type.
Variables (zeroF : F) (k0 : K) (kadd kmul : K -> K -> K) (r : F -> K) (ph : F -> K).
Variable stev : list F -> list F -> list F * list F.
(** gs_eng = d[0]; gs_vec[i] = z[i * n] *)
Definition gs_eng (d e : list F) : F := nth 0 (fst (stev d e)) zeroF.
Definition gs_vec (d e : list F) : list F := let n := length d in let z := snd (stev d e) in map (fun i => nth (i * n) z zeroF) (seq 0 n).
(** exp_of_eigenvals_mul_first_raw[i] = exp(..d[i]) * z[i]; res[i] = sum of z[i * n + j] * exp_of_eigenvals_mul_first_raw[j] *)
Definition expme1 (d e : list F) : list K :=
  let n := length d in let (d', z) := stev d e in
  let w := map (fun i => kmul (ph (nth i d' zeroF)) (r (nth i z zeroF))) (seq 0 n) in
  map (fun i => fold_left (fun s j => kadd s (kmul (r (nth (i * n + j) z zeroF)) (nth j w k0))) (seq 0 n) k0) (seq 0 n).
(** hp_numeric::VectorScale(combination_factor, n, initial_norm) *)
Definition vscale (s : F) (c : list K) : list K := map (fun x => kmul (r s) x) c.
End Tri.

(** MasterLanczosExpmvSolver, algo_mpi/tdvp/lanczos_expmv_solver_mpi.h 31-205: the loop of the serial solver without the initial norm
    (67: the result of Normalize is dropped; 121, 132 and 183: no factor, no VectorScale).  [mul], [dot]: the distributed product
    (VmpsLocal.mpi_mul2), broadcasts left out. *)
Definition mpi_exp_solver (F V K : Type) (zeroF : F) (isz : F -> bool) (mul : V -> V) (dot : V -> V -> F) (lc1 : F -> V -> V -> V)
    (lc2 : F -> V -> F -> V -> V -> V) (normalize : V -> V * F) (comb : list K -> list V -> V) (cz : K) (tri_x : list F -> list F -> list K)
    (far : list K -> list K -> bool) (diff : list K -> list K -> list K) (phase1 : F -> V -> V) : nat -> nat -> nat -> heap V K -> res (xres * heap V K) :=
  exp_solver F V K zeroF isz mul dot lc1 lc2 normalize comb cz tri_x far diff (fun _ c => c) (fun _ a q => phase1 a q).
