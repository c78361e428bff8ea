(** The local update of the single-site sweeps with numbers: algorithm/vmps/single_site_update_finite_vmps_impl.h 132-158, 163-182 and 200-376.

    Simplifications: the real numbers of the standard library (no rounding); LAPACK ([stev]), the decomposition ([svd]), the comparison
    with a tolerance in the solver ([close]) and the number of stored elements of a tensor ([size]) are parameters; quantum numbers and index
    directions are left out.  A tensor that cannot be computed (legs that do not fit) is [Ub]. *)
From Coq Require Import List Arith Bool Reals.
From Verif Require Import Base Disk FiniteMps FmpsSpec EffHam Legs VmpsLocal Lanczos Krylov Cx GVec ChainUpdate.
Import ListNotations.
Local Open Scope nat_scope.

(** noise_running, e0 and actual_laststep_e0 of SingleSiteFiniteVMPSSweep, 120-186 *)
Record s1st : Type := mkS1 { s_nz : real; s_e0 : real; s_last : real }.
Definition rle (x y : real) : bool := if Rle_dec x y then true else false.
Definition rlt (x y : real) : bool := if Rlt_dec x y then true else false.

Section Rule.
Variables alpha dec inc mx : real.                                      (* sweep_params.alpha, noise_decrease, noise_increase, max_noise *)
(** lines 143-152 and 167-173; [act] is actual_e0.  std::min (x, y) is y if y < x and x otherwise *)
Definition s_rule (s : s1st) (act : real) : real :=
  if rle (act - s_e0 s) 0 then s_nz s
  else if rle (alpha * Rabs (s_last s - s_e0 s)) (act - s_e0 s) then (s_nz s * dec)%R
  else let x := (s_nz s * inc)%R in if rlt mx x then mx else x.
(** the first noise of a sweep: lines 93, 97-100; e0 and actual_laststep_e0 start with 0, line 127 *)
Definition s_preset (n : real) : res s1st := Ok (mkS1 n 0 0).
Definition s_carry (s : res s1st) : res s1st := let! s := s in Ok (mkS1 (s_nz s) 0 0).

(** need_expand, 254-266; [d]: shape of the tensor of the site before the update *)
Definition s_expand (N i : nat) (n : real) (d : list nat) : bool :=
  if rlt (Rabs n) (/ 10 ^ 15) then false
  else negb ((i <? N / 2) && (nth 0 d 0 * nth 1 d 0 <=? nth 2 d 0) || (N / 2 <? i) && (nth 2 d 0 * nth 1 d 0 <=? nth 0 d 0)).

Variable N : nat.
Variable ws : nat -> cg.                                                (* the MPO *)
Variable stev : list real -> list real -> list real * list real.
Variables (maxit : nat) (size : list nat -> nat).                       (* lancz_params.max_iterations, size() of the state *)
Variable svd : nat -> cg -> cg * cg * cg.
Variable close : real -> real -> bool.
(** expansion (SingleSiteFiniteVMPSExpand, modelled in VmpsLocal), SVD and hand-over, 267-330: (tensor of the site, of the next one) *)
Definition s_hand (rt need : bool) (el : cg) (w : cg) (er g b : cg) (n : real) : res (cg * cg) :=
  let! (x, y) := (if need then if rt then expand1_r cx c0 cadd cmul el w g b (cre n) else expand1_l cx c0 cadd cmul w er g b (cre n) else Ok (g, b)) in
  split1 cx c0 cadd cmul svd rt x y.
(** energy, noise rule, solver, expansion, hand-over *)
Definition s_update (rt : bool) (i : nat) (el a er b : res cg) (s : res s1st) : res cg * res cg * res s1st :=
  match (let! el := el in let! a := a in let! er := er in let! b := b in let! s := s in
         let! act := energy1 cx c0 cadd cmul cconj el (ws i) er a in
         let n := s_rule s (fst act) in
         let! (r, g) := g_lanczos (cgd a) (h_one ws i el er (cgd a)) stev close maxit (size (cgd a)) (cge a) in
         let! (x, y) := s_hand rt (s_expand N i n (cgd a)) el (ws i) er (mkG cx (cgd a) g) b n in
         Ok (x, y, mkS1 n (eng real r) (fst act)))
  with Ok (x, y, s) => (Ok x, Ok y, Ok s) | Ub => (Ub, Ub, Ub) | Abort => (Abort, Abort, Abort) end.
End Rule.
