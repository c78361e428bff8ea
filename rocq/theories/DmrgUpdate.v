(** One update of two sites in exact complex arithmetic: TwoSiteUpdate_ of the DMRG executor, algorithm/dmrg/dmrg_impl.h 214-317, with the
    Lanczos solver of algorithm/dmrg/lanczos_dmrg_solver_impl.h 61-196 on tensors with four legs.

    Real numbers are those of the standard library: rounding is not modelled.  LAPACK ([stev]) and the SVD ([svd]) are
    parameters; the matrix of singular values need not be diagonal here.  Undefined behaviour is an outcome: the
    energy of the update is then [Ub]. *)
From Coq Require Import List Arith Bool Reals.
From Verif Require Import Base Disk FiniteMps FmpsSpec EffHam Lanczos Krylov Cx.
Import ListNotations.
Notation real := Rdefinitions.R.
Notation cten := (ten cx). Notation cop := (op2 cx). Notation cmpo := (mposite cx).
Notation cten4 := (nat -> nat -> nat -> nat -> cx).

(** *** tensors with four legs as vectors *)
Section Vec.
Variables D0 p1 p2 D3 : nat.
Notation csum := (FmpsSpec.sumn cx c0 cadd).
(** Contract(x, Dag(y), {{0,1,2,3}, {0,1,2,3}}), and the Real of it *)
Definition v_ip (x y : cten4) : cx := csum D0 (fun a => csum p1 (fun s1 => csum p2 (fun s2 => csum D3 (fun b => cmul (x a s1 s2 b) (cconj (y a s1 s2 b)))))).
Definition v_dot (x y : cten4) : real := fst (v_ip x y).
(** LinearCombine *)
Definition v_lc1 (a : real) (q g : cten4) : cten4 := fun i j k l => csub (g i j k l) (cmul (cre a) (q i j k l)).
Definition v_lc2 (a : real) (q : cten4) (n : real) (q' g : cten4) : cten4 := v_lc1 (sqrt n) q' (v_lc1 a q g).
Definition v_comb (c : list real) (l : list cten4) : cten4 := fun i j k m =>
  fold_right (fun p s => cadd (cmul (cre (fst p)) (snd p i j k m)) s) c0 (List.combine c l).
Definition v_scale (a : real) (x : cten4) : cten4 := fun i j k l => cmul (cre a) (x i j k l).
Definition is_zero (x : real) : bool := if Req_EM_T x 0 then true else false.
(** Normalize: divides by the norm and returns it.  The elements of a zero vector, NaN in the code, are never used *)
Definition v_normalize (v : cten4) : cten4 * real := let n := sqrt (v_dot v v) in if is_zero n then (v, 0%R) else (v_scale (/ n) v, n).

Variable mul : cten4 -> cten4.
Variable stev : list real -> list real -> list real * list real.
Variable close : real -> real -> bool.
(** the solver on the initial state: its result and the vector it points to *)
Definition v_lanczos (maxit dim : nat) (v : cten4) : res (lres real * cten4) :=
  let! (r, h) := eig_solver real cten4 real 0%R (fun x => (x * x)%R) is_zero mul v_dot v_lc1 v_lc2 v_normalize (fun x => x) (gs_eng real 0%R stev) (gs_vec real 0%R stev) v_comb close
                   maxit dim 0 (mkH cten4 real [Some v] []) in
  let! g := rd cten4 real (gs real r) h in Ok (r, g).
End Vec.

(** dmrg_impl.h 252-284: u, s, vt of the state with the first two legs as rows; s goes to the side the sweep moves to *)
Definition d_split (svd : nat -> nat -> nat -> nat -> cten4 -> cten * (nat -> nat -> cx) * cten) (rt : bool) (D0 p1 p2 D3 : nat) (g : cten4) : cten * cten :=
  let '(u, s, vt) := svd D0 p1 p2 D3 g in
  if rt then (u, mkTen (d2 u) (d1 vt) (d2 vt) (fun k s2 y => FmpsSpec.sumn cx c0 cadd (d0 vt) (fun m => cmul (s k m) (el vt m s2 y))))
  else (mkTen (d0 u) (d1 u) (d0 vt) (fun x s1 m => FmpsSpec.sumn cx c0 cadd (d2 u) (fun k => cmul (el u x s1 k) (s k m))), vt).

Section Update.
Variable ws : nat -> cmpo.                                              (* mat_repr_mpo_ *)
Variable stev : list real -> list real -> list real * list real.
Variable close : real -> real -> bool.
Variables (maxit : nat) (size : nat -> nat -> nat -> nat -> nat).       (* lancz_params.max_iterations, size() of the state *)
Variable split : bool -> nat -> nat -> nat -> nat -> cten4 -> cten * cten.   (* [d_split] of the SVD *)
(** block operators of one more site, dmrg_init.h 133-161, 178-205.  An operator group that cannot be computed is empty here *)
Definition d_grow (s : side) (i : nat) (g : list cop) (t : cten) : list cop :=
  match (match s with L => grow_left cx c0 cadd cmul cconj g t (ws i) | R => grow_right cx c0 cadd cmul cconj g t (ws i) end) with Ok g' => g' | _ => [] end.
(** Contract(&mps_[l_site_], &mps_[r_site_], {{2}, {0}}) *)
Definition d_init (t1 t2 : cten) : cten4 := fun a s1 s2 b => FmpsSpec.sumn cx c0 cadd (d2 t1) (fun m => cmul (el t1 a s1 m) (el t2 m s2 b)).
Definition d_mul (l : nat) (gl gr : list cop) (t1 t2 : cten) (x : cten4) : res cten4 :=
  eff_mul cx c0 cadd cmul gl gr (ws l) (ws (l + 1)) (d0 t1) (d1 t1) (d1 t2) (d2 t2) x.
(** lines 214-284: new tensors and the energy *)
Definition d_update (rt : bool) (l : nat) (gl : list cop) (t1 t2 : cten) (gr : list cop) : cten * cten * res real :=
  if negb (d2 t1 =? d0 t2) then (t1, t2, Ub) else
  match d_mul l gl gr t1 t2 (d_init t1 t2) with        (* whether the product is defined does not depend on the state *)
  | Ok _ =>
    let mul := fun x => match d_mul l gl gr t1 t2 x with Ok y => y | _ => x end in
    match v_lanczos (d0 t1) (d1 t1) (d1 t2) (d2 t2) mul stev close maxit (size (d0 t1) (d1 t1) (d1 t2) (d2 t2)) (d_init t1 t2) with
    | Ok (r, g) => let (a, b) := split rt (d0 t1) (d1 t1) (d1 t2) (d2 t2) g in (a, b, Ok (eng real r))
    | Ub => (t1, t2, Ub) | Abort => (t1, t2, Abort)
    end
  | Ub => (t1, t2, Ub) | Abort => (t1, t2, Abort)
  end.
End Update.
