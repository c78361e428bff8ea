(** Model of TruncateMPS: one_dim_tn/mps/finite_mps/finite_mps.h 341-391, on top of the model of FiniteMPS (FiniteMps.v),
    over complex numbers (rounding is not modelled).  Quantum numbers (and with them Div(mps[i])) are not modelled.  The
    truncated SVD of the tensor library is an arbitrary function; what it satisfies is stated where it is used. *)
From Coq Require Import List Arith Bool ZArith Reals.
From Verif Require Import Base FiniteMps FmpsSpec Cx GVec.
Import ListNotations.
Local Open Scope nat_scope.

Notation cten := (ten cx).
Notation cmat := (mat2 cx).

Section Model.
(** QR and SVD of Centralize, see FiniteMps.v *)
Variables (qr : cten -> cten * cmat) (svd1 : cten -> cmat * cten * list cx).
(** SVD(t, 2, div, trunc_err, Dmin, Dmax, &u, &s, &vt, &actual_trunc_err, &D): the kept singular values s are the diagonal
    of the tensor s, D is their number *)
Variable svd : real -> nat -> nat -> cten -> cten * list real * cmat * real.

(** sum of the squared absolute values of the elements of a tensor *)
Definition frob (t : cten) : cx :=
  sumn cx c0 cadd (d0 t) (fun a => sumn cx c0 cadd (d1 t) (fun s => sumn cx c0 cadd (d2 t) (fun b => cmul (cconj (el t a s b)) (el t a s b)))).
(** QLTensor::Normalize (tensor library): divide by the 2-norm.  A tensor of norm zero becomes not-a-number, which is Ub here *)
Definition normalize_ten (t : cten) : res cten :=
  let n := sqrt (fst (frob t)) in
  if Req_EM_T n 0 then Ub else Ok (mkTen (d0 t) (d1 t) (d2 t) (fun a s b => cmul (cre (/ n)) (el t a s b))).
Definition sum_sq (s : list real) : real := fold_right (fun x a => (x * x + a)%R) 0%R s.
Definition normalize_sv (s : list real) : res (list real) :=
  let n := sqrt (sum_sq s) in
  if Req_EM_T n 0 then Ub else Ok (map (fun x => (x / n)%R) s).
(** Contract(&s, &vt, {{1}, {0}}, &temp_ten), finite_mps.h 385 *)
Definition contract_svt (s : list real) (vt : cmat) : res cmat :=
  if length s =? n0 vt then Ok (mkMat2 (length s) (n1 vt) (fun k y => cmul (cre (nth k s 0%R)) (me vt k y))) else Ub.

(** the body of the loop, 365-390; the printed truncation error and bond dimension are returned *)
Definition trunc_site (terr : real) (Dmin Dmax : nat) (i : nat) (st : fmps cx * list (real * nat)) : res (fmps cx * list (real * nat)) :=
  let (st, out) := st in
  let! st := touch cx i st in
  let! a := deref cx st i in
  let '(u, s, vt, err) := svd terr Dmin Dmax a in
  let out := out ++ [(err, length s)] in
  let! s := normalize_sv s in
  let! st := touch cx i st in
  let! st := put cx i (Some u) st in
  let! m := contract_svt s vt in
  let! st := touch cx (i + 1) st in
  let! b := deref cx st (i + 1) in
  let! b' := contract_mt cx c0 cadd cmul m b in
  let! st := put cx (i + 1) (Some b') st in
  Ok (st, out).

(** TruncateMPS, 352-391.  mps_size - 1 wraps around for an empty chain; Centralize has read out of range by then *)
Definition truncate_mps (dbg : bool) (terr : real) (Dmin Dmax : nat) (st : fmps cx) : res (fmps cx * list (real * nat)) :=
  let n := length (tens st) in
  let! _ := assert_ dbg (2 <=? n) in
  let! st := centralize cx c0 cadd cmul qr svd1 dbg 0 st in
  let! st := touch cx 0 st in
  let! a := deref cx st 0 in
  let! a := normalize_ten a in
  let! st := put cx 0 (Some a) st in
  for_loop 0 (n - 1) (trunc_site terr Dmin Dmax) (st, []).
End Model.
