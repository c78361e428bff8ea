(** ExpFiniteMPO with the truncation, the variational product and the files it uses: one_dim_tn/mpo/finite_mpo/exp_finite_mpo.h 44-134, on top of FinMpo.v, MpoCano.v and MpoVar.v,
    over complex numbers (rounding is not modelled).  Printing, timers and CreatPath(temp_path) are left out. *)
From Coq Require Import List Arith Bool ZArith Reals.
From Verif Require Import Base FiniteMps FmpsSpec FinMpo Cx GVec TruncMps Legs MpoCano MpoCanoInst MpoVar.
Import ListNotations.
Local Open Scope nat_scope.

Notation cmax_bond := (max_bond cx).
Notation cscale := (mpo_scale cx cmul).
Notation ctrace := (mpo_trace cx c0 c1 cadd cmul).
Notation cproduct := (mpo_product cx c0 cadd cmul).
(** the directories "<prefix>_H<n>_tau<tau>" by order n, for the prefix and tau of the call (GenHnMpoPath, 128-134) *)
Notation hdirs := (nat -> option (mdir cx)).
Definition dset (f : hdirs) (n : nat) (d : mdir cx) : hdirs := fun j => if j =? n then Some d else f j.
(** what is printed in one order: how the power was made, truncation errors and bond dimensions of the power and of the density matrix, trace of the power *)
Inductive pmade : Type := PFirst | PExact (l : list (real * nat)) | PVar (l : list (real * nat)).
Record olog : Type := mkOlog { ol_pow : pmade; ol_rho : option (list (real * nat)); ol_trace : cx }.
(** density_matrix, taylor_term, the directories, the files of the variational product *)
Record estate : Type := mkEst { es_rho : cmpo; es_term : cmpo; es_dirs : hdirs; es_fl : nat -> option cg; es_fr : nat -> option cg }.

(** |z| *)
Definition cmod (z : cx) : real := sqrt (fst z * fst z + snd z * snd z).
(** std::abs(t / t0) < tol_taylor_expansion, 112; a quotient by zero is infinite or not a number *)
Definition small_trace (tol : real) (t t0 : cx) : bool :=
  if Req_EM_T (cmod t0) 0 then false else if Rlt_dec (cmod t / cmod t0) tol then true else false.
(** assert(t > 0.0), 111, for real elements *)
Definition pos_trace (t : cx) : bool := if Rlt_dec 0 (fst t) then true else false.

Section Model.
Variable qr : c4 -> c4 * cmat.
Variable svd : c4 -> cmat * list real * c4.
Variable svdt : real -> nat -> nat -> c4 -> cmat * list real * c4 * real.
Variable svd6 : real -> nat -> nat -> cg -> c4 * list real * c4 * real.
(** trunc_err, Dmin, Dmax, sweep_max, variation_converge_tolerance, tol_taylor_expansion; [eps] is 1e-16 *)
Variables (terr : real) (Dmin Dmax sweeps : nat) (tol ttol eps : real).

(** the power of order n > 1, 80-96.  std::move leaves the center and the flags of tmp_mpo *)
Definition next_power (dbg : bool) (DH : nat) (mth : cmpo) (n : nat) (x : estate) : res (cmpo * pmade * (nat -> option cg) * (nat -> option cg)) :=
  let term := es_term x in
  let! D := cmax_bond term in
  let! y := (if DH * D <=? Dmax then
      let! p := cproduct term mth (mpo_new cx (length (mtens mth))) in
      let! Dp := cmax_bond p in
      let! y := mpo_truncate qr svd svdt dbg eps 1 Dp p in
      Ok (fst y, PExact (snd y), es_fl x, es_fr x)
    else
      let! g := mpo_load cx (es_dirs x n) (mpo_new cx (length (mtens mth))) in
      let! v := mpo_vproduct qr svd svd6 terr Dmin Dmax dbg sweeps tol term mth (snd g) (es_fl x) (es_fr x) in
      Ok (vout v, PVar (vlog v), vl v, vr v)) in
  let '(p, m, fl, fr) := y in
  let! p := cscale (cre (/ INR n)) p in
  Ok (p, m, fl, fr).
(** one turn of the loop, 77-116; the last component is the break *)
Definition exp_order (dbg : bool) (DH : nat) (mth : cmpo) (t0 : cx) (n : nat) (x : estate) : res (estate * olog * bool) :=
  let! y := (if 1 <? n then next_power dbg DH mth n x else Ok (es_term x, PFirst, es_fl x, es_fr x)) in
  let '(term, m, fl, fr) := y in
  let! rho := add2 cx c0 cadd dbg (es_rho x) term in
  let! d := mpo_dump cx term (es_dirs x n) in
  let! z := ctrace term in
  let (t, term) := z in
  let! D := cmax_bond rho in
  let! w := (if Dmax <? D then let! w := mpo_truncate qr svd svdt dbg eps Dmax Dmax rho in Ok (fst w, Some (snd w)) else Ok (rho, None)) in
  let st := mkEst (fst w) term (dset (es_dirs x) n d) fl fr in
  let o := mkOlog m (snd w) t in
  if Nat.even n then let! _ := assert_ dbg (pos_trace t) in Ok (st, o, small_trace ttol t t0) else Ok (st, o, false).
Fixpoint exp_orders (dbg : bool) (DH : nat) (mth : cmpo) (t0 : cx) (n fuel : nat) (x : estate) (out : list olog) : res (estate * list olog) :=
  match fuel with
  | O => Ok (x, out)
  | S fuel =>
    let! y := exp_order dbg DH mth t0 n x in
    let '(x, o, brk) := y in
    if brk then Ok (x, out ++ [o]) else exp_orders dbg DH mth t0 (S n) fuel x (out ++ [o])
  end.
(** ExpFiniteMPO, 44-126; [tau] is a real number.  (norm, density matrix), the state at the end and what was printed *)
Definition exp_finite_mpo (dbg : bool) (ham : cmpo) (tau : real) (max_order : nat) (dirs : hdirs) (fl fr : nat -> option cg) : res (real * cmpo * estate * list olog) :=
  let! DH := cmax_bond ham in
  let! mth := cscale (cre (- tau)) ham in
  let! rho := mpo_identity cx c0 c1 ham in
  let! z := ctrace rho in
  let (t0, rho) := z in
  let! y := exp_orders dbg DH mth t0 1 (max_order - 1) (mkEst rho mth dirs fl fr) [] in
  let (x, out) := y in
  let! rho := mcentralize qr svd dbg 0 (es_rho x) in
  let! rho := mtouch cx 0 rho in
  let! t := mderef cx rho 0 in
  let! rho := mput cx 0 (Some (tscale cx cmul (cinv (norm4 t)) t)) rho in
  Ok (fst (norm4 t), rho, x, out).
End Model.
