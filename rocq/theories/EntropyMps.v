(** Model of GetEntanglementEntropy: one_dim_tn/mps/finite_mps/finite_mps.h 276-309, on top of the model of FiniteMPS
    (FiniteMps.v), over complex numbers (rounding is not modelled).  The SVD inside RightCanonicalizeTen is the one of
    utilities.h 32-59: no value is discarded, zeros included. *)
From Coq Require Import List Arith Bool ZArith Reals.
From Verif Require Import Base FiniteMps Cx GVec TruncMps.
Import ListNotations.
Local Open Scope nat_scope.

(** a double that may be not a number (None) *)
Definition double : Type := option real.
(** p = singular_value * singular_value, 289-290 *)
Definition prob (s : cx) : real := (fst s * fst s)%R.
(** ee += (-p * std::log(p)), 292: 0 * log(0) is not a number *)
Definition ee_add (ee : double) (p : real) : double :=
  match ee with
  | None => None
  | Some e => if Req_EM_T p 0 then None else Some (e + - p * ln p)%R
  end.
(** 294-297: p_to_n = p; for (j = 1; j < n; j++) p_to_n *= p; *)
Definition to_n (n : nat) (p : real) : real := Nat.iter (n - 1) (fun q => (q * p)%R) p.
(** (double) (n - 1), with n of type size_t (304) *)
Definition minus1 (n : nat) : real := match n with O => IZR 18446744073709551615 | S m => INR m end.
(** 283-306 for one bond; std::log(sum) with sum <= 0 is not a number *)
Definition bond_entropy (n : nat) (s : list cx) : double :=
  if n =? 1 then fold_left (fun ee x => ee_add ee (prob x)) s (Some 0%R)
  else
    let sum := fold_left (fun a x => (a + to_n n (prob x))%R) s 0%R in
    if Rlt_dec 0 sum then Some (- ln sum / minus1 n)%R else None.

Section Model.
Variables (qr : cten -> cten * cmat) (svd1 : cten -> cmat * cten * list cx).
(** before the loop, 278-281 *)
Definition ee_start (dbg : bool) (st : fmps cx) : res (fmps cx) :=
  let m := length (tens st) - 1 in
  let! st := centralize cx c0 cadd cmul qr svd1 dbg (Z.of_nat m) st in
  let! st := touch cx m st in
  let! t := deref cx st m in
  let! t := normalize_ten t in
  put cx m (Some t) st.
(** one site of the loop, 282-307; ee_list is filled from its end *)
Definition ee_site (dbg : bool) (n : nat) (i : nat) (x : fmps cx * list double) : res (fmps cx * list double) :=
  let! (st, s) := rcan_ten cx c0 cadd cmul qr svd1 dbg i true (fst x) in
  Ok (st, bond_entropy n s :: snd x).
(** for an empty chain std::vector<double>(N - 1) throws *)
Definition get_ee (dbg : bool) (n : nat) (st : fmps cx) : res (fmps cx * list double) :=
  if length (tens st) =? 0 then Abort
  else
    let! st1 := ee_start dbg st in
    for_each (rev (seq 1 (length (tens st) - 1))) (ee_site dbg n) (st1, []).
(** [a] is a tensor that the call hands to the SVD *)
Definition svd_call (dbg : bool) (n : nat) (st : fmps cx) (a : cten) : Prop := exists st1 j st2 es,
  ee_start dbg st = Ok st1 /\ j < length (tens st) - 1 /\
  for_each (firstn j (rev (seq 1 (length (tens st) - 1)))) (ee_site dbg n) (st1, []) = Ok (st2, es) /\
  nth_error (tens st2) (length (tens st) - 1 - j) = Some (Some a).
End Model.
