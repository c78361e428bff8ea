(** FiniteMPO::SquareAndNormlize, one_dim_tn/mpo/finite_mpo/finite_mpo.h 205-211, on top of Square (MpoVar.v) and Normalize (FinMpo.v, with the norm and the inverse of MpoCanoInst.v). *)
From Coq Require Import List Arith Bool ZArith Reals.
From Verif Require Import Base FiniteMps FmpsSpec FinMpo Cx GVec TruncMps Legs MpoCano MpoCanoInst MpoVar.
Import ListNotations.
Local Open Scope nat_scope.
Definition square_normalize (qr : c4 -> c4 * cmat) (svd : c4 -> cmat * list real * c4) (svd6 : real -> nat -> nat -> cg -> c4 * list real * c4 * real)
  (terr : real) (Dmin Dmax : nat) (dbg : bool) (sweeps : nat) (tol : real) (d : option (mdir cx)) (st : cmpo) (fl fr : nat -> option cg) : res (cx * cmpo) :=
  let! x := mpo_square qr svd svd6 terr Dmin Dmax dbg sweeps tol d st fl fr in
  let! y := cnormalize (fst x) in
  let! _ := assert_ dbg (negb (mcenter (snd y) =? -1)%Z) in
  Ok y.
