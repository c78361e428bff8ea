(** The adaptive noise: two_site_update_noise_finite_vmps_impl.h 111-113, 142-166, 178-188; the same rule is in
    single_site_update_finite_vmps_impl.h 97-101, 128-148, 163-173.

    Doubles are modelled as rationals with a rounding function after every multiplication; overflow and not-a-number are
    not modelled. *)
From Coq Require Import List Arith Bool QArith Qminmax Qabs.
From Verif Require Import Base Disk.
Import ListNotations.
Local Open Scope Q_scope.

Definition qleb (x y : Q) : bool := Qle_bool x y.
(** noise_running, e0, actual_laststep_e0 *)
Record nst : Type := mkN { nz : Q; e0 : Q; last : Q }.

Section Rule.
Variable rnd : Q -> Q.
Variables alpha dec inc mx : Q.
(** std::min *)
Definition qmin (x y : Q) : Q := if negb (qleb x y) then y else x.
(** lines 157-166 *)
Definition rule (s : nst) (actual : Q) : Q :=
  if qleb (rnd (actual - e0 s)) 0 then nz s
  else if qleb (rnd (alpha * rnd (Qabs (rnd (last s - e0 s))))) (rnd (actual - e0 s)) then rnd (nz s * dec)
  else qmin (rnd (nz s * inc)) mx.

Variables T E : Type.
(** CalEnergyEptTwoSite and TwoSiteFiniteVMPSUpdate *)
Variable ept : bool -> nat -> E -> T -> T -> E -> Q.
Variable upd3 : bool -> nat -> E -> T -> T -> E -> T -> Q -> T * T * T * Q.
(** lines 156-174 *)
Definition nsolve (rt : bool) (l : nat) (el : E) (a b : T) (er : E) (c : T) (s : nst) : T * T * T * nst :=
  let actual := ept rt l el a b er in
  let n := rule s actual in
  let '(a', b', c', e) := upd3 rt l el a b er c n in (a', b', c', mkN n e actual).
Variable noises : list Q.
(** lines 111-113, 142 *)
Definition npreset (k : nat) : option nst := match nth_error noises k with Some n => Some (mkN n 0 0) | None => None end.
Definition ncarry (s : nst) : nst := mkN (nz s) 0 0.
End Rule.
