(** The contractions of the time-dependent correlations with numbers: algorithm/tdvp/two_site_update_finite_tdvp_impl.h, CalPsi1OpPsi2 541-630,
    and the phase of line 194.  b: tensor of the initial state, a: tensor of the evolved state.

    Simplifications: the real numbers of the standard library (no rounding); quantum numbers and index directions are left out; the trivial
    tensors are made for the ends of a chain (dimension one).  A tensor that cannot be computed (legs that do not fit) is [Ub]. *)
From Coq Require Import List Arith Bool QArith Qreals Reals.
From Verif Require Import Base FiniteMps FmpsSpec EffHam Legs Cx GVec ChainUpdate.
Import ListNotations.
Local Open Scope nat_scope.

Section Gen.
Variables (R : Type) (r0 r1 : R) (radd rmul : R -> R -> R) (conj : R -> R).
Notation gten := (gten R). Notation gcontract := (gcontract R r0 radd rmul). Notation gdag := (gdag R conj).
(** 560-563, 585-589 *)
Definition o_triv : gten := mkG R [1; 1] (fun _ => r1).
(** 575-578 *)
Definition o_right (b a r : gten) : res gten :=
  let! t := gcontract [2] [0] (gdag b) r in gcontract [1; 2] [1; 2] t a.
(** 606-608: the conjugated tensor with what is left of it *)
Definition o_bra (l b : gten) : res gten := gcontract [0] [0] (gdag b) l.
(** 615-623; [inst]: None is the default tensor *)
Definition o_left (inst : option gten) (l b a : gten) : res gten :=
  let! t1 := o_bra l b in
  match inst with
  | None => gcontract [2; 0] [0; 1] t1 a
  | Some o => let! t2 := gcontract [1] [0] o t1 in gcontract [2; 0] [0; 1] t2 a
  end.
(** 608-612 *)
Definition o_val (op : gten) (l b a r : gten) : res R :=
  let! t1 := o_bra l b in
  let! t2 := gcontract [1] [0] op t1 in
  let! t3 := gcontract [2; 0] [0; 1] t2 a in
  let! t4 := gcontract [0; 1] [0; 1] t3 r in
  gscalar R t4.
End Gen.

Definition m_triv : res cg := Ok (o_triv cx c1).
Definition m_right (b a r : res cg) : res cg := let! b := b in let! a := a in let! r := r in o_right cx c0 cadd cmul cconj b a r.
Definition m_left (inst : option cg) (l b a : res cg) : res cg := let! l := l in let! b := b in let! a := a in o_left cx c0 cadd cmul cconj inst l b a.
Definition m_val (op : cg) (l b a r : res cg) : res cx := let! l := l in let! b := b in let! a := a in let! r := r in o_val cx c0 cadd cmul cconj op l b a r.
(** correlation[i] * complex_exp(i e0 time), line 194 *)
Definition m_phase (e0 : real) (t : Q) (v : res cx) : res cx := let! v := v in Ok (cmul v (cos (e0 * Q2R t), sin (e0 * Q2R t))%R).
