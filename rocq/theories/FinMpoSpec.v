(** What MPS and FiniteMPO operations mean, in terms of amplitudes and matrix elements *)
From Coq Require Import List Arith Bool ZArith.
From Verif Require Import Base FiniteMps FmpsSpec EffHam EffHamSpec FinMpo.
Import ListNotations.

Section Spec.
Variables (R : Type) (r0 r1 : R) (radd rmul : R -> R -> R) (conj : R -> R).
Infix "+r" := radd (at level 50, left associativity).
Infix "*r" := rmul (at level 40, left associativity).
Notation sumn := (sumn R r0 radd). Notation lsum := (lsum R r0 radd). Notation ten4 := (ten4 R).

(** amplitude of a configuration *)
Definition amp (ts : list (ten R)) (c : list nat) : R := mps_mat R r0 r1 radd rmul ts c 0 0.
(** a state on sites of dimensions [ds]: ends of dimension one, bonds match *)
Definition state_on (ds : list nat) (ts : list (ten R)) : Prop := fit R 1 ts 1 /\ map (@d1 R) ts = ds.
(** <b|a> *)
Definition overlap (ds : list nat) (ta tb : list (ten R)) : R := lsum (configs ds) (fun c => amp ta c *r conj (amp tb c)).

(** matrix elements: from configuration [c] to [c'] *)
Fixpoint o4_mat (ts : list ten4) (c c' : list nat) (x y : nat) : R :=
  match ts, c, c' with
  | [], [], [] => delta R r0 r1 x y
  | t :: ts, s :: c, s' :: c' => sumn (m3 t) (fun z => e4 t x s s' z *r o4_mat ts c c' z y)
  | _, _, _ => r0
  end.
Definition elem (ts : list ten4) (c c' : list nat) : R := o4_mat ts c c' 0 0.
Fixpoint fit4 (x : nat) (ts : list ten4) (y : nat) : Prop := match ts with [] => x = y | t :: ts => m0 t = x /\ fit4 (m3 t) ts y end.
(** an operator on sites of dimensions [ds] *)
Definition oper_on (ds : list nat) (ts : list ten4) : Prop := fit4 1 ts 1 /\ map (@m1 R) ts = ds /\ map (@m2 R) ts = ds.
(** the object holds these tensors *)
Definition holds4 (st : fmpo R) (ts : list ten4) : Prop := mtens st = map Some ts /\ length (mtypes st) = length ts.

(** operators as functions of two configurations: product (the second acts first), identity, powers, trace *)
Definition oper : Type := list nat -> list nat -> R.
Definition o_mul (ds : list nat) (A B : oper) : oper := fun c c' => lsum (configs ds) (fun k => A k c' *r B c k).
Definition o_id : oper := fun c c' => if list_eq_dec Nat.eq_dec c c' then r1 else r0.
Fixpoint o_pow (ds : list nat) (A : oper) (n : nat) : oper := match n with O => o_id | S n => o_mul ds (o_pow ds A n) A end.
Definition o_trace (ds : list nat) (A : oper) : R := lsum (configs ds) (fun c => A c c).
Fixpoint rpow (x : R) (n : nat) : R := match n with O => r1 | S n => x *r rpow x n end.
Fixpoint rnat (n : nat) : R := match n with O => r0 | S n => r1 +r rnat n end.
(** order n of the series of exp(x A), with [cf n] the inverse of n! *)
Definition exp_term (ds : list nat) (cf : nat -> R) (x : R) (A : oper) (n : nat) : oper := fun c c' => cf n *r rpow x n *r o_pow ds A n c c'.
Definition exp_sum (ds : list nat) (cf : nat -> R) (x : R) (A : oper) (K : nat) : oper := fun c c' => sumn K (fun n => exp_term ds cf x A n c c').

(** flags of a chain with center k *)
Definition flags_at (n k : nat) (ty : list cano) : Prop :=
  length ty = n /\ forall i, i < n -> nth_error ty i = Some (if i <? k then LEFT else if i =? k then NONE else RIGHT).
End Spec.
