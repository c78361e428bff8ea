(** Time-dependent correlations in terms of amplitudes.
    An operator on one site is a function [o]: o s s' is the element with |s> before and |s'> after it has acted. *)
From Coq Require Import List Arith Bool QArith Qreals Reals.
From Verif Require Import Base FiniteMps FmpsSpec EffHam EffHamSpec ChainSpec Legs Cx.
Import ListNotations.
Local Open Scope nat_scope.

Section Spec.
Variables (R : Type) (r0 r1 : R) (radd rmul : R -> R -> R) (conj : R -> R).
Infix "*r" := rmul (at level 40, left associativity).
Notation lsum := (lsum R r0 radd). Notation mps_mat := (mps_mat R r0 r1 radd rmul). Notation delta := (delta R r0 r1).
Notation sop := (nat -> nat -> R).
(** an operator on site i with a string on the sites before it: what acts on site j *)
Definition site_op (str : option sop) (op : sop) (i j : nat) : sop :=
  if j =? i then op else if j <? i then match str with Some g => g | None => delta end else delta.
(** product of one-site operators: element between configurations of the whole chain *)
Fixpoint prod_op (os : list sop) (c c' : list nat) : R :=
  match os, c, c' with
  | [], [], [] => r1
  | o :: os, s :: c, s' :: c' => o s s' *r prod_op os c c'
  | _, _, _ => r0
  end.
Definition string_op (N : nat) (str : option sop) (op : sop) (i : nat) : list sop := map (site_op str op i) (seq 0 N).
(** amplitudes of O |psi> *)
Definition applied (ds : list nat) (os : list sop) (psi : list nat -> R) (c' : list nat) : R := lsum (configs ds) (fun c => prod_op os c c' *r psi c).
(** <phi| O |psi> *)
Definition corr (ds : list nat) (os : list sop) (phi psi : list nat -> R) : R := lsum (configs ds) (fun c' => conj (phi c') *r applied ds os psi c').
End Spec.

(** for complex numbers: the amplitudes of a chain; the sum of |psi(c)|^2; an operator with legs (in, out) *)
Definition amp (N : nat) (ts : nat -> gten cx) (c : list nat) : cx := mps_mat cx c0 c1 cadd cmul (map (ten_of cx) (sites N ts)) c 0 0.
Definition weight (ds : list nat) (psi : list nat -> cx) : cx := lsum cx c0 cadd (configs ds) (fun c => cmul (cconj (psi c)) (psi c)).
Definition op_of (o : gten cx) (s s' : nat) : cx := ge cx o [s; s'].
Definition str_of (str : option (gten cx)) : option (nat -> nat -> cx) := option_map op_of str.
Definition square (p : nat) (o : gten cx) : Prop := gd cx o = [p; p].
(** |v|^2 *)
Definition ab2 (v : cx) : R := (fst v * fst v + snd v * snd v)%R.
Notation cstring := (string_op cx c0 c1). Notation capplied := (applied cx c0 c1 cadd cmul). Notation ccorr := (corr cx c0 c1 cadd cmul cconj).
(** the adjoint of a product of operators *)
Definition adjoints (os : list (nat -> nat -> cx)) : list (nat -> nat -> cx) := map (fun o => fun s s' => cconj (o s' s)) os.
(** e^{i e0 t} *)
Definition turned (e0 : R) (t : Q) (v : cx) : cx := cmul v (cos (e0 * Q2R t), sin (e0 * Q2R t))%R.
