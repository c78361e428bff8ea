(** The Hamiltonian as the user gives it, and what is measured with it: no MPO occurs here.
    An operator of the chain is a function [H]: H c c' is the element with |c> before and |c'> after it has acted. *)
From Coq Require Import List Arith Bool Reals.
From Verif Require Import Base FiniteMps FmpsSpec EffHamSpec ChainSpec Legs Cx GVec CorrSpec MpoGen MpoSpec MpoRunSpec.
Import ListNotations.
Local Open Scope nat_scope.

Section Spec.
Variable ds : list nat.                        (* physical dimensions *)
Variable H : list nat -> list nat -> cx.
Notation lsum := (lsum cx c0 cadd (configs ds)).
Definition hermitian : Prop := forall c c', In c (configs ds) -> In c' (configs ds) -> H c c' = cconj (H c' c).
(** <psi|H|psi>, <psi|psi> *)
Definition expectation (psi : list nat -> cx) : cx := lsum (fun c' => lsum (fun c => cmul (cmul (cconj (psi c')) (H c c')) (psi c))).
Definition norm_sq (psi : list nat -> cx) : cx := lsum (fun c => cmul (cconj (psi c)) (psi c)).
(** the real number <psi|H|psi> / <psi|psi> *)
Definition mean (psi : list nat -> cx) : real := (fst (expectation psi) / fst (norm_sq psi))%R.
(** <psi|H|psi> = e and <psi|psi> = 1 *)
Definition state_of_energy (psi : list nat -> cx) (e : real) : Prop := norm_sq psi = c1 /\ expectation psi = cre e.
(** no state has an energy below lam *)
Definition at_least (lam : real) : Prop := forall psi, (lam * fst (norm_sq psi) <= fst (expectation psi))%R.
(** H psi = E psi *)
Definition eigenvector (psi : list nat -> cx) (E : real) : Prop := forall c', In c' (configs ds) -> lsum (fun c => cmul (H c c') (psi c)) = cmul (cre E) (psi c').
End Spec.

(** an MPS with N tensors of three legs on sites with the dimensions ds; outer bonds have dimension one *)
Definition mps_on (N : nat) (ds : list nat) (ts : nat -> gten cx) : Prop :=
  (forall i, i < N -> exists a p b, gd cx (ts i) = [a; p; b]) /\ fit cx 1 (map (ten_of cx) (sites N ts)) 1 /\ map (@d1 cx) (map (ten_of cx) (sites N ts)) = ds.

(** the sum of the terms that were added: [total] of MpoRunSpec, for configurations given as lists *)
Definition sum_of_terms (reqb : cx -> cx -> bool) (small : cx -> bool) (phys : list nat) (calls : list (acall cx)) (ops : list (nat -> lop cx)) (c c' : list nat) : cx :=
  total cx c0 c1 cmul reqb small phys cadd calls ops (fun i => nth i c 0) (fun i => nth i c' 0).
(** amplitudes of an MPS of DMRG *)
Definition damp (N : nat) (ts : nat -> ten cx) (c : list nat) : cx := mps_mat cx c0 c1 cadd cmul (sites N ts) c 0 0.
