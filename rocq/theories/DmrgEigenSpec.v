(** Eigenstates of the operator of a chain in the form that DMRG uses (MPO as matrices of operators). *)
From Coq Require Import List Arith Bool Reals.
From Verif Require Import Base Disk SweepSpec FiniteMps FmpsSpec EffHam EffHamSpec ChainSpec Cx DmrgUpdate DmrgVarSpec DmrgTruncSpec.
Import ListNotations.
Local Open Scope nat_scope.

Section Spec.
Variable N : nat.
Variable ws : nat -> cmpo.
Variable ds : list nat.
(** H |psi> = E |psi> *)
Definition d_eigenstate (psi : list nat -> cx) (E : real) : Prop := forall c', In c' (configs ds) ->
  lsum cx c0 cadd (configs ds) (fun c => cmul (mpo_mat cx c0 c1 cadd cmul (sites N ws) c c' 0 0) (psi c)) = cmul (cre E) (psi c').
(** the chain [ts'] is the chain [ts] divided by its norm n *)
Definition d_unit (ts' ts : nat -> cten) : Prop := exists n, (0 < n)%R /\ cnorm2 (sites N ts) = cre (n * n) /\
  forall c, In c (configs ds) -> coef N ts' c = cmul (cre (/ n)) (coef N ts c).
End Spec.
