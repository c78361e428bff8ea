(** Eigenstates of the operator of a chain. *)
From Coq Require Import List Arith Bool QArith Qreals Reals.
From Verif Require Import Base Tdvp TdvpSpec FiniteMps FmpsSpec EffHam EffHamSpec ChainSpec Legs VmpsSpec Cx GVec ChainUpdate ConserveSpec CorrSpec.
Import ListNotations.
Local Open Scope nat_scope.

Section Spec.
Variable N : nat.
Variable ws : nat -> cg.
Variable ds : list nat.
(** H |psi> = E |psi> *)
Definition eigenstate (psi : list nat -> cx) (E : real) : Prop := forall c', In c' (configs ds) ->
  lsum cx c0 cadd (configs ds) (fun c => cmul (mpo_mat cx c0 c1 cadd cmul (map csite_of (sites N ws)) c c' 0 0) (psi c)) = cmul (cre E) (psi c').
(** the chain [ts'] is the chain [ts] times a number *)
Definition times (z : cx) (ts' ts : nat -> cg) : Prop := forall c, In c (configs ds) -> amp N ts' c = cmul z (amp N ts c).
(** [ts'] is [ts], normalized *)
Definition normalized (ts' ts : nat -> cg) : Prop := exists n, (0 < n)%R /\ sq_norm N ts = cre (n * n) /\ times (cre (/ n)) ts' ts.
End Spec.
(** the times of a sequence of substeps *)
Definition sub_time (s : sub) : Q := match s with Two _ _ t => t | One _ t => t end.
Definition total (ss : list sub) : Q := fold_right Qplus 0%Q (map sub_time ss).
(** e^{-i E t} *)
Definition turn (E : real) (t : Q) : cx := (cos (E * Q2R t), - sin (E * Q2R t))%R.
