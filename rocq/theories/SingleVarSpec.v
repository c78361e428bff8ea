(** What "single-site VMPS never raises the energy" speaks about, besides ConserveSpec. *)
From Coq Require Import List Arith Bool QArith Qreals Reals.
From Verif Require Import Base Disk SweepSpec SingleSpec FiniteMps FmpsSpec EffHam EffHamSpec Legs VmpsLocal VmpsSpec Cx GVec ChainUpdate DmrgVarSpec ConserveSpec SingleUpdate.
Import ListNotations.
Local Open Scope nat_scope.

(** a decomposition of tensors of one site without truncation: with the first two legs as rows and with the first one *)
Definition exact_gsvd1 (svd : nat -> cg -> cg * cg * cg) : Prop := forall x D0 p D2, cgd x = [D0; p; D2] ->
  (factors cx c0 cadd cmul svd 2 x x /\ cleft (cten_of (fst (fst (svd 2 x))))) /\ (factors cx c0 cadd cmul svd 1 x x /\ cright (cten_of (snd (svd 1 x)))).

Section Spec.
Variables alpha dec inc mx : real.
Variable N : nat.
Variable ws : nat -> cg.
Variables (stev : list real -> list real -> list real * list real) (maxit : nat) (size : list nat -> nat) (svd : nat -> cg -> cg * cg * cg) (close : real -> real -> bool).
Notation opt1 := (opt1 (res cg) (res cg) (res s1st) w_triv (w_grow ws) (s_update alpha dec inc mx N ws stev maxit size svd close) N).
Notation opts1 := (opts1 (res cg) (res cg) (res s1st) w_triv (w_grow ws) (s_update alpha dec inc mx N ws stev maxit size svd close) N).
Notation lenv := (left_env (res cg) (res cg) w_triv (w_grow ws)). Notation renv := (right_env (res cg) (res cg) w_triv (w_grow ws) N).
(** LAPACK solves the small eigenvalue problems of an update of site i, of a sequence of updates, of sweeps *)
Definition at_lapack1 (i : nat) (rs : nat -> res cg) : Prop :=
  forall el a er, lenv rs i = Ok el -> rs i = Ok a -> renv rs (N - 1 - i) = Ok er -> eig_lapack_ok stev maxit size close (cgd a) (h_one ws i el er (cgd a)) (cge a).
Fixpoint opts1_lapack (bs : list (bool * nat)) (s : (nat -> res cg) * res s1st) : Prop :=
  match bs with [] => True | q :: bs => at_lapack1 (snd q) (fst s) /\ opts1_lapack bs (opt1 q s) end.
Variable noise : nat -> option (res s1st).
Fixpoint sweeps1_lapack (n k0 : nat) (s : (nat -> res cg) * option (res s1st)) : Prop :=
  match n with
  | O => True
  | S m =>
    match begin1 (res s1st) noise s_carry k0 (snd s) with
    | Some x => opts1_lapack (sites1 N) (fst s, x) /\ (let r := opts1 (sites1 N) (fst s, x) in sweeps1_lapack m (S k0) (fst r, Some (snd r)))
    | None => True
    end
  end.
End Spec.
