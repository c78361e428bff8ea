(** What "noised two-site VMPS never raises the energy" speaks about, besides ConserveSpec. *)
From Coq Require Import List Arith Bool QArith Qreals Reals.
From Verif Require Import Base Disk SweepSpec NoiseSpec FiniteMps FmpsSpec EffHam EffHamSpec Legs VmpsLocal VmpsSpec Cx GVec ChainUpdate DmrgVarSpec ConserveSpec SingleUpdate NoiseUpdate.
Import ListNotations.
Local Open Scope nat_scope.

(** the V of the decomposition that stands in for the MPO tensor has the legs of that tensor except for the first *)
Definition mock_legs (mock : cg -> cg) : Prop := forall t a b c d, cgd t = [a; b; c; d] -> exists K, cgd (mock t) = [K; b; c; d].
(** QR gives no more columns than there are rows (the first two legs of the tensor) *)
Definition thin_qr (qr : nat -> cg -> cg * cg) : Prop := forall x a p b, cgd x = [a; p; b] -> forall K, cgd (fst (qr 2 x)) = [a; p; K] -> K <= a * p.

(** the boundaries: the state has no more than Dmax dimensions on the sites before lb (behind rb), or the middle of the chain is reached *)
Fixpoint prod (ds : list nat) : nat := match ds with [] => 1 | d :: ds => d * prod ds end.
Definition left_limit (N : nat) (ds : list nat) (Dmax lb : nat) : Prop :=
  2 * lb + 3 <= N /\ (forall j, j < lb -> prod (firstn (j + 1) ds) <= Dmax) /\ (Dmax < prod (firstn (lb + 1) ds) \/ N <= 2 * lb + 4).
Definition right_limit (N : nat) (ds : list nat) (Dmax rb : nat) : Prop :=
  rb < N /\ N + 1 <= 2 * rb /\ (forall j, rb < j < N -> prod (skipn j ds) <= Dmax) /\ (Dmax < prod (skipn rb ds) \/ 2 * rb <= N + 2).

Section Spec.
Variables alpha dec inc mx : real.
Variable N : nat.
Variable ws : nat -> cg.
Variables (stev : list real -> list real -> list real * list real) (maxit : nat) (size : list nat -> nat) (svd : nat -> cg -> cg * cg * cg) (close : real -> real -> bool).
Variables (covered : bool -> cg -> cg -> bool) (normal : cg -> bool) (mock : cg -> cg).
Notation upd := (n_update alpha dec inc mx ws stev maxit size svd close covered normal mock).
Notation opt3 := (opt3 (res cg) (res cg) (res s1st) w_triv (w_grow ws) upd N).
Notation opts3 := (opts3 (res cg) (res cg) (res s1st) w_triv (w_grow ws) upd N).
Notation lenv := (left_env (res cg) (res cg) w_triv (w_grow ws)). Notation renv := (right_env (res cg) (res cg) w_triv (w_grow ws) N).
(** LAPACK solves the small eigenvalue problems of an update of the bond of sites l and l+1, of a sequence of updates, of sweeps *)
Definition at_lapack3 (l : nat) (rs : nat -> res cg) : Prop :=
  forall el a b er x, lenv rs l = Ok el -> rs l = Ok a -> rs (l + 1) = Ok b -> renv rs (N - (l + 2)) = Ok er ->
    gcontract cx c0 cadd cmul [2] [0] a b = Ok x -> eig_lapack_ok stev maxit size close (cgd x) (h_two ws l el er (cgd x)) (cge x).
Fixpoint opts3_lapack (bs : list (bool * nat)) (s : (nat -> res cg) * res s1st) : Prop :=
  match bs with [] => True | q :: bs => at_lapack3 (snd q) (fst s) /\ opts3_lapack bs (opt3 q s) end.
Variable preset : nat -> option (res s1st).
Fixpoint sweeps3_lapack (lb rb n k0 : nat) (s : (nat -> res cg) * option (res s1st)) : Prop :=
  match n with
  | O => True
  | S m =>
    match (match preset k0 with Some x => Some x | None => option_map s_carry (snd s) end) with
    | Some x => opts3_lapack (bonds lb rb) (fst s, x) /\ (let r := opts3 (bonds lb rb) (fst s, x) in sweeps3_lapack lb rb m (S k0) (fst r, Some (snd r)))
    | None => True
    end
  end.
End Spec.
