(** Specification of TDVP runs that are repeated, or started again after the process died. *)
From Coq Require Import List Arith Bool QArith.
From Verif Require Import Base Disk SweepSpec Tdvp TdvpSpec.
Import ListNotations.
Local Open Scope nat_scope.

Section Spec.
Variables T E M V : Type.
Variables (triv : side -> E) (grow : side -> nat -> E -> T -> E).
Variable evo : bool -> nat -> Q -> E -> T -> T -> E -> T * T.
Variable back : nat -> Q -> E -> T -> E -> T.
Variable canoR : T -> T -> T * T.
Variable actO : T -> T.
Variable actI : option (T -> T).
Variable N : nat.
(** the chain when a time step has come to the right end: half steps on all bonds but the last *)
Definition halfway (tau : Q) (ts : nat -> T) : nat -> T :=
  fold_left (evolve T E triv grow evo back N) (flat_map (fun i => [Two true i (tau / 2)%Q; One (i + 1) (- tau / 2)%Q]) (seq 0 (N - 2))) ts.
(** the operator at a site and the string on the [m] sites before it *)
Definition partly (site m : nat) (ts : nat -> T) : nat -> T :=
  fun j => if j =? site then actO (ts j) else if (site - m <=? j) && (j <? site) then match actI with Some g => g (ts j) | None => ts j end else ts j.
(** the chain that a run starts to evolve when the files hold [ts] *)
Definition begun (site : nat) (ts : nat -> T) : nat -> T := center0 T canoR site (acted T actO actI site ts).

Variables (mtr mtl : M) (mgr : T -> T -> M -> M) (mgl : M -> T -> T -> M) (mval : M -> T -> T -> M -> V).
Variable phase : Q -> V -> V.
(** a record of [steps] time steps: entry (k, i) has the sites, the time k tau and the overlap of [bra] with the chain [ket k],
    with the phase of that time *)
Definition records (site steps : nat) (tau : Q) (bra : nat -> T) (ket : nat -> nat -> T) (r : list (option (entry V))) : Prop :=
  length r = N * (steps + 1) /\ forall k i, k <= steps -> i < N ->
    let t := (inject_Z (Z.of_nat k) * tau)%Q in let v := overlap_at T M V N mtr mtl mgr mgl mval (ket k) bra i in
    exists t', (t' == t)%Q /\ nth_error r (k * N + i) = Some (Some (mkE V site i t' (Some (if k =? 0 then v else phase t v)))).
End Spec.
