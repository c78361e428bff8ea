(** Which of the two-site VMPS algorithms a call runs: algorithm/finite_vmps_sweep_params.h 31-81, the entry of TwoSiteFiniteVMPS
    (algorithm/vmps/two_site_update_finite_vmps_impl.h 96-105) and of its distributed version
    (algo_mpi/vmps/two_site_update_finite_vmps_mpi_impl_master.h 67-90, two_site_update_noised_finite_vmps_mpi_impl.h 57-80).
    Numbers are IEEE doubles (SpecFloat of the standard library). *)
From Coq Require Import List Arith Bool Floats.SpecFloat.
From Verif Require Import Base Disk TwoSite VmpsInit Noise.
Import ListNotations.
Local Open Scope nat_scope.

(** the fields of FiniteVMPSSweepParams that the choice depends on *)
Record sparams : Type := mkS { p_sweeps : nat; p_valid : bool; p_noises : list spec_float }.
(** std::abs(noise) > 0.0, line 72 *)
Definition above0 (x : spec_float) : bool := SFltb (S754_zero false) (SFabs x).
(** the constructor without noises, 32-50 *)
Definition params_plain (sweeps : nat) : sparams := mkS sweeps false [].
(** the constructor with noises, 52-81: the loop returns at the first noise that is not zero *)
Fixpoint any_above0 (l : list spec_float) : bool := match l with [] => false | x :: l => if above0 x then true else any_above0 l end.
Definition params_noised (sweeps : nat) (noises : list spec_float) : sparams :=
  mkS sweeps (if length noises =? 0 then false else any_above0 noises) noises.
(** all fields are public: an assignment after construction changes nothing else *)
Definition assign_noises (noises : list spec_float) (p : sparams) : sparams := mkS (p_sweeps p) (p_valid p) noises.

Section Select.
Variables T E St : Type.
Variables (dT : T) (dE : E) (triv : side -> E) (grow : side -> nat -> E -> T -> E).
Variables (canoL canoR : T -> T -> T * T) (bigL smallL bigR smallR : T -> bool) (combL combR : T -> T -> T * T).
Variable solve3 : bool -> nat -> E -> T -> T -> E -> T -> St -> T * T * T * St.
Variable start : spec_float -> St.      (* noise_start of a sweep and the energies it starts with *)
Variable carry : St -> St.
Variable solve2 : bool -> nat -> E -> T -> T -> E -> T * T * St.
Variable dbg : bool.
(** TwoSiteFiniteVMPS: 101-105 of the serial version; noise number k is read by 111-113 of two_site_update_noise_finite_vmps_impl.h *)
Definition preset_of (p : sparams) (k : nat) : option St := match p_noises p with [] => None | l => option_map start (nth_error l k) end.
Definition two_site_vmps (p : sparams) (w : world T E St) : res (St * world T E St) :=
  if p_valid p then
    let! w := exec T E St dT dE triv grow solve2 canoL canoR dbg [EmptyM] w in
    run_noise T E St dT dE triv grow canoL canoR bigL smallL bigR smallR combL combR solve3 (preset_of p) carry solve2 dbg (length (p_noises p) =? 0) (p_sweeps p) w
  else run_two_site T E St dT dE triv grow solve2 canoL canoR dbg (p_sweeps p) w.
End Select.

(** the choice alone; [Both]: the run without noise and then the one with noise *)
Inductive algo : Type := Plain | Noised | Both | Exit.
Definition serial_algo (p : sparams) : algo := if p_valid p then (if length (p_noises p) =? 0 then Both else Noised) else Plain.
(** the distributed version: one process takes the serial function; noise_valid with an empty list ends the process *)
Definition mpi_algo (procs : nat) (p : sparams) : algo :=
  if procs =? 1 then serial_algo p
  else if p_valid p then (if length (p_noises p) =? 0 then (if p_valid p then Exit else Both) else Noised) else Plain.
