(** C89: the noises of the sweep parameters decide which two-site VMPS runs *)
From Coq Require Import List Arith Lia Bool ZArith Floats.SpecFloat.
From Verif Require Import Base Disk SweepSpec DiskFacts TwoSite TwoSiteFacts VmpsInit NoiseSpec VmpsInitFacts Noise NoiseFacts NoiseMore NoiseInst VmpsSelect VmpsSelectFacts.
Import ListNotations.
Local Open Scope nat_scope.

Section C89.
Variables T E St : Type.
Variables (dT : T) (dE : E) (triv : side -> E) (grow : side -> nat -> E -> T -> E).
Variables (canoL canoR : T -> T -> T * T) (bigL smallL bigR smallR : T -> bool) (combL combR : T -> T -> T * T).
Variable solve3 : bool -> nat -> E -> T -> T -> E -> T -> St -> T * T * T * St.
Variable start : spec_float -> St.
Variable carry : St -> St.
Variable solve2 : bool -> nat -> E -> T -> T -> E -> T * T * St.
Variable dbg : bool.
Variable N : nat.
Notation two_site_vmps := (two_site_vmps T E St dT dE triv grow canoL canoR bigL smallL bigR smallR combL combR solve3 start carry solve2 dbg).
Notation run_two_site := (run_two_site T E St dT dE triv grow solve2 canoL canoR dbg).
Notation prep := (prep T canoL canoR bigL smallL bigR smallR combL combR N).

(** some noise is neither zero nor NaN: the run with noise; sweep k starts with noise k, and later sweeps go on with what the noise has become *)
Theorem C89_noised : forall sweeps noises x ts w lb rb ts1, In x noises -> (forall s, x <> S754_zero s) -> x <> S754_nan ->
  3 <= N -> nm T E St w = N -> mem_empty T E St N w -> on_disk T E St N ts w -> prep ts = (lb, rb, ts1) -> envs_fresh T E St triv grow N ts1 lb rb w ->
  exists ts2 s w', sweeps3 T E St triv grow solve3 N (fun k => option_map start (nth_error noises k)) carry lb rb (S sweeps) 0 (ts1, None) = (ts2, Some s) /\
    two_site_vmps (params_noised (S sweeps) noises) w = Ok (s, w') /\
    mem_empty T E St N w' /\ on_disk T E St N (set2 T ts2 lb (canoL (ts2 lb) (ts2 (lb + 1)))) w'.
Proof. exact (select_noised T E St dT dE triv grow canoL canoR bigL smallL bigR smallR combL combR solve3 start carry solve2 dbg N). Qed.
(** no noises, or only zeroes (of either sign) and NaN: the run without noise *)
Theorem C89_plain : forall sweeps noises w, Forall (fun x => (exists s, x = S754_zero s) \/ x = S754_nan) noises ->
  two_site_vmps (params_noised sweeps noises) w = run_two_site sweeps w /\ two_site_vmps (params_plain sweeps) w = run_two_site sweeps w.
Proof. exact (select_plain T E St dT dE triv grow canoL canoR bigL smallL bigR smallR combL combR solve3 start carry solve2 dbg). Qed.
(** finding: noises assigned to parameters that were made without noise have no effect *)
Theorem C89_assigned_refuted : forall sweeps noises w, two_site_vmps (assign_noises noises (params_plain sweeps)) w = run_two_site sweeps w.
Proof. exact (select_assigned T E St dT dE triv grow canoL canoR bigL smallL bigR smallR combL combR solve3 start carry solve2 dbg). Qed.
(** finding: with the noises taken away again the call never returns a result *)
Theorem C89_cleared_refuted : forall sweeps noises x w r, In x noises -> (forall s, x <> S754_zero s) -> x <> S754_nan ->
  two_site_vmps (assign_noises [] (params_noised sweeps noises)) w <> Ok r.
Proof. exact (select_cleared T E St dT dE triv grow canoL canoR bigL smallL bigR smallR combL combR solve3 start carry solve2 dbg). Qed.
End C89.
Print Assumptions C89_noised.
Print Assumptions C89_plain.
Print Assumptions C89_assigned_refuted.
Print Assumptions C89_cleared_refuted.
(** the distributed version chooses as the serial one for parameters as they are constructed, with any number of processes *)
Theorem C89_processes : forall procs sweeps noises,
  mpi_algo procs (params_noised sweeps noises) = serial_algo (params_noised sweeps noises) /\ mpi_algo procs (params_plain sweeps) = serial_algo (params_plain sweeps) /\
  (serial_algo (params_noised sweeps noises) = Noised <-> exists x, In x noises /\ (forall s, x <> S754_zero s) /\ x <> S754_nan) /\
  (serial_algo (params_noised sweeps noises) = Plain <-> Forall (fun x => (exists s, x = S754_zero s) \/ x = S754_nan) noises).
Proof. exact select_processes. Qed.
Print Assumptions C89_processes.
(** finding: not for parameters changed later *)
Theorem C89_processes_refuted : exists p, serial_algo p <> mpi_algo 2 p /\ p = assign_noises [] (params_noised 3 [S754_finite false 1%positive 0%Z]).
Proof. eexists. split; [|reflexivity]. discriminate. Qed.
(** -0.0, NaN and an infinite noise; a noise that no sweep reaches *)
Theorem C89_case : serial_algo (params_noised 2 [S754_zero true; S754_nan]) = Plain /\ serial_algo (params_noised 2 [S754_zero false; S754_infinity true]) = Noised /\
  serial_algo (params_noised 2 [S754_zero false; S754_zero false; S754_finite true 5%positive (-4)%Z]) = Noised.
Proof. repeat split; reflexivity. Qed.
(** five numbers, two sweeps: with a noise the updates of three sites run, with zeroes those of two sites; the noise is used in the first sweep *)
Definition c89_run (noises : list spec_float) := two_site_vmps nat (list nat) (list (list nat)) 0 [] (fun _ => []) (fun _ _ e t => t :: e) n_cano n_cano
  (fun a => 5 <? a) (fun a => a <? 3) (fun _ => true) (fun a => a <? 3) n_cano n_cano n_solve3 (fun x => if above0 x then [[100]] else [[200]]) (fun s => s)
  (fun _ l el a b er => ((a + 1) mod 11, (b + 1) mod 11, [[l]])) true (params_noised 2 noises) (nw 5).
Theorem C89_case_runs : nm _ _ _ (nw 5) = 5 /\ mem_empty _ _ _ 5 (nw 5) /\ on_disk _ _ _ 5 (fun i => i + 3) (nw 5) /\
  (forall lb rb ts1, envs_fresh nat (list nat) (list (list nat)) (fun _ => []) (fun _ _ e t => t :: e) 5 ts1 lb rb (nw 5)) /\
  (exists s w, c89_run [S754_finite false 1%positive (-3)%Z] = Ok (s, w) /\ In [100] s /\ 2 <= length s) /\
  (exists s w, c89_run [S754_zero false; S754_finite false 1%positive (-3)%Z] = Ok (s, w) /\ In [100] s) /\
  (exists w, c89_run [S754_zero false; S754_zero true] = Ok ([[1]], w)).
Proof.
  split; [reflexivity|]. split; [intros i _; reflexivity|]. split; [intros i _; reflexivity|]. split; [intros lb rb ts1 H; discriminate|].
  split; [eexists; eexists; split; [vm_compute; reflexivity|]; split; [cbn; tauto|cbn; lia]|].
  split; [eexists; eexists; split; [vm_compute; reflexivity|]; cbn; tauto|]. eexists. vm_compute. reflexivity.
Qed.
