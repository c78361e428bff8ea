(** Specification of DMRG runs: sweeps on a chain in memory (SweepSpec), signals as a set of arrival times. *)
From Coq Require Import List Arith Bool.
From Verif Require Import Base Disk SweepSpec NoiseSpec Dmrg.
Import ListNotations.

(** a request is visible to load number t when one was pending at the start (load c0) or arrived before load t *)
Definition visible (arr : nat -> bool) (c0 : nat) (pending : bool) (t : nat) : Prop := pending = true \/ exists u, c0 <= u <= t /\ arr u = true.

Section Spec.
Variable T : Type.
Variable canoR : T -> T -> T * T.
(** move the orthogonality center from site c to site 0 *)
Fixpoint center_to_0 (c : nat) (ts : nat -> T) : nat -> T :=
  match c with O => ts | S c => center_to_0 c (set2 T ts c (canoR (ts c) (ts (S c)))) end.

(** a group of operators is completely on disk *)
Definition on_file {C} (op : side -> nat -> nat -> option C) (s : side) (n : nat) (g : list C) : Prop :=
  forall c, c < length g -> op s n c = nth_error g c.
End Spec.

Section Runs.
Variables T C En : Type.
Notation dst := (dst T C En).
Notation W := (W T C En). Notation op := (op T C En). Notation stp := (stp T C En). Notation emg := (emg T C En). Notation clk := (clk T C En).
Variable N : nat.
(** every tensor is on disk in its latest version; what is in memory is the same *)
Definition complete (ts : nat -> T) (d : dst) : Prop :=
  on_disk T unit En N ts (W d) /\ forall j, j < N -> mm T unit En (W d) j = None \/ mm T unit En (W d) j = Some (ts j).
(** requests seen by the t-th load of a flag: SIGUSR1/2 or SIGINT/SIGTERM; SIGINT/SIGTERM *)
Definition sees_stop (arr : nat -> bool * bool) (d : dst) (t : nat) : Prop := visible (fun u => fst (arr u) || snd (arr u)) (clk d) (stp d) t.
Definition sees_emg (arr : nat -> bool * bool) (d : dst) (t : nat) : Prop := visible (fun u => snd (arr u)) (clk d) (emg d) t.
Definition no_emergency (arr : nat -> bool * bool) (d : dst) : Prop := emg d = false /\ forall u, clk d <= u -> snd (arr u) = false.
(** the loads of a run that started in d: one after each update of a sweep and two after each sweep *)
Definition updates (lb rb : nat) : nat := length (bonds lb rb).
Definition sweep_start (lb rb : nat) (d : dst) (q : nat) : nat := clk d + q * (updates lb rb + 2).

Variables (cols : nat -> nat) (trivc : side -> C) (growc : side -> nat -> list C -> T -> list C).
Variables (canoL canoR : T -> T -> T * T) (bigL smallL bigR smallR : T -> bool) (combL combR : T -> T -> T * T).
(** the tensor of site m in memory and all others on disk; the operators that a sweep needs, of the tensors [ts], on disk *)
Definition on_disk_but (m : nat) (ts : nat -> T) (d : dst) : Prop :=
  (forall j, j < N -> mm T unit En (W d) j = if j =? m then Some (ts j) else None) /\ (forall j, j < N -> j <> m -> dm T unit En (W d) j = Some (ts j)).
Definition ops_on_file (lb rb : nat) (ts : nat -> T) (d : dst) : Prop :=
  (forall n, N - 1 - rb <= n <= N - 2 - lb -> on_file (op d) R n (right_env T (list C) (fun s => [trivc s]) growc N ts n)) /\
  on_file (op d) L lb (left_env T (list C) (fun s => [trivc s]) growc ts lb).
(** files of the MPS [ts] for all N sites, nothing in memory, the preparation gives the chain [ts0] and the boundaries; operators that
    an earlier run left in the temporary directory, if complete, belong to [ts0] *)
Definition ready (ts ts0 : nat -> T) (lb rb : nat) (d : dst) : Prop :=
  3 <= N /\ prep T canoL canoR bigL smallL bigR smallR combL combR N ts = (lb, rb, ts0) /\
  nm T unit En (W d) = N /\ mem_empty T unit En N (W d) /\ on_disk T unit En N ts (W d) /\
  (tmp T unit En (W d) = true -> (forall n c, N - 1 - rb <= n <= N - 2 - lb -> c < cols (N - 1 - n) -> op d R n c <> None) ->
   forall n, N - rb < n <= N - 2 - lb -> on_file (op d) R n (right_env T (list C) (fun s => [trivc s]) growc N ts0 n)).
End Runs.
