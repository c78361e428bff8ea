(** Properties C19 - C23: the disk-based two-site run (TwoSiteFiniteVMPS).
    [startable N ts w]: the tensors [ts] are in the MPS files, no tensor is in memory, and either there is no temporary directory
    or it holds the right environments of [ts] for up to N-2 sites and the trivial left environment.
    [sweeps_spec]: the same optimisation without files, every environment rebuilt from the tensors at each step. *)
From Coq Require Import List Arith Lia Bool.
From Verif Require Import Base Disk SweepSpec DiskFacts TwoSite TwoSiteFacts TwoSiteCrash SweepInst.
Import ListNotations.

Section Sweep.
Variables T E En : Type.                                  (* tensors, environments, energies *)
Variables (dT : T) (dE : E) (triv : side -> E) (grow : side -> nat -> E -> T -> E).
Variable solve : bool -> nat -> E -> T -> T -> E -> T * T * En.   (* any local solver *)
Variables canoL canoR : T -> T -> T * T.
Variable dbg : bool.                                      (* with or without assertions *)
Variable N : nat.
Notation world := (world T E En).
Notation run := (run_two_site T E En dT dE triv grow solve canoL canoR dbg).
Notation exec := (exec T E En dT dE triv grow solve canoL canoR dbg).
Notation startable := (startable T E En triv grow N).
Notation spec := (sweeps_spec T E En triv grow solve N 0 (N - 1)).
Notation dm := (dm T E En). Notation mm := (mm T E En). Notation tmp := (tmp T E En). Notation nm := (nm T E En).

(** C19: no missing file, no empty slot, no index out of range, no failing assertion: the run completes *)
Theorem C19_runs_complete : forall ts k w, 3 <= N -> startable ts w -> exists e w', run (S k) w = Ok (e, w').
Proof.
  intros ts k w HN HS. destruct (run_ok T E En dT dE triv grow solve canoL canoR dbg N ts k w HN HS) as [e [w' [H _]]]. exists e, w'. exact H.
Qed.
(** ... and outside that range it never returns a value: the energy of a run without any update is uninitialised *)
Theorem C19_two_sites_or_no_sweep_refuted : forall k w, nm w = 2 \/ (k = 0 /\ 2 <= nm w) -> forall r, run k w <> Ok r.
Proof. exact (run_undefined T E En dT dE triv grow solve canoL canoR dbg). Qed.

(** C20: at every moment at most two tensors in memory; at the end none, and the files hold the final chain *)
Theorem C20_memory_bound : forall k p q (w w' : world), 3 <= N -> two_site N k (tmp w) = p ++ q -> (forall i, mm w i = None) -> exec p w = Ok w' ->
  exists a b, forall i t, mm w' i = Some t -> i = a \/ i = b.
Proof. exact (fun k p q w w' HN => peak_ok T E En dT dE triv grow solve canoL canoR dbg N k (tmp w) p q w w' HN). Qed.
Theorem C20_everything_on_disk : forall ts k w, 3 <= N -> startable ts w -> exists e w', run (S k) w = Ok (e, w') /\
  forall i, i < N -> mm w' i = None /\ dm w' i = Some (fst (spec (S k) (ts, None)) i).
Proof.
  intros ts k w HN HS. destruct (run_ok T E En dT dE triv grow solve canoL canoR dbg N ts k w HN HS) as [e [w' [H [_ [[_ [H1 [H2 _]]] _]]]]].
  exists e, w'. split; [exact H|]. intros i Hi. split; [apply H1|apply H2]; exact Hi.
Qed.
(** C21: for every solver the result is the one obtained when each update gets the environments of all current tensors *)
Theorem C21_environments_are_current : forall ts k w, 3 <= N -> startable ts w -> exists e w', run (S k) w = Ok (e, w') /\
  snd (spec (S k) (ts, None)) = Some e /\ forall i, i < N -> dm w' i = Some (fst (spec (S k) (ts, None)) i).
Proof.
  intros ts k w HN HS. destruct (run_ok T E En dT dE triv grow solve canoL canoR dbg N ts k w HN HS) as [e [w' [H [HE [[_ [_ [H2 _]]] _]]]]].
  exists e, w'. split; [exact H|]. split; [exact HE|exact H2].
Qed.
(** C22 *)
Theorem C22_finished_runs_can_be_resumed : forall ks ts w, 3 <= N -> startable ts w -> exists es w', runs_two_site T E En dT dE triv grow solve canoL canoR dbg ks w = Ok (es, w') /\
  map Some es = fst (runs_spec T E En triv grow solve N ks ts) /\ startable (snd (runs_spec T E En triv grow solve N ks ts)) w'.
Proof. exact (runs_ok T E En dT dE triv grow solve canoL canoR dbg N). Qed.

(** C23: after [j] complete sweeps the process dies.
    From the first removal of an environment file to the end of the sweep: the next run always throws. *)
Theorem C23_crash_inside_a_sweep : forall ts w j p q k, 3 <= N -> startable ts w -> sweep N = p ++ q -> 4 <= length p -> q <> [] ->
  exists w', exec (prelude N (tmp w) ++ concat (repeat (sweep N) j) ++ p) (set_eng T E En None w) = Ok w' /\ run (S k) (crash T E En w') = Abort.
Proof. exact (crash_in_sweep T E En dT dE triv grow solve canoL canoR dbg N). Qed.
(** Between sweeps: the next run starts, but from a chain whose site 1 is whatever was on disk before *)
Theorem C23_crash_between_sweeps : forall ts w j p q, 3 <= N -> startable ts w -> sweep N = p ++ q -> length p < 4 ->
  exists w' t1, exec (prelude N (tmp w) ++ concat (repeat (sweep N) j) ++ p) (set_eng T E En None w) = Ok w' /\
    dm w' 1 = Some t1 /\ startable (fset (fst (spec j (ts, None))) 1 t1) (crash T E En w').
Proof. exact (crash_between_sweeps T E En dT dE triv grow solve canoL canoR dbg N). Qed.
(** While the first environments are being written: the directory exists, so the next run does not write them and throws *)
Theorem C23_crash_during_preparation : forall ts w p q k, 3 <= N -> startable ts w -> tmp w = false -> dl T E En w 0 = None ->
  Mkdir :: init_envs N 2 = p ++ q -> 1 <= length p -> 3 <= length q ->
  exists w', exec ([EmptyM] ++ p) (set_eng T E En None w) = Ok w' /\ run (S k) (crash T E En w') = Abort.
Proof. exact (crash_in_init T E En dT dE triv grow solve canoL canoR dbg N). Qed.
End Sweep.

(** concrete cases: a chain of four sites *)
Example C19_case : startable nat (list nat) (list nat * list nat) ex_triv ex_grow 4 ex_ts (ex_w 4) /\ 3 <= 4.
Proof. split; [exact ex_startable|lia]. Qed.
Example C19_case_result : match ex_run 2 (ex_w 4) with Ok (e, w) => map (dm _ _ _ w) [0; 1; 2; 3] =
   map (fun i => Some (fst (sweeps_spec _ _ _ ex_triv ex_grow ex_solve 4 0 3 2 (ex_ts, None)) i)) [0; 1; 2; 3] | _ => False end.
Proof. vm_compute. reflexivity. Qed.
(** a crash after the first sweep loses site 1: the restarted run sees the old tensor next to new neighbours *)
Example C23_stale_tensor : exists w', ex_exec (prelude 4 false ++ sweep 4) (ex_w 4) = Ok w' /\
  dm _ _ _ w' 1 = Some 5 /\ fst (sweeps_spec _ _ _ ex_triv ex_grow ex_solve 4 0 3 1 (ex_ts, None)) 1 = 12.
Proof. eexists. split; [vm_compute; reflexivity|]. split; reflexivity. Qed.
Example C23_cases : (exists p q, sweep 4 = p ++ q /\ 4 <= length p /\ q <> []) /\ (exists p q, Mkdir :: init_envs 4 2 = p ++ q /\ 1 <= length p /\ 3 <= length q).
Proof.
  split.
  - exists (firstn 9 (sweep 4)), (skipn 9 (sweep 4)). split; [symmetry; apply firstn_skipn|]. split; [simpl; lia|discriminate].
  - exists (firstn 6 (Mkdir :: init_envs 4 2)), (skipn 6 (Mkdir :: init_envs 4 2)). split; [symmetry; apply firstn_skipn|]. simpl. lia.
Qed.

Print Assumptions C19_runs_complete.
Print Assumptions C19_two_sites_or_no_sweep_refuted.
Print Assumptions C20_memory_bound.
Print Assumptions C20_everything_on_disk.
Print Assumptions C21_environments_are_current.
Print Assumptions C22_finished_runs_can_be_resumed.
Print Assumptions C23_crash_inside_a_sweep.
Print Assumptions C23_crash_between_sweeps.
Print Assumptions C23_crash_during_preparation.
