(** Properties C69, C70: without truncation, two-site TDVP conserves norm and energy and two-site VMPS never raises the energy.
    [chain]: the tensors fit together and to the MPO.  [holds]: the tensors of the run are defined and are the given ones.
    [steps_lapack], [opts_lapack]: LAPACK solves the small eigenvalue problems that it is given along the run. *)
From Coq Require Import List Arith Bool Lia QArith Qreals Reals.
From Verif Require Import Base Disk SweepSpec TwoSite TwoSiteFacts Tdvp TdvpSpec TdvpRun ChainSpec Legs VmpsSpec Cx GVec ChainUpdate DmrgVarSpec DmrgVar DmrgVarInst ConserveSpec ConserveRun ConserveVmps ConserveDisk ConserveInst.
Import ListNotations.
Local Open Scope nat_scope.

Section Conserve.
Variable N : nat.
Variable ws : nat -> cg.                                     (* the MPO *)
Variable ds : list nat.                                      (* physical dimensions *)
Variables (stev : list real -> list real -> list real * list real) (maxit : nat) (size : list nat -> nat) (svd : nat -> cg -> cg * cg * cg) (qr : nat -> cg -> cg * cg).
(** Hermitian MPO; SVD and QR are exact; max_iterations of the solvers is at least 2 *)
Hypothesis HH : hermitian_chain N ws ds.
Hypothesis ES : exact_gsvd svd.
Hypothesis EQ : exact_qr qr.
Hypothesis Hmax : 2 <= maxit.
Notation chain := (chain N ws ds). Notation sq_norm := (sq_norm N). Notation energy_val := (energy_val N ws). Notation holds := (holds N). Notation center_at := (center_at N). Notation mixed_at := (mixed_at N).
Notation energy_ratio := (energy_ratio N ws). Notation has_energy := (has_energy N ws).

Section Tdvp.
Variable far : list cx -> list cx -> bool.                   (* convergence test of the exponential *)
Variables (M V : Type) (dT dE : res cg) (dM : M) (canoL : res cg -> res cg -> res cg * res cg) (dbg : bool) (actO : res cg -> res cg) (actI : option (res cg -> res cg)).
Variables (mtr mtl : M) (mgr : res cg -> res cg -> M -> M) (mgl : M -> res cg -> res cg -> M) (mval : M -> res cg -> res cg -> M -> V) (phase : Q -> V -> V).
Notation evo := (t_evo ws stev maxit size svd far). Notation back := (t_back ws stev maxit size far).
Notation run := (tdvp_run (res cg) (res cg) M V dT dE dM w_triv (w_grow ws) canoL (t_rcano qr) evo back dbg actO actI mtr mtl mgr mgl mval phase).
Notation evolve := (evolve (res cg) (res cg) w_triv (w_grow ws) evo back N). Notation after := (after (res cg) (res cg) w_triv (w_grow ws) evo back N).
Notation acted := (acted (res cg) actO actI). Notation prepared site rs := (center0 (res cg) (t_rcano qr) site (acted site rs)).
Notation steps_lapack := (steps_lapack N ws stev maxit size svd far). Notation subs_lapack := (subs_lapack N ws stev maxit size svd far).

(** C69: a time step, also one that is cut after any of its substeps, changes neither <psi|psi> nor <psi|H|psi> *)
Theorem C69_substeps : forall tau j c rs ts, 3 <= N -> c <= 1 -> holds rs ts -> chain ts -> center_at c ts -> sq_norm ts <> c0 -> subs_lapack (firstn j (schedule N tau)) rs ->
  exists ts', holds (fold_left evolve (firstn j (schedule N tau)) rs) ts' /\ chain ts' /\ sq_norm ts' = sq_norm ts /\ energy_val ts' = energy_val ts.
Proof. exact (prefix_ok N ws ds HH stev maxit size svd ES Hmax far). Qed.
(** moving the center to site 0 does not either *)
Theorem C69_preparation : forall c rs ts, c < N -> holds rs ts -> chain ts -> (forall i, c < i < N -> cright (cten_of (ts i))) ->
  exists ts', holds (center0 (res cg) (t_rcano qr) c rs) ts' /\ chain ts' /\ center_at 0 ts' /\ sq_norm ts' = sq_norm ts /\ energy_val ts' = energy_val ts.
Proof. exact (center0_ok N ws ds qr EQ). Qed.
(** the states whose overlaps are recorded: after any number of steps, norm and energy are those of op |initial> *)
Theorem C69_steps : forall site tau n rs ta, 3 <= N -> site < N -> holds (acted site rs) ta -> chain ta -> (forall i, site < i < N -> cright (cten_of (ta i))) -> sq_norm ta <> c0 ->
  steps_lapack tau n (prepared site rs) -> forall k, k <= n ->
  exists ts', holds (after tau k (prepared site rs)) ts' /\ chain ts' /\ sq_norm ts' = sq_norm ta /\ energy_val ts' = energy_val ta.
Proof. exact (steps_ok N ws ds HH stev maxit size svd qr far ES EQ Hmax actO actI). Qed.
(** a whole run on disk: the files that it leaves *)
Theorem C69_run : forall site steps tau ini t0 mf rs w ta, 3 <= N -> site < N -> idle (res cg) (res cg) N rs w ->
  (match ini with Some f => forall i, i < N -> f i = Some (t0 i) | None => t0 = rs end) ->
  holds (acted site rs) ta -> chain ta -> (forall i, site < i < N -> cright (cten_of (ta i))) -> sq_norm ta <> c0 ->
  steps_lapack tau steps (prepared site rs) ->
  exists r w' ts', run true site steps tau ini mf w = Ok (r, w') /\ (forall i, i < N -> dm (res cg) (res cg) unit w' i = Some (Ok (ts' i))) /\
  chain ts' /\ sq_norm ts' = sq_norm ta /\ energy_val ts' = energy_val ta.
Proof. exact (tdvp_disk_ok N ws ds HH stev maxit size svd qr far ES EQ Hmax M V dT dE dM canoL dbg actO actI mtr mtl mgr mgl mval phase). Qed.
End Tdvp.

Section Vmps.
Variable close : real -> real -> bool.                       (* convergence test of the eigenvalue solver *)
Variables (dT dE : res cg) (canoL canoR : res cg -> res cg -> res cg * res cg) (dbg : bool).
Notation upd := (v_update ws stev maxit size svd close).
Notation opts := (opts (res cg) (res cg) (res real) w_triv (w_grow ws) upd N).
Notation run := (run_two_site (res cg) (res cg) (res real) dT dE w_triv (w_grow ws) upd canoL canoR dbg).
Notation startable := (startable (res cg) (res cg) (res real) w_triv (w_grow ws) N).
Notation opts_lapack := (opts_lapack N ws stev maxit size svd close).

(** C70: after every update the chain is normalized and the energy of the update is its expectation value; later energies are not above earlier
    ones, nor above the one before the first update (i = 0) *)
Theorem C70_updates : forall n rs ts e, 3 <= N -> holds rs ts -> chain ts -> mixed_at 0 ts -> sq_norm ts <> c0 -> opts_lapack (all_bonds 0 (N - 1) n) (rs, e) ->
  forall i j, i <= j -> j <= length (all_bonds 0 (N - 1) n) -> exists ti tj,
  let si := opts (firstn i (all_bonds 0 (N - 1) n)) (rs, e) in let sj := opts (firstn j (all_bonds 0 (N - 1) n)) (rs, e) in
  holds (fst si) ti /\ holds (fst sj) tj /\ chain tj /\ (1 <= j -> exists x, snd sj = Some (Ok x) /\ has_energy tj x) /\ (energy_ratio tj <= energy_ratio ti)%R.
Proof. intros n rs ts e H3. exact (vmps_energies_ok N ws ds HH stev maxit size svd close ES Hmax (all_bonds 0 (N - 1) n) 0 0 rs ts e (path_all N 0 (N - 1) n ltac:(lia) ltac:(lia))). Qed.
(** a whole run on disk: the returned energy is that of the chain in the files and not above that of the initial chain; the files can be used
    for a next run, to which the theorem applies again *)
Theorem C70_run : forall k rs ts w, 3 <= N -> startable rs w -> holds rs ts -> chain ts -> mixed_at 0 ts -> sq_norm ts <> c0 ->
  opts_lapack (all_bonds 0 (N - 1) (S k)) (rs, None) ->
  exists e w' rs' ts', run (S k) w = Ok (Ok e, w') /\ startable rs' w' /\ holds rs' ts' /\ chain ts' /\ mixed_at 0 ts' /\ has_energy ts' e /\ (e <= energy_ratio ts)%R.
Proof. exact (vmps_disk_ok N ws ds HH stev maxit size svd close ES Hmax dT dE canoL canoR dbg). Qed.
End Vmps.
End Conserve.
Print Assumptions C69_substeps.
Print Assumptions C69_preparation.
Print Assumptions C69_steps.
Print Assumptions C69_run.
Print Assumptions C70_updates.
Print Assumptions C70_run.

(** exact decompositions exist, and with two Krylov vectors LAPACK may be the formula of the two by two eigenproblem, for every MPO and chain *)
Example C69_case_exact : exact_gsvd y_svd /\ exact_qr y_qr.
Proof. exact (conj y_svd_ok y_qr_ok). Qed.
Example C69_case_lapack : forall N ws size svd far tau k rs, steps_lapack N ws stev2 2 size svd far tau k rs.
Proof. exact y_steps. Qed.
Example C70_case_lapack : forall N ws size svd close bs s, opts_lapack N ws stev2 2 size svd close bs s.
Proof. exact y_opts. Qed.
(** three spins with H = X0 + X1 + X2 in the state (3/5, 4/5), X acts on spin 1: any number of time steps *)
Example C69_case : hermitian_chain 3 y_ws [2; 2; 2] /\ chain 3 y_ws [2; 2; 2] y_ta /\ sq_norm 3 y_ta = c1 /\ energy_val 3 y_ws y_ta = cre (72 / 25).
Proof. exact (conj y_herm (conj y_ta_chain (conj (proj2 y_norms) (proj2 y_energies)))). Qed.
Example C69_case_run : forall steps tau, exists r w' ts',
  tdvp_run (res cg) (res cg) nat nat Ub Ub 0 w_triv (w_grow y_ws) (fun a b => (a, b)) (t_rcano y_qr) (t_evo y_ws stev2 2 (fun _ => 10) y_svd (fun _ _ => false)) (t_back y_ws stev2 2 (fun _ => 10) (fun _ _ => false)) true
    (t_act y_op) None 0 0 (fun _ _ m => m) (fun m _ _ => m) (fun m _ _ _ => m) (fun _ v => v) true 1 steps tau None fnone y_w = Ok (r, w') /\
  (forall i, i < 3 -> dm (res cg) (res cg) unit w' i = Some (Ok (ts' i))) /\ chain 3 y_ws [2; 2; 2] ts' /\ sq_norm 3 ts' = c1 /\ energy_val 3 y_ws ts' = cre (72 / 25).
Proof.
  intros steps tau. rewrite <- (proj2 y_norms), <- (proj2 y_energies).
  apply (C69_run 3 y_ws [2; 2; 2] stev2 2 (fun _ => 10) y_svd y_qr y_herm y_svd_ok y_qr_ok ltac:(lia) (fun _ _ => false) nat nat Ub Ub 0 (fun a b => (a, b)) true (t_act y_op) None 0 0 (fun _ _ m => m) (fun m _ _ => m) (fun m _ _ _ => m) (fun _ v => v)
    1 steps tau None (fun i => Ok (y_ts i)) fnone (fun i => Ok (y_ts i)) y_w y_ta); auto using y_acted, y_ta_chain, y_ta_right, y_steps.
  - repeat split.
  - exact (proj2 y_nz).
Qed.
Example C70_case_run : forall k, exists e w' rs' ts',
  run_two_site (res cg) (res cg) (res real) Ub Ub w_triv (w_grow y_ws) (v_update y_ws stev2 2 (fun _ => 10) y_svd (fun _ _ => false)) (fun a b => (a, b)) (fun a b => (a, b)) true (S k) y_w = Ok (Ok e, w') /\
  startable (res cg) (res cg) (res real) w_triv (w_grow y_ws) 3 rs' w' /\ holds 3 rs' ts' /\ chain 3 y_ws [2; 2; 2] ts' /\ mixed_at 3 0 ts' /\ has_energy 3 y_ws ts' e /\ (e <= energy_ratio 3 y_ws y_ts)%R.
Proof.
  intros k. apply (C70_run 3 y_ws [2; 2; 2] stev2 2 (fun _ => 10) y_svd y_herm y_svd_ok ltac:(lia) (fun _ _ => false) Ub Ub (fun a b => (a, b)) (fun a b => (a, b)) true k (fun i => Ok (y_ts i)) y_ts y_w); auto using y_chain, y_mixed, y_opts.
  - split; [reflexivity|]. split; [intros i _; reflexivity|]. split; [intros i _; reflexivity|]. intros H. discriminate.
  - intros i _. reflexivity.
  - exact (proj1 y_nz).
Qed.
