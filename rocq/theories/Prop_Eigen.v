(** Properties C75, C76: two-site VMPS and two-site TDVP, without truncation, on eigenstates of the Hamiltonian.
    [eigenstate N ws ds psi E]: H psi = E psi for the operator of the MPO [ws]; [amp N ts c]: amplitude of the chain [ts];
    [times z ts' ts]: ts' is z times ts; [normalized ts' ts]: ts' is ts divided by its norm; [turn E t] = e^{-i E t}.
    There is no hypothesis about LAPACK: the solvers stop before they call it. *)
From Coq Require Import List Arith Bool Lia QArith Qreals Reals Lra.
From Verif Require Import Base Disk SweepSpec TwoSite TwoSiteFacts Tdvp TdvpSpec TdvpRun EffHamSpec ChainSpec Legs VmpsSpec Cx GVec ChainUpdate DmrgVarSpec DmrgVar DmrgVarInst ConserveSpec ConserveRun ConserveInst CorrUpdate CorrSpec CorrChain CorrRun CorrInst EigenSpec EigenRun EigenRecord EigenInst.
Import ListNotations.
Local Open Scope nat_scope.

Section Eigen.
Variable N : nat.
Variable ws : nat -> cg.                                     (* the MPO *)
Variable ds : list nat.                                      (* physical dimensions *)
Variables (stev : list real -> list real -> list real * list real) (maxit : nat) (size : list nat -> nat) (svd : nat -> cg -> cg * cg * cg).
(** Hermitian MPO; SVD is exact; max_iterations of the solvers is at least 2 *)
Hypothesis HH : hermitian_chain N ws ds.
Hypothesis ES : exact_gsvd svd.
Hypothesis Hmax : 2 <= maxit.
Notation chain := (chain N ws ds). Notation sq_norm := (sq_norm N). Notation holds := (holds N). Notation center_at := (center_at N). Notation mixed_at := (mixed_at N).
Notation eigen ts E := (eigenstate N ws ds (amp N ts) E). Notation times := (times N ds). Notation normalized := (normalized N ds).

Section Vmps.
Variable close : real -> real -> bool.                       (* convergence test of the eigenvalue solver *)
Variables (dT dE : res cg) (canoL canoR : res cg -> res cg -> res cg * res cg) (dbg : bool).
Notation upd := (v_update ws stev maxit size svd close).
Notation opts := (opts (res cg) (res cg) (res real) w_triv (w_grow ws) upd N).
Notation run := (run_two_site (res cg) (res cg) (res real) dT dE w_triv (w_grow ws) upd canoL canoR dbg).
Notation startable := (startable (res cg) (res cg) (res real) w_triv (w_grow ws) N).

(** C75: every update of every sweep reports E and leaves the state that it found, normalized *)
Theorem C75_updates : forall n rs ts e E, 3 <= N -> holds rs ts -> chain ts -> mixed_at 0 ts -> sq_norm ts <> c0 -> eigen ts E ->
  forall j, 1 <= j -> j <= length (all_bonds 0 (N - 1) n) -> let s := opts (firstn j (all_bonds 0 (N - 1) n)) (rs, e) in
  snd s = Some (Ok E) /\ exists ts', holds (fst s) ts' /\ chain ts' /\ eigen ts' E /\ normalized ts' ts.
Proof. intros n rs ts e E H3. exact (eigen_each_ok N ws ds HH stev maxit size svd ES Hmax E close (all_bonds 0 (N - 1) n) 0 0 rs ts e (path_all N 0 (N - 1) n ltac:(lia) ltac:(lia))). Qed.
(** a whole run on disk returns E and leaves the same state, normalized, whatever the number of sweeps and whether or not E is the lowest energy *)
Theorem C75_run : forall k rs ts w E, 3 <= N -> startable rs w -> holds rs ts -> chain ts -> mixed_at 0 ts -> sq_norm ts <> c0 -> eigen ts E ->
  exists w' rs' ts', run (S k) w = Ok (Ok E, w') /\ startable rs' w' /\ holds rs' ts' /\ chain ts' /\ mixed_at 0 ts' /\ normalized ts' ts.
Proof. intros k rs ts w E. exact (eigen_vmps_disk_ok N ws ds HH stev maxit size svd ES Hmax E close dT dE canoL canoR dbg k rs ts w). Qed.
End Vmps.

Section Tdvp.
Variable far : list cx -> list cx -> bool.                   (* convergence test of the exponential *)
Notation evo := (t_evo ws stev maxit size svd far). Notation back := (t_back ws stev maxit size far).
Notation evolve := (evolve (res cg) (res cg) w_triv (w_grow ws) evo back N). Notation after := (after (res cg) (res cg) w_triv (w_grow ws) evo back N).

(** C76: a time step that is cut after any of its substeps is the factor e^{-iEt} for the sum t of the times so far (forward ones count plus, backward
    ones minus); a whole step is e^{-iE tau} *)
Theorem C76_substeps : forall tau j c rs ts E, 3 <= N -> c <= 1 -> holds rs ts -> chain ts -> center_at c ts -> sq_norm ts <> c0 -> eigen ts E ->
  exists ts', holds (fold_left evolve (firstn j (schedule N tau)) rs) ts' /\ chain ts' /\ times (turn E (total (firstn j (schedule N tau)))) ts' ts.
Proof. intros tau j c rs ts E. exact (eigen_prefix_ok N ws ds HH stev maxit size svd ES Hmax E far tau j c rs ts). Qed.
(** k time steps are the factor e^{-i E k tau}: no Trotter error *)
Theorem C76_steps : forall tau k c rs ts E, 3 <= N -> c <= 1 -> holds rs ts -> chain ts -> center_at c ts -> sq_norm ts <> c0 -> eigen ts E ->
  exists ts', holds (after tau k rs) ts' /\ chain ts' /\ (exists c', c' <= 1 /\ center_at c' ts') /\ times (turn E (e_time_of tau k)) ts' ts.
Proof. intros tau k c rs ts E. exact (eigen_after_ok N ws ds HH stev maxit size svd ES Hmax E far tau k c rs ts). Qed.
Theorem C76_total : forall tau, (total (schedule N tau) == tau)%Q.
Proof. exact (total_schedule N). Qed.
End Tdvp.
End Eigen.

Section Record.
Variable N : nat.
Variable ws : nat -> cg.                                     (* the MPO *)
Variables (p : nat) (ds : list nat).                         (* physical dimensions: p on every site *)
Hypothesis Hds : ds = repeat p N.
Variables (stev : list real -> list real -> list real * list real) (maxit : nat) (size : list nat -> nat) (svd : nat -> cg -> cg * cg * cg) (qr : nat -> cg -> cg * cg) (far : list cx -> list cx -> bool).
Hypothesis HH : hermitian_chain N ws ds.
Hypothesis ES : exact_gsvd svd.
Hypothesis EQ : exact_qr qr.
Hypothesis Hmax : 2 <= maxit.
Variables (dT dE dM : res cg) (canoL : res cg -> res cg -> res cg * res cg) (dbg : bool).
Variables (op0 : cg) (str0 : option cg) (op1 : cg) (str1 : option cg) (e0 : real).      (* local_op0, inst0, local_op1, inst1, e0 *)
Hypotheses (Hop0 : square p op0) (Hstr0 : match str0 with Some g => square p g | None => True end) (Hop1 : square p op1) (Hstr1 : match str1 with Some g => square p g | None => True end).
Notation evo := (t_evo ws stev maxit size svd far). Notation back := (t_back ws stev maxit size far).
Notation run := (tdvp_run (res cg) (res cg) (res cg) (res cx) dT dE dM w_triv (w_grow ws) canoL (t_rcano qr) evo back dbg (t_act op0) (option_map t_act str0) m_triv m_triv m_right (m_left str1) (m_val op1) (m_phase e0)).
Notation O0 := (fun site => cstring N (str_of str0) (op_of op0) site). Notation O1 := (fun i => cstring N (str_of str1) (op_of op1) i).
(** a whole run on disk when phi = O0 |initial> is an eigenstate: the files hold e^{-i E T} phi, and entry (k, i) of the record is
    e^{i (e0 - E) t_k} <initial| O1_i |phi>, at every time *)
Theorem C76_record : forall site steps tau ini t0 mf rs ts w E, 3 <= N -> site < N -> idle (res cg) (res cg) N rs w -> holds N rs ts -> chain N ws ds ts -> (forall i, site < i < N -> cright (cten_of (ts i))) ->
  (match ini with Some f => (forall i, i < N -> f i = Some (Ok (t0 i))) /\ chain N ws ds t0 | None => t0 = ts end) ->
  let phi := capplied ds (O0 site) (amp N ts) in weight ds phi <> c0 -> eigenstate N ws ds phi E ->
  exists r w' ts', run true site steps tau ini mf w = Ok (r, w') /\ length r = N * (steps + 1) /\
  (forall i, i < N -> dm (res cg) (res cg) unit w' i = Some (Ok (ts' i))) /\ chain N ws ds ts' /\ (forall c, In c (configs ds) -> amp N ts' c = cmul (turn E (e_time_of tau steps)) (phi c)) /\
  (forall k i, k <= steps -> i < N -> nth_error r (k * N + i) = Some (Some (mkE (res cx) site i (e_time_of tau k) (Some (Ok (turned (e0 - E) (e_time_of tau k) (ccorr ds (O1 i) (amp N t0) phi))))))).
Proof. exact (eigen_record_ok N ws p ds Hds stev maxit size svd qr far HH ES EQ Hmax dT dE dM canoL dbg op0 str0 op1 str1 e0 Hop0 Hstr0 Hop1 Hstr1). Qed.
End Record.
Print Assumptions C75_updates.
Print Assumptions C75_run.
Print Assumptions C76_substeps.
Print Assumptions C76_steps.
Print Assumptions C76_total.
Print Assumptions C76_record.

(** three spins, H = X0 + X1 + X2: the highest state |+++> (energy 3), stored with norm 2.  VMPS returns 3 after any number of sweeps, with any LAPACK *)
Example C75_case : forall k stev, exists w' rs' ts',
  run_two_site (res cg) (res cg) (res real) Ub Ub w_triv (w_grow y_ws) (v_update y_ws stev 2 (fun _ => 10) y_svd (fun _ _ => false)) (fun a b => (a, b)) (fun a b => (a, b)) true (S k) q_w = Ok (Ok 3%R, w') /\
  startable (res cg) (res cg) (res real) w_triv (w_grow y_ws) 3 rs' w' /\ holds 3 rs' ts' /\ chain 3 y_ws [2; 2; 2] ts' /\ mixed_at 3 0 ts' /\ normalized 3 [2; 2; 2] ts' q_ts.
Proof.
  intros k stev. apply (C75_run 3 y_ws [2; 2; 2] stev 2 (fun _ => 10) y_svd y_herm y_svd_ok ltac:(lia) (fun _ _ => false) Ub Ub (fun a b => (a, b)) (fun a b => (a, b)) true k (fun i => Ok (q_ts i)) q_ts q_w 3%R); auto.
  - split; [reflexivity|]. split; [intros i _; reflexivity|]. split; [intros i _; reflexivity|]. intros H. discriminate.
  - intros i _. reflexivity.
  - apply q_chain.
  - exact q_mixed.
  - exact q_nz.
  - apply q_eigen_gen.
Qed.
Example C75_case_norm : sq_norm 3 q_ts = cre 4.
Proof. exact q_norm. Qed.
(** Z on spin 1 takes |+++> to |+-+> (energy 1): with e0 = 3 the entry of site 1 is e^{2 i k tau} after k steps, that of site 0 is 0 *)
Example C76_case : forall steps tau stev, exists r w',
  tdvp_run (res cg) (res cg) (res cg) (res cx) Ub Ub Ub w_triv (w_grow y_ws) (fun a b => (a, b)) (t_rcano y_qr) (t_evo y_ws stev 2 (fun _ => 10) y_svd (fun _ _ => false)) (t_back y_ws stev 2 (fun _ => 10) (fun _ _ => false)) true
    (t_act z_sign) None m_triv m_triv m_right (m_left None) (m_val z_sign) (m_phase 3) true 1 steps tau None fnone q_w1 = Ok (r, w') /\
  forall k, k <= steps -> nth_error r (k * 3 + 1) = Some (Some (mkE (res cx) 1 1 (e_time_of tau k) (Some (Ok (turned 2 (e_time_of tau k) c1))))) /\
  nth_error r (k * 3 + 0) = Some (Some (mkE (res cx) 1 0 (e_time_of tau k) (Some (Ok (turned 2 (e_time_of tau k) c0))))).
Proof.
  intros steps tau stev.
  destruct (C76_record 3 y_ws 2 [2; 2; 2] eq_refl stev 2 (fun _ => 10) y_svd y_qr (fun _ _ => false) y_herm y_svd_ok y_qr_ok ltac:(lia) Ub Ub Ub (fun a b => (a, b)) true z_sign None z_sign None 3 eq_refl I eq_refl I
    1 steps tau None q_one fnone (fun i => Ok (q_one i)) q_one q_w1 1) as [r [w' [ts' [R1 [_ [_ [_ [_ R6]]]]]]]]; auto.
  - repeat split.
  - intros i _. reflexivity.
  - apply q_chain.
  - intros i Hi. apply q_right. reflexivity.
  - exact q_weight.
  - apply q_minus.
  - exists r, w'. split; [exact R1|]. intros k Hk. destruct q_corr as [Q1 Q0]. replace (3 - 1)%R with 2%R in R6 by ring.
    split; [rewrite (R6 k 1 Hk ltac:(lia)), Q1|rewrite (R6 k 0 Hk ltac:(lia)), Q0]; reflexivity.
Qed.
