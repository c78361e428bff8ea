(** Property C74: two-site VMPS and two-site TDVP with a decomposition that drops singular values.
    [trunc_gsvd err svd]: the contract of a truncated SVD with relative discarded weight [err]; [capped_gsvd D svd]: it keeps at most D values.
    [left_by ts' e d ph]: ph is normalized with energy e, <ts'|ts'> = <ts'|ph> = 1 - d; [scaled k ts' ts]: <ts'|ts'> = k <ts|ts> with 0 < k <= 1.
    [along_lapack], [steps_lapack]: LAPACK solves the small eigenvalue problems that it is given along the run. *)
From Coq Require Import List Arith Bool Lia QArith Qreals Reals Lra.
From Verif Require Import Base Disk SweepSpec TwoSite TwoSiteFacts Tdvp TdvpSpec TdvpRun EffHamSpec ChainSpec Legs VmpsSpec Cx GVec ChainUpdate DmrgVarSpec DmrgVar DmrgVarInst ConserveSpec ConserveRun ConserveInst CorrSpec TruncUpdate TruncSpec TruncFacts TruncRun TruncInst TruncCase.
Import ListNotations.
Local Open Scope nat_scope.

Section Trunc.
Variable N : nat.
Variable ws : nat -> cg.                                     (* the MPO *)
Variable ds : list nat.                                      (* physical dimensions *)
Variables (stev : list real -> list real -> list real * list real) (maxit : nat) (size : list nat -> nat) (svd : nat -> cg -> cg * cg * cg) (err : cg -> real).
(** Hermitian MPO; the SVD keeps a part of its argument; max_iterations of the solvers is at least 2 *)
Hypothesis HH : hermitian_chain N ws ds.
Hypothesis ET : trunc_gsvd err svd.
Hypothesis Hmax : 2 <= maxit.
Notation chain := (chain N ws ds). Notation sq_norm := (sq_norm N). Notation energy_val := (energy_val N ws). Notation holds := (holds N). Notation center_at := (center_at N). Notation mixed_at := (mixed_at N).
Notation energy_ratio := (energy_ratio N ws). Notation has_energy := (has_energy N ws). Notation left_by := (left_by N ws ds). Notation scaled := (scaled N).

Section Vmps.
Variable close : real -> real -> bool.                       (* convergence test of the eigenvalue solver *)
Variables (dT dE : res cg) (canoL canoR : res cg -> res cg -> res cg * res cg) (dbg : bool).
Notation upd := (v_update_e ws stev maxit size svd err close).
Notation opts := (opts (res cg) (res cg) (res (real * real)) w_triv (w_grow ws) upd N).
Notation run := (run_two_site (res cg) (res cg) (res (real * real)) dT dE w_triv (w_grow ws) upd canoL canoR dbg).
Notation startable := (startable (res cg) (res cg) (res (real * real)) w_triv (w_grow ws) N).
Notation along_lapack := (along_lapack N ws stev maxit size svd err close).

(** C74: every update: the energy x that it reports is that of the normalized state ph before the truncation and is not above that of the chain
    that the update found; the chain that it leaves is not normalized, <psi|psi> = 1 - d with the truncation error d of this update *)
Theorem C74_updates : forall n rs ts e, 3 <= N -> holds rs ts -> chain ts -> mixed_at 0 ts -> sq_norm ts <> c0 -> along_lapack (all_bonds 0 (N - 1) n) rs ->
  forall i, i < length (all_bonds 0 (N - 1) n) -> exists ti tj x d ph,
  let si := opts (firstn i (all_bonds 0 (N - 1) n)) (rs, e) in let sj := opts (firstn (S i) (all_bonds 0 (N - 1) n)) (rs, e) in
  holds (fst si) ti /\ holds (fst sj) tj /\ snd sj = Some (Ok (x, d)) /\ left_by tj x d ph /\ (x <= energy_ratio ti)%R.
Proof. intros n rs ts e H3. exact (trunc_each_ok N ws ds HH stev maxit size svd err ET Hmax close (all_bonds 0 (N - 1) n) 0 0 rs ts e (path_all N 0 (N - 1) n ltac:(lia) ltac:(lia))). Qed.
(** a whole run on disk: it succeeds, leaves files for a next run, keeps the cap of the bond dimension on every bond; the stored chain has
    <psi|psi> = 1 - d with d the truncation error of the last update alone, and the returned e is the energy before that truncation *)
Theorem C74_run : forall k rs ts w, 3 <= N -> startable rs w -> holds rs ts -> chain ts -> mixed_at 0 ts -> sq_norm ts <> c0 -> along_lapack (all_bonds 0 (N - 1) (S k)) rs ->
  exists e d w' rs' ts' ph, run (S k) w = Ok (Ok (e, d), w') /\ startable rs' w' /\ holds rs' ts' /\ mixed_at 0 ts' /\ left_by ts' e d ph /\
  (forall D, capped_gsvd D svd -> forall l, l + 1 < N -> bond_dim ts' l <= D).
Proof. exact (trunc_disk_ok N ws ds HH stev maxit size svd err ET Hmax close dT dE canoL canoR dbg). Qed.
(** the returned energy is variational although the state has been truncated: never below a lower bound of the spectrum *)
Theorem C74_bound : forall k rs ts w e d w' lam, 3 <= N -> startable rs w -> holds rs ts -> chain ts -> mixed_at 0 ts -> sq_norm ts <> c0 -> along_lapack (all_bonds 0 (N - 1) (S k)) rs ->
  run (S k) w = Ok (Ok (e, d), w') -> bounded_below N ws ds lam -> (lam <= e)%R.
Proof.
  intros k rs ts w e d w' lam H3 HS HR HC HM NZ LA HRun HB. destruct (C74_run k rs ts w H3 HS HR HC HM NZ LA) as [e1 [d1 [w1 [rs' [ts' [ph [A1 [_ [_ [_ [[_ [_ [_ [P1 [P2 _]]]]] _]]]]]]]]]]].
  rewrite HRun in A1. injection A1 as <- _ _. exact (bounded_has N ws ds lam ph e HB P1 P2).
Qed.
End Vmps.

Section Tdvp.
Variable far : list cx -> list cx -> bool.                   (* convergence test of the exponential *)
Variable qr : nat -> cg -> cg * cg.
Hypothesis EQ : exact_qr qr.
Variables (M V : Type) (dT dE : res cg) (dM : M) (canoL : res cg -> res cg -> res cg * res cg) (dbg : bool) (actO : res cg -> res cg) (actI : option (res cg -> res cg)).
Variables (mtr mtl : M) (mgr : res cg -> res cg -> M -> M) (mgl : M -> res cg -> res cg -> M) (mval : M -> res cg -> res cg -> M -> V) (phase : Q -> V -> V).
Notation evo := (t_evo ws stev maxit size svd far). Notation back := (t_back ws stev maxit size far).
Notation run := (tdvp_run (res cg) (res cg) M V dT dE dM w_triv (w_grow ws) canoL (t_rcano qr) evo back dbg actO actI mtr mtl mgr mgl mval phase).
Notation evolve := (evolve (res cg) (res cg) w_triv (w_grow ws) evo back N). Notation after := (after (res cg) (res cg) w_triv (w_grow ws) evo back N).
Notation prepared site rs := (center0 (res cg) (t_rcano qr) site (acted (res cg) actO actI site rs)).
Notation kept_all := (kept_all N ws stev maxit size svd err far). Notation kept_steps := (kept_steps N ws stev maxit size svd err far).
Notation subs_lapack := (subs_lapack N ws stev maxit size svd far). Notation steps_lapack := (steps_lapack N ws stev maxit size svd far).

(** time evolution loses norm: after any number of substeps <psi|psi> is the initial one times the product of 1 - d over all two-site substeps so far *)
Theorem C74_substeps : forall tau j c rs ts, 3 <= N -> c <= 1 -> holds rs ts -> chain ts -> center_at c ts -> sq_norm ts <> c0 -> subs_lapack (firstn j (schedule N tau)) rs ->
  exists ts', holds (fold_left evolve (firstn j (schedule N tau)) rs) ts' /\ chain ts' /\ scaled (kept_all (firstn j (schedule N tau)) rs) ts' ts.
Proof. exact (trunc_prefix_ok N ws ds HH stev maxit size svd err ET Hmax far). Qed.
(** the same for the states whose overlaps are recorded *)
Theorem C74_steps : forall site tau n rs ta, 3 <= N -> site < N -> holds (acted (res cg) actO actI site rs) ta -> chain ta -> (forall i, site < i < N -> cright (cten_of (ta i))) -> sq_norm ta <> c0 ->
  steps_lapack tau n (prepared site rs) -> forall k, k <= n ->
  exists ts', holds (after tau k (prepared site rs)) ts' /\ chain ts' /\ scaled (kept_steps tau k (prepared site rs)) ts' ta /\
  (1 <= k -> forall D l, capped_gsvd D svd -> l + 1 < N -> bond_dim ts' l <= D).
Proof. exact (trunc_steps_ok N ws ds HH stev maxit size svd err ET Hmax far qr EQ actO actI). Qed.
(** a whole run on disk: the files that it leaves *)
Theorem C74_evolution : forall site steps tau ini t0 mf rs w ta, 3 <= N -> site < N -> idle (res cg) (res cg) N rs w ->
  (match ini with Some f => forall i, i < N -> f i = Some (t0 i) | None => t0 = rs end) ->
  holds (acted (res cg) actO actI site rs) ta -> chain ta -> (forall i, site < i < N -> cright (cten_of (ta i))) -> sq_norm ta <> c0 ->
  steps_lapack tau steps (prepared site rs) ->
  exists r w' ts', run true site steps tau ini mf w = Ok (r, w') /\ (forall i, i < N -> dm (res cg) (res cg) unit w' i = Some (Ok (ts' i))) /\
  chain ts' /\ scaled (kept_steps tau steps (prepared site rs)) ts' ta /\ (1 <= steps -> forall D l, capped_gsvd D svd -> l + 1 < N -> bond_dim ts' l <= D).
Proof. exact (trunc_tdvp_disk_ok N ws ds HH stev maxit size svd err ET Hmax far qr EQ M V dT dE dM canoL dbg actO actI mtr mtl mgr mgl mval phase). Qed.
End Tdvp.
End Trunc.
(** the update of C70 is the same update without the truncation error *)
Theorem C74_update : forall ws stev maxit size svd err close rt l el a b er,
  v_update ws stev maxit size svd close rt l el a b er = let '(x, y, e) := v_update_e ws stev maxit size svd err close rt l el a b er in (x, y, let! e := e in Ok (fst e)).
Proof. exact update_same. Qed.
(** The returned energy is not that of the stored state, and the stored state is not normalized.  Three spins with H = - X_1 X_2 in the eigenstate
    |0> (|00> + |11>) / sqrt 2 of energy -1, one singular value per bond: a sweep returns -1 and leaves |000> / sqrt 2 with <psi|H|psi> = 0.
    This holds for every LAPACK and every convergence test. *)
Theorem C74_energy_refuted : forall stev maxit size close dT dE canoL canoR dbg, 2 <= maxit -> exists N ws ds svd err w w' rs' ts' e d,
  hermitian_chain N ws ds /\ trunc_gsvd err svd /\
  run_two_site (res cg) (res cg) (res (real * real)) dT dE w_triv (w_grow ws) (v_update_e ws stev maxit size svd err close) canoL canoR dbg 1 w = Ok (Ok (e, d), w') /\
  startable (res cg) (res cg) (res (real * real)) w_triv (w_grow ws) N rs' w' /\ holds N rs' ts' /\ chain N ws ds ts' /\
  e = (-1)%R /\ d = (1 / 2)%R /\ sq_norm N ts' = cre (1 / 2) /\ energy_val N ws ts' = c0.
Proof.
  intros stev maxit size close dT dE canoL canoR dbg Hmax. destruct (o_run stev maxit size close Hmax dT dE canoL canoR dbg) as [w' [rs' [ts' [A1 [A2 [A3 [A4 [A5 A6]]]]]]]].
  exists 3, o_ws, [2; 2; 2], r_svd, r_err, o_w, w', rs', ts', (-1)%R, (1 / 2)%R. split; [exact o_herm|]. split; [exact r_svd_ok|]. split; [exact A1|]. split; [exact A2|]. split; [exact A3|]. split; [exact A4|]. split; [reflexivity|]. split; [reflexivity|]. split; [exact A5|exact A6].
Qed.
Print Assumptions C74_updates.
Print Assumptions C74_run.
Print Assumptions C74_bound.
Print Assumptions C74_substeps.
Print Assumptions C74_steps.
Print Assumptions C74_evolution.
Print Assumptions C74_update.
Print Assumptions C74_energy_refuted.

(** a decomposition that keeps one row; exact ones truncate by 0; LAPACK as in C69, C70 *)
Example C74_case_svd : trunc_gsvd r_err r_svd /\ capped_gsvd 1 r_svd /\ trunc_gsvd (fun _ => 0%R) y_svd.
Proof. exact (conj r_svd_ok (conj r_capped (exact_trunc y_svd y_svd_ok))). Qed.
Example C74_case_lapack : forall N ws size svd err close bs rs, along_lapack N ws stev2 2 size svd err close bs rs.
Proof. exact r_along. Qed.
(** the spectrum of - X_1 X_2 is not below -1 *)
Example C74_case_bound : bounded_below 3 o_ws [2; 2; 2] (-1).
Proof. exact o_bounded. Qed.
(** three spins, H = X0 + X1 + X2, one singular value per bond *)
Example C74_case_run : forall k, exists e d w' rs' ts' ph,
  run_two_site (res cg) (res cg) (res (real * real)) Ub Ub w_triv (w_grow y_ws) (v_update_e y_ws stev2 2 (fun _ => 10) r_svd r_err (fun _ _ => false)) (fun a b => (a, b)) (fun a b => (a, b)) true (S k) y_w = Ok (Ok (e, d), w') /\
  startable (res cg) (res cg) (res (real * real)) w_triv (w_grow y_ws) 3 rs' w' /\ holds 3 rs' ts' /\ mixed_at 3 0 ts' /\ left_by 3 y_ws [2; 2; 2] ts' e d ph /\
  (forall D, capped_gsvd D r_svd -> forall l, l + 1 < 3 -> bond_dim ts' l <= D).
Proof.
  intros k. apply (C74_run 3 y_ws [2; 2; 2] stev2 2 (fun _ => 10) r_svd r_err y_herm r_svd_ok ltac:(lia) (fun _ _ => false) Ub Ub (fun a b => (a, b)) (fun a b => (a, b)) true k (fun i => Ok (y_ts i)) y_ts y_w); auto using y_chain, y_mixed, r_along.
  - split; [reflexivity|]. split; [intros i _; reflexivity|]. split; [intros i _; reflexivity|]. intros H. discriminate.
  - intros i _. reflexivity.
  - exact (proj1 y_nz).
Qed.
Example C74_case_evolution : forall steps tau, exists r w' ts',
  tdvp_run (res cg) (res cg) nat nat Ub Ub 0 w_triv (w_grow y_ws) (fun a b => (a, b)) (t_rcano y_qr) (t_evo y_ws stev2 2 (fun _ => 10) r_svd (fun _ _ => false)) (t_back y_ws stev2 2 (fun _ => 10) (fun _ _ => false)) true
    (t_act y_op) None 0 0 (fun _ _ m => m) (fun m _ _ => m) (fun m _ _ _ => m) (fun _ v => v) true 1 steps tau None fnone y_w = Ok (r, w') /\
  (forall i, i < 3 -> dm (res cg) (res cg) unit w' i = Some (Ok (ts' i))) /\ chain 3 y_ws [2; 2; 2] ts' /\ (1 <= steps -> forall l, l + 1 < 3 -> bond_dim ts' l <= 1).
Proof.
  intros steps tau.
  destruct (C74_evolution 3 y_ws [2; 2; 2] stev2 2 (fun _ => 10) r_svd r_err y_herm r_svd_ok ltac:(lia) (fun _ _ => false) y_qr y_qr_ok nat nat Ub Ub 0 (fun a b => (a, b)) true (t_act y_op) None 0 0 (fun _ _ m => m) (fun m _ _ => m) (fun m _ _ _ => m) (fun _ v => v)
    1 steps tau None (fun i => Ok (y_ts i)) fnone (fun i => Ok (y_ts i)) y_w y_ta) as [r [w' [ts' [A1 [A2 [A3 [_ A5]]]]]]]; auto using y_acted, y_ta_chain, y_ta_right, y_steps.
  - repeat split.
  - exact (proj2 y_nz).
  - exists r, w', ts'. split; [exact A1|]. split; [exact A2|]. split; [exact A3|]. intros HS l Hl. exact (A5 HS 1 l r_capped Hl).
Qed.
