(** Property C72: without truncation noised two-site VMPS never raises the energy, whatever the noise; the noise is what the user preset unless
    energies are positive; the range of the sweeps depends on the physical dimensions and the maximal bond dimension only.
    [chain]: the tensors fit together and to the MPO.  [holds]: the tensors of the run are defined and are the given ones.
    [opts3_lapack], [sweeps3_lapack]: LAPACK solves the small eigenvalue problems that it is given along the run. *)
From Coq Require Import List Arith Bool Lia QArith Qreals Reals Lra.
From Verif Require Import Base Disk SweepSpec NoiseSpec Noise NoiseFacts VmpsInitFacts ChainSpec Legs VmpsSpec Cx GVec ChainUpdate DmrgVarSpec DmrgVarInst ConserveSpec ConserveVmps ConserveInst SingleUpdate SingleVarSpec SingleVarRun SingleVarInst NoiseUpdate NoiseVarSpec NoiseVarPrep NoiseVarRun NoiseVarBounds NoiseVarInst.
Import ListNotations.
Local Open Scope nat_scope.

Section Noised.
Variables alpha dec inc mx : real.                           (* parameters of the noise rule, any numbers *)
Variable N : nat.
Variable ws : nat -> cg.                                     (* the MPO *)
Variable ds : list nat.                                      (* physical dimensions *)
Variables (stev : list real -> list real -> list real * list real) (maxit : nat) (size : list nat -> nat) (svd : nat -> cg -> cg * cg * cg) (close : real -> real -> bool).
Variables (covered : bool -> cg -> cg -> bool) (normal : cg -> bool) (mock : cg -> cg).   (* when and how bonds are enlarged *)
(** Hermitian MPO; the SVD is exact; the stand-in for the MPO tensor has its legs; max_iterations of the solver is at least 2 *)
Hypothesis HH : hermitian_chain N ws ds.
Hypothesis ES : exact_gsvd svd.
Hypothesis HM : mock_legs mock.
Hypothesis Hmax : 2 <= maxit.
Notation chain := (chain N ws ds). Notation sq_norm := (sq_norm N). Notation energy_val := (energy_val N ws). Notation holds := (holds N). Notation center_at := (center_at N). Notation mixed_at := (mixed_at N).
Notation energy_ratio := (energy_ratio N ws). Notation has_energy := (has_energy N ws).
Notation upd := (n_update alpha dec inc mx ws stev maxit size svd close covered normal mock).
Notation opts3 := (opts3 (res cg) (res cg) (res s1st) w_triv (w_grow ws) upd N).
Notation opts3_lapack := (opts3_lapack alpha dec inc mx N ws stev maxit size svd close covered normal mock).

(** after every update of a sweep between lb and rb, whatever the noise is, the chain is normalized and the energy of the update is its
    expectation value; later energies are not above earlier ones, nor above the one before the first update (i = 0) *)
Theorem C72_updates : forall rs ts s lb rb, lb + 2 <= rb -> rb < N -> holds rs ts -> chain ts -> mixed_at lb ts -> sq_norm ts <> c0 -> opts3_lapack (bonds lb rb) (rs, Ok s) ->
  forall i j, i <= j -> j <= length (bonds lb rb) -> exists ti tj,
  let si := opts3 (firstn i (bonds lb rb)) (rs, Ok s) in let sj := opts3 (firstn j (bonds lb rb)) (rs, Ok s) in
  holds (fst si) ti /\ holds (fst sj) tj /\ chain tj /\ (1 <= j -> exists x, snd sj = Ok x /\ has_energy tj (s_e0 x)) /\ (energy_ratio tj <= energy_ratio ti)%R.
Proof. intros rs ts s lb rb H1 H2. exact (energies3_ok alpha dec inc mx N ws ds HH stev maxit size svd close covered normal mock ES HM Hmax (bonds lb rb) lb lb rs ts s (path3_bonds N lb rb H1 H2)). Qed.
(** the noise after any update of a sweep that starts with noise n: never raised, and lowered (once) exactly if the energy before the sweep is positive *)
Theorem C72_noise : forall rs ts n lb rb, lb + 2 <= rb -> rb < N -> holds rs ts -> chain ts -> mixed_at lb ts -> sq_norm ts <> c0 -> opts3_lapack (bonds lb rb) (rs, Ok (mkS1 n 0 0)) ->
  forall j, 1 <= j -> j <= length (bonds lb rb) -> exists x, snd (opts3 (firstn j (bonds lb rb)) (rs, Ok (mkS1 n 0 0))) = Ok x /\
  s_nz x = if Rle_dec (fst (energy_val ts)) 0 then n else (n * dec)%R.
Proof.
  intros rs ts n lb rb R1 R2 HR HC HX HZ HL j H1 Hj.
  destruct (noise3_ok alpha dec inc mx N ws ds HH stev maxit size svd close covered normal mock ES HM Hmax (bonds lb rb) lb lb rs ts n (path3_bonds N lb rb R1 R2) HR HC HX HZ HL j H1 Hj) as [x [A B]].
  exists x. split; [exact A|]. rewrite B. unfold rle. destruct (Rle_dec (fst (energy_val ts)) 0); reflexivity.
Qed.

Variable noises : list real.                                 (* sweep_params.noises *)
Hypothesis HNs : noises <> [].
Variables (dT dE : res cg) (qr : nat -> cg -> cg * cg) (Dmax : nat) (solve2 : bool -> nat -> res cg -> res cg -> res cg -> res cg -> res cg * res cg * res s1st) (dbg : bool).
Hypothesis EQ : exact_qr qr.
Hypothesis TQ : thin_qr qr.
Notation preset := (n_preset noises).
Notation run := (run_noise (res cg) (res cg) (res s1st) dT dE w_triv (w_grow ws) (n_lcano qr) (t_rcano qr) (n_big 0 1 Dmax) (n_small 0 1 2) (n_big 1 2 Dmax) (n_small 1 2 0) n_combL n_combR upd preset s_carry solve2 dbg false).
Notation prep := (prep (res cg) (n_lcano qr) (t_rcano qr) (n_big 0 1 Dmax) (n_small 0 1 2) (n_big 1 2 Dmax) (n_small 1 2 0) n_combL n_combR N).
Notation envs_fresh := (envs_fresh (res cg) (res cg) (res s1st) w_triv (w_grow ws) N).
Notation sweeps3_lapack := (sweeps3_lapack alpha dec inc mx N ws stev maxit size svd close covered normal mock preset).
(** the preparation: which sites the sweeps cover; the state and its energy stay as they are *)
Theorem C72_boundaries : forall rs ts lb rb rs1, 3 <= N -> holds rs ts -> chain ts -> prep rs = (lb, rb, rs1) -> (forall j, lb + 1 < j < N -> cright (cten_of (ts j))) ->
  left_limit N ds Dmax lb /\ right_limit N ds Dmax rb /\ exists ts1, holds rs1 ts1 /\ chain ts1 /\ center_at (lb + 1) ts1 /\ sq_norm ts1 = sq_norm ts /\ energy_val ts1 = energy_val ts.
Proof.
  intros rs ts lb rb rs1 H3 HR HC HP HL.
  destruct (prep_bounds N ws ds _ _ _ _ Dmax (lcano_goes qr EQ) (rcano_goes qr EQ) combL_goes combR_goes (lcano_legs qr EQ TQ) (rcano_legs qr EQ TQ) combL_legs combR_legs rs ts lb rb rs1 H3 HR HC HP) as [A B].
  destruct (prep_ok N ws ds _ _ _ _ _ _ _ _ (lcano_goes qr EQ) (rcano_goes qr EQ) combL_goes combR_goes rs ts lb rb rs1 H3 HR HC HP HL) as [t1 [C1 [[C2 [C3 C4]] C5]]].
  split; [exact A|]. split; [exact B|]. exists t1. split; [exact C1|]. split; [exact C2|]. split; [exact C5|]. split; [exact C3|exact C4].
Qed.
(** a whole run on disk: the returned energy is that of the chain in the files and not above that of the initial chain; a next run gets the same
    boundaries, and what is asked of the chain holds again.  The noise of the last update is the preset in force if the initial energy is not
    positive, and is multiplied by noise_decrease once for each sweep since if the final energy is positive *)
Theorem C72_run : forall k rs ts w lb rb rs1, 3 <= N -> nm _ _ _ w = N -> mem_empty (res cg) (res cg) (res s1st) N w -> on_disk (res cg) (res cg) (res s1st) N rs w -> prep rs = (lb, rb, rs1) -> envs_fresh rs1 lb rb w ->
  holds rs ts -> chain ts -> (forall j, lb + 1 < j < N -> cright (cten_of (ts j))) -> sq_norm ts <> c0 -> sweeps3_lapack lb rb (S k) 0 (rs1, None) ->
  exists x w' rs' ts', run (S k) w = Ok (Ok x, w') /\ nm _ _ _ w' = N /\ mem_empty (res cg) (res cg) (res s1st) N w' /\ on_disk (res cg) (res cg) (res s1st) N rs' w' /\
  holds rs' ts' /\ chain ts' /\ has_energy ts' (s_e0 x) /\ (s_e0 x <= energy_ratio ts)%R /\
  (forall lb' rb' rs2, prep rs' = (lb', rb', rs2) -> lb' = lb /\ rb' = rb) /\ (forall j, lb + 1 < j < N -> cright (cten_of (ts' j))) /\
  let last := Nat.min k (length noises - 1) in
  ((energy_ratio ts <= 0)%R -> s_nz x = nth last noises 0%R) /\ ((0 < s_e0 x)%R -> s_nz x = (nth last noises 0 * dec ^ (S (k - last)))%R).
Proof.
  intros k rs ts w lb rb rs1 H3 W1 W2 W3 HP HF HR HC HL HZ HLA.
  destruct (noise_run_ok alpha dec inc mx N ws ds HH stev maxit size svd close covered normal mock ES HM Hmax noises HNs dT dE qr Dmax solve2 dbg EQ k rs ts w lb rb rs1 H3 W1 W2 W3 HP HF HR HC HL HZ HLA)
    as [x [w' [rs' [ts' [A1 [A2 [A3 [A4 [A5 [A6 [A7 [A8 [A9 A10]]]]]]]]]]]]].
  exists x, w', rs', ts'. split; [exact A1|]. split; [exact A2|]. split; [exact A3|]. split; [exact A4|]. split; [exact A5|]. split; [exact A6|]. split; [exact A8|]. split; [exact A9|]. split; [|split; [exact (proj2 A7)|exact A10]].
  intros lb' rb' rs2 HP'.
  assert (PB := fun r t l b r1 => prep_bounds N ws ds _ _ _ _ Dmax (lcano_goes qr EQ) (rcano_goes qr EQ) combL_goes combR_goes (lcano_legs qr EQ TQ) (rcano_legs qr EQ TQ) combL_legs combR_legs r t l b r1 H3).
  destruct (PB _ _ _ _ _ HR HC HP) as [L1 L2]. destruct (PB _ _ _ _ _ A5 A6 HP') as [M1 M2]. split; [exact (left_unique _ _ _ _ _ M1 L1)|exact (right_unique _ _ _ _ _ M2 L2)].
Qed.
End Noised.
Print Assumptions C72_updates.
Print Assumptions C72_noise.
Print Assumptions C72_boundaries.
Print Assumptions C72_run.

(** the decompositions and LAPACK, as for C70 and C71; the tensor itself may stand in for the MPO tensor *)
Example C72_case_exact : exact_gsvd y_svd /\ exact_qr y_qr /\ thin_qr y_qr /\ mock_legs (fun t => t).
Proof. exact (conj y_svd_ok (conj y_qr_ok (conj y_thin y_mock))). Qed.
Example C72_case_lapack : forall al dec inc mx N ws size svd close covered normal mock preset lb rb n k0 s, sweeps3_lapack al dec inc mx N ws stev2 2 size svd close covered normal mock preset lb rb n k0 s.
Proof. exact y_sweeps3. Qed.
(** six sites with dimensions 2, 3, 2, 2, 2, 2: between which sites the sweeps run *)
Example C72_case_limits : left_limit 6 [2; 3; 2; 2; 2; 2] 5 1 /\ right_limit 6 [2; 3; 2; 2; 2; 2] 5 4 /\ left_limit 6 [2; 3; 2; 2; 2; 2] 1 0 /\ right_limit 6 [2; 3; 2; 2; 2; 2] 1 5.
Proof.
  unfold left_limit, right_limit. repeat split; try lia; cbn; try lia.
  - intros j Hj. replace j with 0 by lia. cbn. lia.
  - intros j Hj. replace j with 5 by lia. cbn. lia.
Qed.
(** three spins with H = X0 + X1 + X2 in the state (3/5, -4/5), energy -72/25; bonds are enlarged at every update with noise; presets 1/10 and 1/100 *)
Example C72_case : hermitian_chain 3 y_ws [2; 2; 2] /\ chain 3 y_ws [2; 2; 2] z_ts /\ mixed_at 3 0 z_ts /\ has_energy 3 y_ws z_ts (- (72 / 25)).
Proof. exact (conj y_herm (conj z_chain (conj z_mixed z_has))). Qed.
Example C72_case_run : forall k Dmax, exists x w' rs' ts',
  run_noise (res cg) (res cg) (res s1st) Ub Ub w_triv (w_grow y_ws) (n_lcano y_qr) (t_rcano y_qr) (n_big 0 1 Dmax) (n_small 0 1 2) (n_big 1 2 Dmax) (n_small 1 2 0) n_combL n_combR
    (n_update (1 / 2) (9 / 10) (11 / 10) 1 y_ws stev2 2 (fun _ => 10) y_svd (fun _ _ => false) (fun _ _ _ => false) (fun _ => true) (fun t => t))
    (n_preset [(1 / 10)%R; (1 / 100)%R]) s_carry (fun _ _ _ _ _ _ => (Ub, Ub, Ub)) true false (S (S k)) (chain_w z_ts) = Ok (Ok x, w') /\
  on_disk (res cg) (res cg) (res s1st) 3 rs' w' /\ holds 3 rs' ts' /\ has_energy 3 y_ws ts' (s_e0 x) /\ (s_e0 x <= - (72 / 25))%R /\ s_nz x = (1 / 100)%R.
Proof.
  intros k Dmax. destruct (prep (res cg) (n_lcano y_qr) (t_rcano y_qr) (n_big 0 1 Dmax) (n_small 0 1 2) (n_big 1 2 Dmax) (n_small 1 2 0) n_combL n_combR 3 (fun i => Ok (z_ts i))) as [[lb rb] rs1] eqn:EP.
  destruct (prep_range _ _ _ _ _ _ _ _ _ 3 _ _ _ _ ltac:(lia) EP) as [R1 R2]. cbn in R1, R2. assert (lb = 0) by lia. assert (rb = 2) by lia. subst lb rb.
  destruct (C72_run (1 / 2) (9 / 10) (11 / 10) 1 3 y_ws [2; 2; 2] stev2 2 (fun _ => 10) y_svd (fun _ _ => false) (fun _ _ _ => false) (fun _ => true) (fun t => t) y_herm y_svd_ok y_mock ltac:(lia) [(1 / 10)%R; (1 / 100)%R] ltac:(discriminate)
    Ub Ub y_qr Dmax (fun _ _ _ _ _ _ => (Ub, Ub, Ub)) true y_qr_ok y_thin (S k) (fun i => Ok (z_ts i)) z_ts (chain_w z_ts) 0 2 rs1 ltac:(lia) eq_refl) as [x [w' [rs' [ts' [A [_ [_ [B [C [_ [E [F [_ [_ [G _]]]]]]]]]]]]]]].
  - intros i _. reflexivity.
  - intros i _. reflexivity.
  - exact EP.
  - intros H. discriminate.
  - intros i _. reflexivity.
  - exact z_chain.
  - exact z_right.
  - exact (has_nz _ _ _ _ z_has).
  - apply y_sweeps3.
  - rewrite (has_ratio _ _ _ _ z_has) in *. exists x, w', rs', ts'. split; [exact A|]. split; [exact B|]. split; [exact C|]. split; [exact E|]. split; [exact F|]. rewrite G by lra. destruct k; reflexivity.
Qed.
