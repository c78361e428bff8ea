(** Property C71: without truncation single-site VMPS never raises the energy, with or without noise, and the noise is what the user preset unless
    energies are positive.
    [chain]: the tensors fit together and to the MPO.  [holds]: the tensors of the run are defined and are the given ones.
    [opts1_lapack], [sweeps1_lapack]: LAPACK solves the small eigenvalue problems that it is given along the run. *)
From Coq Require Import List Arith Bool Lia QArith Qreals Reals Lra.
From Verif Require Import Base Disk SweepSpec SingleSite SingleSpec SingleFacts ChainSpec Legs VmpsSpec Cx GVec ChainUpdate DmrgVarSpec DmrgVarInst ConserveSpec ConserveVmps ConserveInst SingleUpdate SingleVarSpec SingleVarRun SingleVarInst.
Import ListNotations.
Local Open Scope nat_scope.

Section Single.
Variables alpha dec inc mx : real.                           (* parameters of the noise rule, any numbers *)
Variable N : nat.
Variable ws : nat -> cg.                                     (* the MPO *)
Variable ds : list nat.                                      (* physical dimensions *)
Variables (stev : list real -> list real -> list real * list real) (maxit : nat) (size : list nat -> nat) (svd : nat -> cg -> cg * cg * cg) (close : real -> real -> bool).
(** Hermitian MPO; the SVD is exact; max_iterations of the solver is at least 2 *)
Hypothesis HH : hermitian_chain N ws ds.
Hypothesis ES : exact_gsvd1 svd.
Hypothesis Hmax : 2 <= maxit.
Notation chain := (chain N ws ds). Notation sq_norm := (sq_norm N). Notation energy_val := (energy_val N ws). Notation holds := (holds N). Notation center_at := (center_at N).
Notation energy_ratio := (energy_ratio N ws). Notation has_energy := (has_energy N ws).
Notation upd := (s_update alpha dec inc mx N ws stev maxit size svd close).
Notation opts1 := (opts1 (res cg) (res cg) (res s1st) w_triv (w_grow ws) upd N).
Notation opts1_lapack := (opts1_lapack alpha dec inc mx N ws stev maxit size svd close).

(** after every update of a sweep, whatever the noise is, the chain is normalized and the energy of the update is its expectation value; later
    energies are not above earlier ones, nor above the one before the first update (i = 0) *)
Theorem C71_updates : forall rs ts s, 2 <= N -> holds rs ts -> chain ts -> center_at 0 ts -> sq_norm ts <> c0 -> opts1_lapack (sites1 N) (rs, Ok s) ->
  forall i j, i <= j -> j <= length (sites1 N) -> exists ti tj,
  let si := opts1 (firstn i (sites1 N)) (rs, Ok s) in let sj := opts1 (firstn j (sites1 N)) (rs, Ok s) in
  holds (fst si) ti /\ holds (fst sj) tj /\ chain tj /\ (1 <= j -> exists x, snd sj = Ok x /\ has_energy tj (s_e0 x)) /\ (energy_ratio tj <= energy_ratio ti)%R.
Proof. intros rs ts s H2. exact (energies1_ok alpha dec inc mx N ws ds HH stev maxit size svd close ES Hmax (sites1 N) 0 0 rs ts s (path1_sites N ltac:(lia))). Qed.
(** the noise after any update of a sweep that starts with noise n: never raised, and lowered (once) exactly if the energy before the sweep is positive *)
Theorem C71_noise : forall rs ts n, 2 <= N -> holds rs ts -> chain ts -> center_at 0 ts -> sq_norm ts <> c0 -> opts1_lapack (sites1 N) (rs, Ok (mkS1 n 0 0)) ->
  forall j, 1 <= j -> j <= length (sites1 N) -> exists x, snd (opts1 (firstn j (sites1 N)) (rs, Ok (mkS1 n 0 0))) = Ok x /\
  s_nz x = if Rle_dec (fst (energy_val ts)) 0 then n else (n * dec)%R.
Proof.
  intros rs ts n H2 HR HC HM HZ HL j H1 Hj. destruct (noise1_ok alpha dec inc mx N ws ds HH stev maxit size svd close ES Hmax (sites1 N) 0 0 rs ts n (path1_sites N ltac:(lia)) HR HC HM HZ HL j H1 Hj) as [x [A B]].
  exists x. split; [exact A|]. rewrite B. unfold rle. destruct (Rle_dec (fst (energy_val ts)) 0); reflexivity.
Qed.

Variable noises : list real.                                 (* sweep_params.noises *)
Variables (dT dE : res cg) (canoL canoR : res cg -> res cg -> res cg * res cg) (solve2 : bool -> nat -> res cg -> res cg -> res cg -> res cg -> res cg * res cg * res s1st) (dbg : bool).
Notation run := (run_single (res cg) (res cg) (res s1st) dT dE w_triv (w_grow ws) canoL canoR upd (map s_preset noises) (s_preset 0) s_carry solve2 dbg).
Notation startable1 := (startable1 (res cg) (res cg) (res s1st) w_triv (w_grow ws) N).
Notation sweeps1_lapack := (sweeps1_lapack alpha dec inc mx N ws stev maxit size svd close (fun k => nth_error (match map s_preset noises with [] => [s_preset 0] | _ => map s_preset noises end) k)).
(** a whole run on disk: the returned energy is that of the chain in the files and not above that of the initial chain; the files can be used for
    a next run, to which the theorem applies again.  The noise of the last update is the preset in force if the initial energy is not positive,
    and is multiplied by noise_decrease once for each sweep since if the final energy is positive *)
Theorem C71_run : forall k rs ts w, 2 <= N -> startable1 rs w -> holds rs ts -> chain ts -> center_at 0 ts -> sq_norm ts <> c0 -> sweeps1_lapack (S k) 0 (rs, None) ->
  exists x w' rs' ts', run (S k) w = Ok (Ok x, w') /\ startable1 rs' w' /\ holds rs' ts' /\ chain ts' /\ center_at 0 ts' /\ has_energy ts' (s_e0 x) /\ (s_e0 x <= energy_ratio ts)%R /\
  let ps := match noises with [] => [0%R] | _ => noises end in let last := Nat.min k (length ps - 1) in
  ((energy_ratio ts <= 0)%R -> s_nz x = nth last ps 0%R) /\ ((0 < s_e0 x)%R -> s_nz x = (nth last ps 0 * dec ^ (S (k - last)))%R).
Proof. exact (single_run_ok alpha dec inc mx N ws ds HH stev maxit size svd close ES Hmax noises dT dE canoL canoR solve2 dbg). Qed.
End Single.
Print Assumptions C71_updates.
Print Assumptions C71_noise.
Print Assumptions C71_run.

(** exact decompositions exist, and with two Krylov vectors LAPACK may be the formula of the two by two eigenproblem, for every MPO and chain *)
Example C71_case_exact : exact_gsvd1 y_svd1.
Proof. exact y_svd1_ok. Qed.
Example C71_case_lapack : forall al dec inc mx N ws size svd close noise n k0 s, sweeps1_lapack al dec inc mx N ws stev2 2 size svd close noise n k0 s.
Proof. exact y_sweeps1. Qed.
(** three spins with H = X0 + X1 + X2 in the state (3/5, -4/5), energy -72/25; presets 1/10 and 1/100: the noise is 1/100 from the second sweep on *)
Example C71_case : hermitian_chain 3 y_ws [2; 2; 2] /\ chain 3 y_ws [2; 2; 2] z_ts /\ center_at 3 0 z_ts /\ has_energy 3 y_ws z_ts (- (72 / 25)).
Proof. exact (conj y_herm (conj z_chain (conj z_center z_has))). Qed.
Example C71_case_run : forall k, exists x w' rs' ts',
  run_single (res cg) (res cg) (res s1st) Ub Ub w_triv (w_grow y_ws) (fun a b => (a, b)) (fun a b => (a, b)) (s_update (1 / 2) (9 / 10) (11 / 10) 1 3 y_ws stev2 2 (fun _ => 10) y_svd1 (fun _ _ => false))
    (map s_preset [(1 / 10)%R; (1 / 100)%R]) (s_preset 0) s_carry (fun _ _ _ _ _ _ => (Ub, Ub, Ub)) true (S (S k)) (chain_w z_ts) = Ok (Ok x, w') /\
  startable1 (res cg) (res cg) (res s1st) w_triv (w_grow y_ws) 3 rs' w' /\ holds 3 rs' ts' /\ has_energy 3 y_ws ts' (s_e0 x) /\ (s_e0 x <= - (72 / 25))%R /\ s_nz x = (1 / 100)%R.
Proof.
  intros k. destruct (C71_run (1 / 2) (9 / 10) (11 / 10) 1 3 y_ws [2; 2; 2] stev2 2 (fun _ => 10) y_svd1 (fun _ _ => false) y_herm y_svd1_ok ltac:(lia) [(1 / 10)%R; (1 / 100)%R] Ub Ub (fun a b => (a, b)) (fun a b => (a, b))
    (fun _ _ _ _ _ _ => (Ub, Ub, Ub)) true (S k) (fun i => Ok (z_ts i)) z_ts (chain_w z_ts) ltac:(lia) (chain_w_ok _ _) (fun _ _ => eq_refl) z_chain z_center (has_nz _ _ _ _ z_has) (y_sweeps1 _ _ _ _ _ _ _ _ _ _ _ _ _)) as [x [w' [rs' [ts' [A [B [C [_ [_ [E [F [G _]]]]]]]]]]]].
  rewrite (has_ratio _ _ _ _ z_has) in *. exists x, w', rs', ts'. split; [exact A|]. split; [exact B|]. split; [exact C|]. split; [exact E|]. split; [exact F|]. rewrite G by lra. destruct k; reflexivity.
Qed.
(** the same chain with H = 1: nothing can be gained, but the noise falls by 9/10 in each sweep, because the energy is positive *)
Example C71_case_positive : forall k, exists x w',
  run_single (res cg) (res cg) (res s1st) Ub Ub w_triv (w_grow i_ws) (fun a b => (a, b)) (fun a b => (a, b)) (s_update (1 / 2) (9 / 10) (11 / 10) 1 3 i_ws stev2 2 (fun _ => 10) y_svd1 (fun _ _ => false))
    (map s_preset [(1 / 10)%R]) (s_preset 0) s_carry (fun _ _ _ _ _ _ => (Ub, Ub, Ub)) true (S k) (chain_w z_ts) = Ok (Ok x, w') /\ s_e0 x = 1%R /\ s_nz x = (1 / 10 * (9 / 10) ^ (S k))%R.
Proof.
  intros k. assert (HZ : sq_norm 3 z_ts <> c0) by (rewrite z_norm; unfold c0, c1; intros E; injection E as E; lra).
  destruct (C71_run (1 / 2) (9 / 10) (11 / 10) 1 3 i_ws [2; 2; 2] stev2 2 (fun _ => 10) y_svd1 (fun _ _ => false) i_herm y_svd1_ok ltac:(lia) [(1 / 10)%R] Ub Ub (fun a b => (a, b)) (fun a b => (a, b))
    (fun _ _ _ _ _ _ => (Ub, Ub, Ub)) true k (fun i => Ok (z_ts i)) z_ts (chain_w z_ts) ltac:(lia) (chain_w_ok _ _) (fun _ _ => eq_refl) i_chain z_center HZ (y_sweeps1 _ _ _ _ _ _ _ _ _ _ _ _ _)) as [x [w' [rs' [ts' [A [_ [_ [C [_ [[E1 E2] [_ [_ G]]]]]]]]]]]].
  assert (X : s_e0 x = 1%R) by (rewrite (i_energy _ C), E1 in E2; injection E2 as E2; symmetry; exact E2).
  exists x, w'. split; [exact A|]. split; [exact X|]. rewrite G by lra. cbn [length Nat.sub]. rewrite Nat.min_0_r, Nat.sub_0_r. reflexivity.
Qed.
