(** Property C84: runs of two-site VMPS and two-site TDVP stay in the symmetry sector of the state that they start from.
    [ch i s]: quantum number of the basis state s of site i, in any group; [total]: of a configuration; [in_sector q v]: only configurations with total q have an amplitude;
    [conserving]: matrix elements of the operator between configurations with different totals vanish; [sector_bounded q lam]: energies of states with total q are at least lam.
    [blocks bt q ts]: the bonds of the chain carry quantum numbers bt and an element vanishes unless those of its indices add up, q in total.
    [along_blocks], [along_subs]: the truncated SVDs that the run does keep this form (block by block, no column mixes quantum numbers); [block_svd]: they do so for every tensor. *)
From Coq Require Import List Arith Bool Lia ZArith QArith Qreals Reals Lra.
From Verif Require Import Base Disk SweepSpec TwoSite TwoSiteFacts Tdvp TdvpSpec TdvpRun EffHamSpec ChainSpec Legs VmpsSpec Cx GVec ChainUpdate DmrgVarSpec DmrgVar DmrgVarInst ConserveSpec ConserveRun ConserveInst CorrSpec EigenSpec TruncUpdate TruncSpec TruncFacts TruncRun TruncInst SectorSpec SectorFacts SectorRun SectorInst.
Import ListNotations.
Local Open Scope nat_scope.

Section Sector.
Variables (G : Type) (q0 : G) (qadd : G -> G -> G) (qopp : G -> G).
Hypothesis QG : q_group q0 qadd qopp.
Variable ch : nat -> nat -> G.
Variable N : nat.
Variable ws : nat -> cg.                                     (* the MPO *)
Variable ds : list nat.                                      (* physical dimensions *)
Variables (stev : list real -> list real -> list real * list real) (maxit : nat) (size : list nat -> nat) (svd : nat -> cg -> cg * cg * cg) (err : cg -> real).
(** Hermitian MPO that conserves the quantum number; the SVD keeps a part of its argument; max_iterations of the solvers is at least 2 *)
Hypothesis HH : hermitian_chain N ws ds.
Hypothesis HCons : conserving G q0 qadd ch N ws ds.
Hypothesis ET : trunc_gsvd err svd.
Hypothesis Hmax : 2 <= maxit.
Notation chain := (chain N ws ds). Notation sq_norm := (sq_norm N). Notation holds := (holds N). Notation center_at := (center_at N). Notation mixed_at := (mixed_at N). Notation left_by := (left_by N ws ds).
Notation blocks := (blocks G qadd ch N). Notation in_sector := (in_sector G q0 qadd ch ds). Notation sector_bounded := (sector_bounded G q0 qadd ch N ws ds). Notation block_svd := (block_svd G qadd ch svd).

(** C84: a chain in block form is a state of one sector *)
Theorem C84_state : forall bt q ts, chain ts -> blocks bt q ts -> in_sector q (amp N ts).
Proof. exact (blocks_sector G q0 qadd qopp QG ch N ws ds). Qed.

Section Vmps.
Variable close : real -> real -> bool.                       (* convergence test of the eigenvalue solver *)
Variables (dT dE : res cg) (canoL canoR : res cg -> res cg -> res cg * res cg) (dbg : bool).
Notation upd := (v_update_e ws stev maxit size svd err close).
Notation opts := (opts (res cg) (res cg) (res (real * real)) w_triv (w_grow ws) upd N).
Notation run := (run_two_site (res cg) (res cg) (res (real * real)) dT dE w_triv (w_grow ws) upd canoL canoR dbg).
Notation startable := (startable (res cg) (res cg) (res (real * real)) w_triv (w_grow ws) N).
Notation along_lapack := (along_lapack N ws stev maxit size svd err close).
Notation along_blocks := (along_blocks G qadd ch N ws svd stev maxit size err close).
(** after any sequence of updates that the sweeps make the chain is in block form with the q of the start; the state ph whose energy the last update reports is in the sector *)
Theorem C84_updates : forall bs l m rs ts bt q e, path N l bs m -> holds rs ts -> chain ts -> mixed_at l ts -> sq_norm ts <> c0 -> along_lapack bs rs -> blocks bt q ts -> along_blocks bs rs bt ->
  exists ts' bt', holds (fst (opts bs (rs, e))) ts' /\ chain ts' /\ mixed_at m ts' /\ sq_norm ts' <> c0 /\ blocks bt' q ts' /\
  (bs <> [] -> exists x d ph, snd (opts bs (rs, e)) = Some (Ok (x, d)) /\ left_by ts' x d ph /\ in_sector q (amp N ph)).
Proof. exact (sector_opts_ok G q0 qadd qopp QG ch N ws ds HH HCons stev maxit size svd err ET Hmax close). Qed.
(** a whole run on disk: what it stores is in the sector, in block form and startable again; so is the state with the returned energy *)
Theorem C84_run : forall k rs ts bt q w, 3 <= N -> startable rs w -> holds rs ts -> chain ts -> mixed_at 0 ts -> sq_norm ts <> c0 -> along_lapack (all_bonds 0 (N - 1) (S k)) rs ->
  blocks bt q ts -> along_blocks (all_bonds 0 (N - 1) (S k)) rs bt ->
  exists e d w' rs' ts' bt' ph, run (S k) w = Ok (Ok (e, d), w') /\ startable rs' w' /\ holds rs' ts' /\ mixed_at 0 ts' /\ left_by ts' e d ph /\
  blocks bt' q ts' /\ in_sector q (amp N ts') /\ in_sector q (amp N ph).
Proof. exact (sector_disk_ok G q0 qadd qopp QG ch N ws ds HH HCons stev maxit size svd err ET Hmax close dT dE canoL canoR dbg). Qed.
(** the returned energy is not below the lowest energy of the sector, even if other sectors have lower energies *)
Theorem C84_bound : forall k rs ts bt q w e d w' lam, 3 <= N -> startable rs w -> holds rs ts -> chain ts -> mixed_at 0 ts -> sq_norm ts <> c0 -> along_lapack (all_bonds 0 (N - 1) (S k)) rs ->
  blocks bt q ts -> along_blocks (all_bonds 0 (N - 1) (S k)) rs bt -> sector_bounded q lam -> run (S k) w = Ok (Ok (e, d), w') -> (lam <= e)%R.
Proof. exact (sector_bound_ok G q0 qadd qopp QG ch N ws ds HH HCons stev maxit size svd err ET Hmax close dT dE canoL canoR dbg). Qed.
(** an SVD that works block by block on every tensor satisfies what the runs above ask of it *)
Theorem C84_svd : block_svd -> forall bs rs bt, along_blocks bs rs bt.
Proof. exact (block_along G qadd ch N ws stev maxit size svd err close). Qed.
End Vmps.

Section Tdvp.
Variable far : list cx -> list cx -> bool.                   (* convergence test of the exponential *)
Variable qr : nat -> cg -> cg * cg.
Hypothesis EQ : exact_qr qr.
Hypothesis BQ : block_qr G qadd ch qr.
Variables (M V : Type) (dT dE : res cg) (dM : M) (canoL : res cg -> res cg -> res cg * res cg) (dbg : bool) (actO : res cg -> res cg) (actI : option (res cg -> res cg)).
Variables (mtr mtl : M) (mgr : res cg -> res cg -> M -> M) (mgl : M -> res cg -> res cg -> M) (mval : M -> res cg -> res cg -> M -> V) (phase : Q -> V -> V).
Notation evo := (t_evo ws stev maxit size svd far). Notation back := (t_back ws stev maxit size far).
Notation run := (tdvp_run (res cg) (res cg) M V dT dE dM w_triv (w_grow ws) canoL (t_rcano qr) evo back dbg actO actI mtr mtl mgr mgl mval phase).
Notation evolve := (evolve (res cg) (res cg) w_triv (w_grow ws) evo back N).
Notation prepared site rs := (center0 (res cg) (t_rcano qr) site (acted (res cg) actO actI site rs)).
Notation steps_lapack := (steps_lapack N ws stev maxit size svd far). Notation along_subs := (along_subs G qadd ch N ws svd stev maxit size far).
(** time evolution: after any number j of substeps, within or between time steps, the state is in the sector of the start *)
Theorem C84_substeps : forall tau k j rs ts bt q, 3 <= N -> holds rs ts -> chain ts -> center_at 0 ts -> sq_norm ts <> c0 -> steps_lapack tau k rs -> blocks bt q ts -> along_subs (substeps N tau k) rs bt ->
  exists ts' bt', holds (fold_left evolve (firstn j (substeps N tau k)) rs) ts' /\ chain ts' /\ sq_norm ts' <> c0 /\ blocks bt' q ts' /\ in_sector q (amp N ts').
Proof. exact (sector_steps_ok G q0 qadd qopp QG ch N ws ds HH HCons stev maxit size svd err ET Hmax far). Qed.
(** moving the center to site 0 before the evolution does not leave the block form *)
Theorem C84_center : forall c rs ts bt q, c < N -> holds rs ts -> chain ts -> (forall i, c < i < N -> cright (cten_of (ts i))) -> blocks bt q ts ->
  exists ts' bt', holds (center0 (res cg) (t_rcano qr) c rs) ts' /\ chain ts' /\ center_at 0 ts' /\ sq_norm ts' = sq_norm ts /\ blocks bt' q ts'.
Proof. exact (sector_center0_ok G qadd ch N ws ds maxit Hmax qr EQ BQ). Qed.
(** a whole run on disk; q is the sector after the initial operator has acted *)
Theorem C84_evolution : forall site steps tau ini t0 mf rs w ta bt q, 3 <= N -> site < N -> idle (res cg) (res cg) N rs w ->
  (match ini with Some f => forall i, i < N -> f i = Some (t0 i) | None => t0 = rs end) ->
  holds (acted (res cg) actO actI site rs) ta -> chain ta -> (forall i, site < i < N -> cright (cten_of (ta i))) -> sq_norm ta <> c0 -> blocks bt q ta ->
  steps_lapack tau steps (prepared site rs) -> (forall t1 bt1, holds (prepared site rs) t1 -> blocks bt1 q t1 -> along_subs (substeps N tau steps) (prepared site rs) bt1) ->
  exists r w' ts', run true site steps tau ini mf w = Ok (r, w') /\ (forall i, i < N -> dm (res cg) (res cg) unit w' i = Some (Ok (ts' i))) /\
  chain ts' /\ sq_norm ts' <> c0 /\ (exists bt', blocks bt' q ts') /\ in_sector q (amp N ts').
Proof. exact (sector_tdvp_disk_ok G q0 qadd qopp QG ch N ws ds HH HCons stev maxit size svd err ET Hmax far qr EQ BQ M V dT dE dM canoL dbg actO actI mtr mtl mgr mgl mval phase). Qed.
Theorem C84_svd_evolution : block_svd -> forall ss rs bt, along_subs ss rs bt.
Proof. exact (block_along_subs G qadd ch N ws stev maxit size svd far). Qed.
End Tdvp.
End Sector.
(** Three sites, particle hopping X_1 X_2 + Y_1 Y_2 and the particle number: a run from the empty state never finds the states of energy -2, whatever the number of sweeps
    (C74_bound allows them: -1 is not a lower bound of the whole spectrum). *)
Theorem C84_stuck : forall k e d w', ~ bounded_below 3 h_ws [2; 2; 2] (-1) /\
  (run_two_site (res cg) (res cg) (res (real * real)) Ub Ub w_triv (w_grow h_ws) (v_update_e h_ws stev2 2 (fun _ => 10) y_svd (fun _ => 0%R) (fun _ _ => false)) (fun a b => (a, b)) (fun a b => (a, b)) true (S k) (h_w h_vac) = Ok (Ok (e, d), w') -> (0 <= e)%R).
Proof.
  intros k e d w'. split; [exact h_below|].
  apply (C84_bound Z 0%Z Z.add Z.opp z_group z_ch 3 h_ws [2; 2; 2] stev2 2 (fun _ => 10) y_svd (fun _ => 0%R) h_herm h_conserving (exact_trunc y_svd y_svd_ok) ltac:(lia) (fun _ _ => false) Ub Ub (fun a b => (a, b)) (fun a b => (a, b)) true
    k (fun i => Ok (h_ts h_vac i)) (h_ts h_vac) (h_bt h_vac) 0%Z (h_w h_vac)); auto using h_chain, r_along, h_empty.
  - split; [reflexivity|]. split; [intros i _; reflexivity|]. split; [intros i _; reflexivity|]. intros H. discriminate.
  - intros i _. reflexivity.
  - apply h_mixed. intros i. unfold h_vac. lia.
  - apply h_nz. intros i. unfold h_vac. lia.
  - exact (h_blocks h_vac).
  - apply C84_svd. exact (y_blocks Z 0%Z Z.add Z.opp z_group z_ch).
Qed.
Print Assumptions C84_state.
Print Assumptions C84_updates.
Print Assumptions C84_run.
Print Assumptions C84_bound.
Print Assumptions C84_svd.
Print Assumptions C84_substeps.
Print Assumptions C84_center.
Print Assumptions C84_evolution.
Print Assumptions C84_svd_evolution.
Print Assumptions C84_stuck.

(** decompositions that keep quantum numbers: exact ones and one that keeps a single row *)
Theorem C84_case_svd : forall ch : nat -> nat -> Z, block_svd Z Z.add ch r_svd /\ block_svd Z Z.add ch y_svd /\ block_qr Z Z.add ch y_qr.
Proof. intros ch. exact (conj (r_blocks Z Z.add ch) (conj (y_blocks Z 0%Z Z.add Z.opp z_group ch) (y_qr_blocks Z 0%Z Z.add Z.opp z_group ch))). Qed.
(** every basis state of the hopping model, one singular value per bond *)
Theorem C84_case_run : forall f k, (forall i, f i < 2) -> exists e d w' rs' ts' bt' ph,
  run_two_site (res cg) (res cg) (res (real * real)) Ub Ub w_triv (w_grow h_ws) (v_update_e h_ws stev2 2 (fun _ => 10) r_svd r_err (fun _ _ => false)) (fun a b => (a, b)) (fun a b => (a, b)) true (S k) (h_w f) = Ok (Ok (e, d), w') /\
  startable (res cg) (res cg) (res (real * real)) w_triv (w_grow h_ws) 3 rs' w' /\ holds 3 rs' ts' /\ mixed_at 3 0 ts' /\ left_by 3 h_ws [2; 2; 2] ts' e d ph /\
  blocks Z Z.add z_ch 3 bt' (h_q f) ts' /\ in_sector Z 0%Z Z.add z_ch [2; 2; 2] (h_q f) (amp 3 ts') /\ in_sector Z 0%Z Z.add z_ch [2; 2; 2] (h_q f) (amp 3 ph).
Proof.
  intros f k Hf.
  apply (C84_run Z 0%Z Z.add Z.opp z_group z_ch 3 h_ws [2; 2; 2] stev2 2 (fun _ => 10) r_svd r_err h_herm h_conserving r_svd_ok ltac:(lia) (fun _ _ => false) Ub Ub (fun a b => (a, b)) (fun a b => (a, b)) true
    k (fun i => Ok (h_ts f i)) (h_ts f) (h_bt f) (h_q f) (h_w f)); auto using h_chain, r_along, h_mixed, h_nz, h_blocks.
  - split; [reflexivity|]. split; [intros i _; reflexivity|]. split; [intros i _; reflexivity|]. intros H. discriminate.
  - intros i _. reflexivity.
  - apply C84_svd. apply r_blocks.
Qed.
(** a particle created in the empty state stays one particle *)
Theorem C84_case_evolution : forall steps tau, exists r w' ts',
  tdvp_run (res cg) (res cg) nat nat Ub Ub 0 w_triv (w_grow h_ws) (fun a b => (a, b)) (t_rcano y_qr) (t_evo h_ws stev2 2 (fun _ => 10) r_svd (fun _ _ => false)) (t_back h_ws stev2 2 (fun _ => 10) (fun _ _ => false)) true
    (t_act y_op) None 0 0 (fun _ _ m => m) (fun m _ _ => m) (fun m _ _ _ => m) (fun _ v => v) true 1 steps tau None fnone (h_w h_vac) = Ok (r, w') /\
  (forall i, i < 3 -> dm (res cg) (res cg) unit w' i = Some (Ok (ts' i))) /\ chain 3 h_ws [2; 2; 2] ts' /\ sq_norm 3 ts' <> c0 /\ in_sector Z 0%Z Z.add z_ch [2; 2; 2] 1%Z (amp 3 ts').
Proof.
  intros steps tau.
  destruct (C84_evolution Z 0%Z Z.add Z.opp z_group z_ch 3 h_ws [2; 2; 2] stev2 2 (fun _ => 10) r_svd r_err h_herm h_conserving r_svd_ok ltac:(lia) (fun _ _ => false) y_qr y_qr_ok (y_qr_blocks Z 0%Z Z.add Z.opp z_group z_ch)
    nat nat Ub Ub 0 (fun a b => (a, b)) true (t_act y_op) None 0 0 (fun _ _ m => m) (fun m _ _ => m) (fun m _ _ _ => m) (fun _ v => v)
    1 steps tau None (fun i => Ok (h_ts h_vac i)) fnone (fun i => Ok (h_ts h_vac i)) (h_w h_vac) h_ta (h_bt h_one1) 1%Z) as [r [w' [ts' [A1 [A2 [A3 [A4 [_ A5]]]]]]]]; auto using h_acted, h_ta_chain, h_ta_right, y_steps, h_ta_blocks.
  - repeat split.
  - rewrite h_ta_norm. unfold c0, c1. intros E. injection E as E. lra.
  - intros t1 bt1 _ _. apply C84_svd_evolution. apply r_blocks.
  - exists r, w', ts'. auto.
Qed.
