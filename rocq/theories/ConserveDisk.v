(** Whole runs on disk: TDVP keeps norm and energy, two-site VMPS never raises the energy. *)
From Coq Require Import List Arith Bool Lia QArith Qreals Reals Lra.
From Verif Require Import Base Disk SweepSpec TwoSite TwoSiteFacts Tdvp TdvpSpec TdvpFacts TdvpRun FiniteMps FmpsSpec ChainSpec Legs VmpsLocal VmpsSpec Cx GVec ChainUpdate DmrgVarSpec DmrgVar DmrgVarRun ConserveSpec ConserveFacts ConserveRun ConserveVmps.
Import ListNotations.
Local Open Scope nat_scope.

Section Tdvp.
Variable N : nat.
Variable ws : nat -> cg.
Variable ds : list nat.
Hypothesis HH : hermitian_chain N ws ds.
Variables (stev : list real -> list real -> list real * list real) (maxit : nat) (size : list nat -> nat) (svd : nat -> cg -> cg * cg * cg) (qr : nat -> cg -> cg * cg) (far : list cx -> list cx -> bool).
Hypothesis ES : exact_gsvd svd.
Hypothesis EQ : exact_qr qr.
Hypothesis Hmax : 2 <= maxit.
Variables (M V : Type) (dT dE : res cg) (dM : M) (canoL : res cg -> res cg -> res cg * res cg) (dbg : bool) (actO : res cg -> res cg) (actI : option (res cg -> res cg)).
Variables (mtr mtl : M) (mgr : res cg -> res cg -> M -> M) (mgl : M -> res cg -> res cg -> M) (mval : M -> res cg -> res cg -> M -> V) (phase : Q -> V -> V).
Notation evo := (t_evo ws stev maxit size svd far). Notation back := (t_back ws stev maxit size far).
Notation run := (tdvp_run (res cg) (res cg) M V dT dE dM w_triv (w_grow ws) canoL (t_rcano qr) evo back dbg actO actI mtr mtl mgr mgl mval phase).
Notation after := (after (res cg) (res cg) w_triv (w_grow ws) evo back N).
Notation prepared site rs := (center0 (res cg) (t_rcano qr) site (acted (res cg) actO actI site rs)).

Lemma steps_mono : forall tau n k rs, k <= n -> steps_lapack N ws stev maxit size svd far tau n rs -> steps_lapack N ws stev maxit size svd far tau k rs.
Proof. intros tau n k rs H. induction H as [|n H IH]; intros X; [exact X|]. destruct X as [X _]. apply IH. exact X. Qed.
(** after the preparation and any number of time steps *)
Lemma steps_ok : forall site tau n rs ta, 3 <= N -> site < N -> holds N (acted (res cg) actO actI site rs) ta -> chain N ws ds ta -> (forall i, site < i < N -> cright (cten_of (ta i))) -> sq_norm N ta <> c0 ->
  steps_lapack N ws stev maxit size svd far tau n (prepared site rs) -> forall k, k <= n ->
  exists ts', holds N (after tau k (prepared site rs)) ts' /\ chain N ws ds ts' /\ sq_norm N ts' = sq_norm N ta /\ energy_val N ws ts' = energy_val N ws ta.
Proof.
  intros site tau n rs ta H3 Hs HR HC HRi NZ LA k Hk. destruct (center0_ok N ws ds qr EQ site _ ta Hs HR HC HRi) as [t0 [A1 [A2 [A3 [A4 A5]]]]].
  destruct (after_ok N ws ds HH stev maxit size svd ES Hmax far tau k 0 _ t0 H3 (Nat.le_0_l 1) A1 A2 A3) as [t1 [B1 [B2 [_ [B4 B5]]]]]; [congruence|apply (steps_mono tau n k _ Hk LA)|].
  exists t1. split; [exact B1|]. split; [exact B2|]. split; congruence.
Qed.
Lemma tdvp_disk_ok : forall site steps tau ini t0 mf rs w ta, 3 <= N -> site < N -> idle (res cg) (res cg) N rs w ->
  (match ini with Some f => forall i, i < N -> f i = Some (t0 i) | None => t0 = rs end) ->
  holds N (acted (res cg) actO actI site rs) ta -> chain N ws ds ta -> (forall i, site < i < N -> cright (cten_of (ta i))) -> sq_norm N ta <> c0 ->
  steps_lapack N ws stev maxit size svd far tau steps (prepared site rs) ->
  exists r w' ts', run true site steps tau ini mf w = Ok (r, w') /\ (forall i, i < N -> dm (res cg) (res cg) unit w' i = Some (Ok (ts' i))) /\
  chain N ws ds ts' /\ sq_norm N ts' = sq_norm N ta /\ energy_val N ws ts' = energy_val N ws ta.
Proof.
  intros site steps tau ini t0 mf rs w ta H3 Hs HI Hini HR HC HRi NZ LA.
  destruct (TdvpRun.run_ok (res cg) (res cg) M V dT dE dM w_triv (w_grow ws) canoL (t_rcano qr) evo back dbg actO actI mtr mtl mgr mgl mval phase N site steps tau ini t0 mf rs w H3 Hs HI Hini) as [r [w' [R1 [_ [R3 _]]]]].
  destruct (steps_ok site tau steps rs ta H3 Hs HR HC HRi NZ LA steps (le_n _)) as [ts' [A1 A2]].
  exists r, w', ts'. split; [exact R1|]. split; [|exact A2]. intros i Hi. pose proof (tr_dm _ _ _ _ _ _ _ R3 i Hi) as D. rewrite D. f_equal. apply A1. exact Hi.
Qed.
End Tdvp.

Section Vmps.
Variable N : nat.
Variable ws : nat -> cg.
Variable ds : list nat.
Hypothesis HH : hermitian_chain N ws ds.
Variables (stev : list real -> list real -> list real * list real) (maxit : nat) (size : list nat -> nat) (svd : nat -> cg -> cg * cg * cg) (close : real -> real -> bool).
Hypothesis ES : exact_gsvd svd.
Hypothesis Hmax : 2 <= maxit.
Variables (dT dE : res cg) (canoL canoR : res cg -> res cg -> res cg * res cg) (dbg : bool).
Notation upd := (v_update ws stev maxit size svd close).
Notation run := (run_two_site (res cg) (res cg) (res real) dT dE w_triv (w_grow ws) upd canoL canoR dbg).
Notation startable := (startable (res cg) (res cg) (res real) w_triv (w_grow ws) N).
Lemma vmps_disk_ok : forall k rs ts w, 3 <= N -> startable rs w -> holds N rs ts -> chain N ws ds ts -> mixed_at N 0 ts -> sq_norm N ts <> c0 ->
  opts_lapack N ws stev maxit size svd close (all_bonds 0 (N - 1) (S k)) (rs, None) ->
  exists e w' rs' ts', run (S k) w = Ok (Ok e, w') /\ startable rs' w' /\ holds N rs' ts' /\ chain N ws ds ts' /\ mixed_at N 0 ts' /\ has_energy N ws ts' e /\ (e <= energy_ratio N ws ts)%R.
Proof.
  intros k rs ts w H3 HS HR HC HM NZ LA.
  destruct (TwoSiteFacts.run_ok (res cg) (res cg) (res real) dT dE w_triv (w_grow ws) upd canoL canoR dbg N rs k w H3 HS) as [e [w' [A1 [A2 [A3 _]]]]]. cbv zeta in *.
  assert (SA : forall n s, sweeps_spec (res cg) (res cg) (res real) w_triv (w_grow ws) upd N 0 (N - 1) n s = opts (res cg) (res cg) (res real) w_triv (w_grow ws) upd N (all_bonds 0 (N - 1) n) s).
  { clear. intros n. induction n as [|n IH]; intros s; [reflexivity|]. cbn [SweepSpec.sweeps_spec]. rewrite IH. unfold all_bonds. cbn [repeat concat]. unfold SweepSpec.opts. rewrite fold_left_app. reflexivity. }
  rewrite SA in *.
  destruct (vmps_opts_ok N ws ds HH stev maxit size svd close ES Hmax _ 0 0 rs ts None (path_all N 0 (N - 1) (S k) ltac:(lia) ltac:(lia)) HR HC HM NZ LA) as [ts' [B0 [B1 [B2 [B3 [B4 B5]]]]]].
  assert (NE : all_bonds 0 (N - 1) (S k) <> []) by (unfold all_bonds, bonds; cbn [repeat concat]; destruct (N - 1 - 1 - 0) eqn:E; [lia|cbn; discriminate]).
  destruct (B4 NE) as [x [X1 X2]]. rewrite A2 in X1. injection X1 as ->.
  exists x, w', (fst (opts (res cg) (res cg) (res real) w_triv (w_grow ws) upd N (all_bonds 0 (N - 1) (S k)) (rs, None))), ts'.
  split; [exact A1|]. split; [exact A3|]. split; [exact B0|]. split; [exact B1|]. split; [exact B2|]. split; [exact X2|]. rewrite <- (has_ratio N ws ts' x X2). exact B5.
Qed.
End Vmps.
