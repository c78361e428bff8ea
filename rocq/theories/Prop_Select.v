(** Property C86: the record of a time evolution with truncation, and its selection rules.
    [shifts i o dq]: the operator o on site i changes the quantum number by dq; [neutral i str]: the string on the sites before i changes none; [blocks bt q ts]: the chain is in block form
    with total q; [in_sector q v]: only configurations with total q have an amplitude; [cstring N str op i]: the operator op on site i with the string str on the sites before it. *)
From Coq Require Import List Arith Bool Lia ZArith QArith Qreals Reals.
From Verif Require Import Base Disk SweepSpec Tdvp TdvpSpec TdvpRun EffHamSpec ChainSpec Legs VmpsSpec Cx GVec ChainUpdate DmrgVarSpec DmrgVarInst ConserveSpec ConserveRun ConserveInst CorrUpdate CorrSpec CorrChain CorrRun TruncSpec TruncInst SectorSpec SectorFacts SectorRun SectorInst SelectSpec SelectFacts SelectInst.
Import ListNotations.
Local Open Scope nat_scope.

Section Select.
Variables (G : Type) (q0 : G) (qadd : G -> G -> G) (qopp : G -> G).
(** a commutative group of quantum numbers *)
Hypothesis QG : q_group q0 qadd qopp.
Hypothesis QC : forall a b, qadd a b = qadd b a.
Variable ch : nat -> nat -> G.
Variable N : nat.
Variable ws : nat -> cg.                                     (* the MPO *)
Variables (p : nat) (ds : list nat).                         (* physical dimensions: p on every site *)
Hypothesis Hds : ds = repeat p N.
Notation chain := (chain N ws ds). Notation holds := (holds N).
Notation blocks := (blocks G qadd ch N). Notation in_sector := (in_sector G q0 qadd ch ds). Notation shifts := (shifts G qadd ch p). Notation neutral := (neutral G ch p).

(** operators on states: what they add to the total, which matrix elements vanish *)
Theorem C86_applied : forall str op i dq q psi, i < N -> shifts i op dq -> neutral i str -> in_sector q psi -> in_sector (qadd q dq) (capplied ds (cstring N str op i) psi).
Proof. exact (applied_sector G q0 qadd qopp QG QC ch N p ds Hds). Qed.
Theorem C86_vanish : forall str op i dq qa qb phi psi, i < N -> shifts i op dq -> neutral i str -> in_sector qa phi -> in_sector qb psi -> qadd qb dq <> qa -> ccorr ds (cstring N str op i) phi psi = c0.
Proof. exact (corr_zero G q0 qadd qopp QG QC ch N p ds Hds). Qed.

Variables (op0 : cg) (str0 : option cg) (op1 : cg) (str1 : option cg) (e0 : real).      (* local_op0, inst0, local_op1, inst1, e0 *)
Hypotheses (Hop0 : square p op0) (Hstr0 : match str0 with Some g => square p g | None => True end) (Hop1 : square p op1) (Hstr1 : match str1 with Some g => square p g | None => True end).
Notation O0 site := (cstring N (str_of str0) (op_of op0) site). Notation O1 i := (cstring N (str_of str1) (op_of op1) i).
Notation acted := (acted (res cg) (t_act op0) (option_map t_act str0)).
(** the chain on which the operator has acted is in block form with the shifted total *)
Theorem C86_operator : forall site dq rs ts ta bt q, site < N -> shifts site (op_of op0) dq -> neutral site (str_of str0) -> holds rs ts -> chain ts -> holds (acted site rs) ta -> blocks bt q ts ->
  exists bt', blocks bt' (qadd q dq) ta.
Proof. exact (acted_blocks G q0 qadd qopp QG QC ch N ws p ds Hds op0 str0 Hop0 Hstr0). Qed.

Section Run.
Variables (stev : list real -> list real -> list real * list real) (maxit : nat) (size : list nat -> nat) (svd : nat -> cg -> cg * cg * cg) (err : cg -> real) (qr : nat -> cg -> cg * cg) (far : list cx -> list cx -> bool).
(** Hermitian MPO that conserves the quantum number; the SVD keeps a part of its argument, the QR is exact and works block by block; max_iterations of the solver is at least 2 *)
Hypothesis HH : hermitian_chain N ws ds.
Hypothesis HCons : conserving G q0 qadd ch N ws ds.
Hypothesis ET : trunc_gsvd err svd.
Hypothesis EQ : exact_qr qr.
Hypothesis BQ : block_qr G qadd ch qr.
Hypothesis Hmax : 2 <= maxit.
Variables (dT dE dM : res cg) (canoL : res cg -> res cg -> res cg * res cg) (dbg : bool).
Notation evo := (t_evo ws stev maxit size svd far). Notation back := (t_back ws stev maxit size far).
Notation run := (tdvp_run (res cg) (res cg) (res cg) (res cx) dT dE dM w_triv (w_grow ws) canoL (t_rcano qr) evo back dbg (t_act op0) (option_map t_act str0) m_triv m_triv m_right (m_left str1) (m_val op1) (m_phase e0)).
Notation after := (after (res cg) (res cg) w_triv (w_grow ws) evo back N).
Notation prepared site rs := (center0 (res cg) (t_rcano qr) site (acted site rs)).
Notation steps_lapack := (steps_lapack N ws stev maxit size svd far). Notation along_subs := (along_subs G qadd ch N ws svd stev maxit size far).

(** a whole run on disk, with truncation: the states psi k after k time steps start with O0 |initial>, all have the shifted total, the last one is in the files, and
    entry (k, i) of the record is e^{i e0 t_k} <initial| O1_i |psi k> with t_k = k tau *)
Theorem C86_record : forall site steps tau ini t0 mf rs ts w bt q dq, 3 <= N -> site < N -> idle (res cg) (res cg) N rs w -> holds rs ts -> chain ts -> (forall i, site < i < N -> cright (cten_of (ts i))) ->
  (match ini with Some f => (forall i, i < N -> f i = Some (Ok (t0 i))) /\ chain t0 | None => t0 = ts end) ->
  weight ds (capplied ds (O0 site) (amp N ts)) <> c0 -> steps_lapack tau steps (prepared site rs) ->
  blocks bt q ts -> shifts site (op_of op0) dq -> neutral site (str_of str0) ->
  (forall t1 bt1, holds (prepared site rs) t1 -> blocks bt1 (qadd q dq) t1 -> along_subs (substeps N tau steps) (prepared site rs) bt1) ->
  exists r w' (psi : nat -> nat -> cg), run true site steps tau ini mf w = Ok (r, w') /\ length r = N * (steps + 1) /\
  (forall c, In c (configs ds) -> amp N (psi 0) c = capplied ds (O0 site) (amp N ts) c) /\
  (forall k, k <= steps -> holds (after tau k (prepared site rs)) (psi k) /\ chain (psi k) /\ weight ds (amp N (psi k)) <> c0 /\ in_sector (qadd q dq) (amp N (psi k))) /\
  (forall i, i < N -> dm (res cg) (res cg) unit w' i = Some (Ok (psi steps i))) /\
  (forall k i, k <= steps -> i < N -> nth_error r (k * N + i) = Some (Some (mkE (res cx) site i (e_time_of tau k) (Some (Ok (turned e0 (e_time_of tau k) (ccorr ds (O1 i) (amp N t0) (amp N (psi k))))))))).
Proof. exact (select_record_ok G q0 qadd qopp QG QC ch N ws p ds Hds stev maxit size svd err qr far HH HCons ET EQ BQ Hmax dT dE dM canoL dbg op0 str0 op1 str1 e0 Hop0 Hstr0 Hop1 Hstr1). Qed.
(** if the two operators do not lead back to the total of the reference state, the entry is exactly zero at all times, whatever is truncated *)
Theorem C86_selection : forall site steps tau ini t0 mf rs ts w bt q dq q' r w', 3 <= N -> site < N -> idle (res cg) (res cg) N rs w -> holds rs ts -> chain ts -> (forall i, site < i < N -> cright (cten_of (ts i))) ->
  (match ini with Some f => (forall i, i < N -> f i = Some (Ok (t0 i))) /\ chain t0 | None => t0 = ts end) ->
  weight ds (capplied ds (O0 site) (amp N ts)) <> c0 -> steps_lapack tau steps (prepared site rs) ->
  blocks bt q ts -> shifts site (op_of op0) dq -> neutral site (str_of str0) ->
  (forall t1 bt1, holds (prepared site rs) t1 -> blocks bt1 (qadd q dq) t1 -> along_subs (substeps N tau steps) (prepared site rs) bt1) ->
  in_sector q' (amp N t0) -> run true site steps tau ini mf w = Ok (r, w') ->
  forall k i d1, k <= steps -> i < N -> shifts i (op_of op1) d1 -> neutral i (str_of str1) -> qadd (qadd q dq) d1 <> q' ->
  nth_error r (k * N + i) = Some (Some (mkE (res cx) site i (e_time_of tau k) (Some (Ok c0)))).
Proof. exact (select_zero_ok G q0 qadd qopp QG QC ch N ws p ds Hds stev maxit size svd err qr far HH HCons ET EQ BQ Hmax dT dE dM canoL dbg op0 str0 op1 str1 e0 Hop0 Hstr0 Hop1 Hstr1). Qed.
End Run.
End Select.
Print Assumptions C86_applied.
Print Assumptions C86_vanish.
Print Assumptions C86_operator.
Print Assumptions C86_record.
Print Assumptions C86_selection.

(** creation of a particle with the sign string on the empty state of the hopping model *)
Theorem C86_case_operators : square 2 s_plus /\ square 2 s_sign /\ (forall i, shifts Z Z.add z_ch 2 i (op_of s_plus) 1%Z) /\ (forall i, neutral Z z_ch 2 i (str_of (Some s_sign))) /\
  weight [2; 2; 2] (capplied [2; 2; 2] (cstring 3 (str_of (Some s_sign)) (op_of s_plus) 1) (amp 3 (h_ts h_vac))) <> c0.
Proof. exact (conj eq_refl (conj eq_refl (conj s_plus_shifts (conj s_sign_neutral s_weight)))). Qed.
(** one singular value per bond; measured with a creation operator the record is zero everywhere, for all numbers and lengths of steps *)
Theorem C86_case_run : forall steps tau e0, exists r w',
  tdvp_run (res cg) (res cg) (res cg) (res cx) Ub Ub Ub w_triv (w_grow h_ws) (fun a b => (a, b)) (t_rcano y_qr) (t_evo h_ws stev2 2 (fun _ => 10) r_svd (fun _ _ => false)) (t_back h_ws stev2 2 (fun _ => 10) (fun _ _ => false)) true
    (t_act s_plus) (Some (t_act s_sign)) m_triv m_triv m_right (m_left (Some s_sign)) (m_val s_plus) (m_phase e0) true 1 steps tau None fnone (h_w h_vac) = Ok (r, w') /\ length r = 3 * (steps + 1) /\
  (forall k i, k <= steps -> i < 3 -> nth_error r (k * 3 + i) = Some (Some (mkE (res cx) 1 i (e_time_of tau k) (Some (Ok c0))))).
Proof.
  intros steps tau e0.
  assert (H1 : forall i, 1 < i < 3 -> cright (cten_of (h_ts h_vac i))) by (intros i _; apply h_right; unfold h_vac; lia).
  assert (H2 : forall i, (i < 3)%nat -> (fun i => Ok (h_ts h_vac i)) i = Ok (h_ts h_vac i)) by reflexivity.
  assert (H3 : idle (res cg) (res cg) 3 (fun i => Ok (h_ts h_vac i)) (h_w (En := unit) h_vac)) by (repeat split).
  pose proof (C86_record Z 0%Z Z.add Z.opp z_group Z.add_comm z_ch 3 h_ws 2 [2; 2; 2] eq_refl s_plus (Some s_sign) s_plus (Some s_sign) e0 eq_refl eq_refl eq_refl eq_refl stev2 2 (fun _ => 10) r_svd r_err y_qr (fun _ _ => false)
    h_herm h_conserving r_svd_ok y_qr_ok (y_qr_blocks Z 0%Z Z.add Z.opp z_group z_ch) ltac:(lia) Ub Ub Ub (fun a b => (a, b)) true
    1 steps tau None (h_ts h_vac) fnone (fun i => Ok (h_ts h_vac i)) (h_ts h_vac) (h_w h_vac) (h_bt h_vac) 0%Z 1%Z ltac:(lia) ltac:(lia) H3 H2 (h_chain h_vac) H1 eq_refl s_weight (y_steps _ _ _ _ _ _ _ _) (h_blocks h_vac) (s_plus_shifts 1) (s_sign_neutral 1)
    (fun t1 bt1 _ _ => block_along_subs Z Z.add z_ch 3 h_ws stev2 2 (fun _ => 10) r_svd (fun _ _ => false) (r_blocks Z Z.add z_ch) _ _ _)) as R.
  destruct R as [r [w' [psi [R1 [R2 _]]]]]. exists r, w'. split; [exact R1|]. split; [exact R2|]. intros k i Hk Hi.
  apply (C86_selection Z 0%Z Z.add Z.opp z_group Z.add_comm z_ch 3 h_ws 2 [2; 2; 2] eq_refl s_plus (Some s_sign) s_plus (Some s_sign) e0 eq_refl eq_refl eq_refl eq_refl stev2 2 (fun _ => 10) r_svd r_err y_qr (fun _ _ => false)
    h_herm h_conserving r_svd_ok y_qr_ok (y_qr_blocks Z 0%Z Z.add Z.opp z_group z_ch) ltac:(lia) Ub Ub Ub (fun a b => (a, b)) true
    1 steps tau None (h_ts h_vac) fnone (fun i => Ok (h_ts h_vac i)) (h_ts h_vac) (h_w h_vac) (h_bt h_vac) 0%Z 1%Z 0%Z r w' ltac:(lia) ltac:(lia) H3 H2 (h_chain h_vac) H1 eq_refl s_weight (y_steps _ _ _ _ _ _ _ _) (h_blocks h_vac) (s_plus_shifts 1) (s_sign_neutral 1)
    (fun t1 bt1 _ _ => block_along_subs Z Z.add z_ch 3 h_ws stev2 2 (fun _ => 10) r_svd (fun _ _ => false) (r_blocks Z Z.add z_ch) _ _ _)
    (blocks_sector Z 0%Z Z.add Z.opp z_group z_ch 3 h_ws [2; 2; 2] (h_bt h_vac) 0%Z (h_ts h_vac) (h_chain h_vac) (h_blocks h_vac)) R1 k i 1%Z Hk Hi (s_plus_shifts i) (s_sign_neutral i)). discriminate.
Qed.
Print Assumptions C86_case_operators.
Print Assumptions C86_case_run.
