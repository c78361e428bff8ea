(** Property C73: what the record of a TDVP run contains.  [amp N ts c]: amplitude of the chain [ts] for the configuration c;
    [cstring N str op i]: the operator op on site i with the string str on the sites before it; [weight]: the sum of |psi(c)|^2. *)
From Coq Require Import List Arith Bool Lia QArith Qreals Reals.
From Verif Require Import Base Disk SweepSpec Tdvp TdvpSpec TdvpRun EffHamSpec ChainSpec Legs VmpsSpec Cx GVec ChainUpdate DmrgVarSpec DmrgVarInst ConserveSpec ConserveInst CorrUpdate CorrSpec CorrChain CorrRun CorrInst.
Import ListNotations.
Local Open Scope nat_scope.

Section Corr.
Variable N : nat.
Variable ws : nat -> cg.                                     (* the MPO *)
Variables (p : nat) (ds : list nat).                         (* physical dimensions: p on every site *)
Hypothesis Hds : ds = repeat p N.
Variables (op0 : cg) (str0 : option cg) (op1 : cg) (str1 : option cg) (e0 : real).      (* local_op0, inst0, local_op1, inst1, e0 *)
Hypotheses (Hop0 : square p op0) (Hstr0 : match str0 with Some g => square p g | None => True end) (Hop1 : square p op1) (Hstr1 : match str1 with Some g => square p g | None => True end).
Notation chain := (chain N ws ds). Notation holds := (holds N).
Notation O0 site := (cstring N (str_of str0) (op_of op0) site). Notation O1 i := (cstring N (str_of str1) (op_of op1) i).
Notation acted := (acted (res cg) (t_act op0) (option_map t_act str0)).

(** C73: the chain on which the operator has acted is O |psi>: the operator at the requested site, the string on all the sites before it *)
Theorem C73_acted : forall site rs ts, site < N -> holds rs ts -> chain ts -> exists ta, holds (acted site rs) ta /\ chain ta /\
  (forall i, site < i < N -> ta i = ts i) /\ forall c, In c (configs ds) -> amp N ta c = capplied ds (O0 site) (amp N ts) c.
Proof. exact (acted_ok N ws p ds Hds op0 str0 Hop0 Hstr0). Qed.
(** the overlaps with the partial contractions: value i is <t2| O_i |t1>, for all chains, also with different bonds *)
Theorem C73_overlap : forall rs1 rs2 t1 t2, holds rs1 t1 -> holds rs2 t2 -> chain t1 -> chain t2 -> forall i, i < N ->
  overlap_at (res cg) (res cg) (res cx) N m_triv m_triv m_right (m_left str1) (m_val op1) rs1 rs2 i = Ok (ccorr ds (O1 i) (amp N t2) (amp N t1)).
Proof. exact (overlap_ok N ws p ds Hds op1 str1 Hop1 Hstr1). Qed.

Section Run.
Variables (stev : list real -> list real -> list real * list real) (maxit : nat) (size : list nat -> nat) (svd : nat -> cg -> cg * cg * cg) (qr : nat -> cg -> cg * cg) (far : list cx -> list cx -> bool).
(** Hermitian MPO; SVD and QR are exact; max_iterations of the solver is at least 2 *)
Hypothesis HH : hermitian_chain N ws ds.
Hypothesis ES : exact_gsvd svd.
Hypothesis EQ : exact_qr qr.
Hypothesis Hmax : 2 <= maxit.
Variables (dT dE dM : res cg) (canoL : res cg -> res cg -> res cg * res cg) (dbg : bool).
Notation evo := (t_evo ws stev maxit size svd far). Notation back := (t_back ws stev maxit size far).
Notation run := (tdvp_run (res cg) (res cg) (res cg) (res cx) dT dE dM w_triv (w_grow ws) canoL (t_rcano qr) evo back dbg (t_act op0) (option_map t_act str0) m_triv m_triv m_right (m_left str1) (m_val op1) (m_phase e0)).
Notation after := (after (res cg) (res cg) w_triv (w_grow ws) evo back N).
Notation prepared site rs := (center0 (res cg) (t_rcano qr) site (acted site rs)).
Notation steps_lapack := (steps_lapack N ws stev maxit size svd far).

(** a whole run on disk: the states psi k after k time steps start with O0 |initial> and keep its norm, the last one is in the files, and
    entry (k, i) of the record is e^{i e0 t_k} <initial| O1_i |psi k> with t_k = k tau *)
Theorem C73_record : forall site steps tau ini t0 mf rs ts w, 3 <= N -> site < N -> idle (res cg) (res cg) N rs w -> holds rs ts -> chain ts -> (forall i, site < i < N -> cright (cten_of (ts i))) ->
  (match ini with Some f => (forall i, i < N -> f i = Some (Ok (t0 i))) /\ chain t0 | None => t0 = ts end) ->
  weight ds (capplied ds (O0 site) (amp N ts)) <> c0 -> steps_lapack tau steps (prepared site rs) ->
  exists r w' (psi : nat -> nat -> cg), run true site steps tau ini mf w = Ok (r, w') /\ length r = N * (steps + 1) /\
  (forall c, In c (configs ds) -> amp N (psi 0) c = capplied ds (O0 site) (amp N ts) c) /\
  (forall k, k <= steps -> holds (after tau k (prepared site rs)) (psi k) /\ chain (psi k) /\ weight ds (amp N (psi k)) = weight ds (amp N (psi 0))) /\
  (forall i, i < N -> dm (res cg) (res cg) unit w' i = Some (Ok (psi steps i))) /\
  (forall k i, k <= steps -> i < N -> nth_error r (k * N + i) = Some (Some (mkE (res cx) site i (e_time_of tau k) (Some (Ok (turned e0 (e_time_of tau k) (ccorr ds (O1 i) (amp N t0) (amp N (psi k))))))))).
Proof. exact (record_ok N ws p ds Hds stev maxit size svd qr far HH ES EQ Hmax dT dE dM canoL dbg op0 str0 op1 str1 e0 Hop0 Hstr0 Hop1 Hstr1). Qed.
(** at every time the entry is at most |O1_i^+ initial| |O0 initial| *)
Theorem C73_bound : forall site steps tau ini t0 mf rs ts w r w', 3 <= N -> site < N -> idle (res cg) (res cg) N rs w -> holds rs ts -> chain ts -> (forall i, site < i < N -> cright (cten_of (ts i))) ->
  (match ini with Some f => (forall i, i < N -> f i = Some (Ok (t0 i))) /\ chain t0 | None => t0 = ts end) ->
  weight ds (capplied ds (O0 site) (amp N ts)) <> c0 -> steps_lapack tau steps (prepared site rs) ->
  run true site steps tau ini mf w = Ok (r, w') -> forall k i, k <= steps -> i < N -> exists v, nth_error r (k * N + i) = Some (Some (mkE (res cx) site i (e_time_of tau k) (Some (Ok v)))) /\
  (ab2 v <= fst (weight ds (capplied ds (adjoints (O1 i)) (amp N t0))) * fst (weight ds (capplied ds (O0 site) (amp N ts))))%R.
Proof. exact (record_bound_ok N ws p ds Hds stev maxit size svd qr far HH ES EQ Hmax dT dE dM canoL dbg op0 str0 op1 str1 e0 Hop0 Hstr0 Hop1 Hstr1). Qed.
End Run.
End Corr.
Print Assumptions C73_acted.
Print Assumptions C73_overlap.
Print Assumptions C73_record.
Print Assumptions C73_bound.

(** three spins in the state (3/5, 4/5) with H = X0 + X1 + X2; the raising operator on site 1 with Z before it, the lowering operator with Z before it:
    any number of steps; the entries at time 0 *)
Example C73_case : forall steps tau, exists r w',
  tdvp_run (res cg) (res cg) (res cg) (res cx) Ub Ub Ub w_triv (w_grow y_ws) (fun a b => (a, b)) (t_rcano y_qr) (t_evo y_ws stev2 2 (fun _ => 10) y_svd (fun _ _ => false)) (t_back y_ws stev2 2 (fun _ => 10) (fun _ _ => false)) true
    (t_act z_up) (Some (t_act z_sign)) m_triv m_triv m_right (m_left (Some z_sign)) (m_val z_down) (m_phase (1 / 2)) true 1 steps tau None fnone y_w = Ok (r, w') /\ length r = 3 * (steps + 1) /\
  nth_error r 0 = Some (Some (mkE (res cx) 1 0 0%Q (Some (Ok (turned (1 / 2) 0 (cre (144 / 625))))))) /\ nth_error r 1 = Some (Some (mkE (res cx) 1 1 0%Q (Some (Ok (turned (1 / 2) 0 (cre (16 / 25))))))).
Proof.
  intros steps tau.
  destruct (C73_record 3 y_ws 2 [2; 2; 2] eq_refl z_up (Some z_sign) z_down (Some z_sign) (1 / 2) eq_refl eq_refl eq_refl eq_refl stev2 2 (fun _ => 10) y_svd y_qr (fun _ _ => false) y_herm y_svd_ok y_qr_ok ltac:(lia) Ub Ub Ub (fun a b => (a, b)) true
    1 steps tau None y_ts fnone (fun i => Ok (y_ts i)) y_ts y_w) as [r [w' [psi [R1 [R2 [R3 [R4 [R5 R6]]]]]]]]; auto using y_chain, y_steps, z_nz.
  - repeat split.
  - intros i _. reflexivity.
  - intros i Hi. apply (proj2 y_center). lia.
  - exists r, w'. split; [exact R1|]. split; [exact R2|]. destruct z_corr as [Z1 Z0].
    rewrite (R6 0 0 ltac:(lia) ltac:(lia) : nth_error r 0 = _), (R6 0 1 ltac:(lia) ltac:(lia) : nth_error r 1 = _). cbn [e_time_of].
    rewrite <- Z1, <- Z0, !(corr_ext _ _ _ (amp 3 y_ts) (amp 3 (psi 0)) (capplied [2; 2; 2] (cstring 3 (str_of (Some z_sign)) (op_of z_up) 1) (amp 3 y_ts))) by auto. auto.
Qed.
Example C73_case_acted : holds 3 (fun i => Ok (y_ts i)) y_ts /\ chain 3 y_ws [2; 2; 2] y_ts /\ square 2 z_up /\ square 2 z_sign /\ weight [2; 2; 2] (capplied [2; 2; 2] (cstring 3 (str_of (Some z_sign)) (op_of z_up) 1) (amp 3 y_ts)) = cre (16 / 25).
Proof. split; [intros i _; reflexivity|]. split; [exact y_chain|]. split; [reflexivity|]. split; [reflexivity|exact z_weight]. Qed.
