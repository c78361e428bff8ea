(** Property C77: from AddTerm to the result of a run.  The MPO that the generator makes stands for the sum [H] of the terms that the user added, and what
    VMPS, DMRG and TDVP minimise, conserve and report with it is the expectation value of that sum; no MPO occurs in the conclusions.
    [mps_on]: the tensors of the MPS fit together and to the sites; [amp], [damp]: amplitudes of an MPS; [state_of_energy ds H psi e]: <psi|psi> = 1, <psi|H|psi> = e;
    [mean]: <psi|H|psi> / <psi|psi>; [at_least ds H lam]: no state has an energy below lam. *)
From Coq Require Import List Arith Bool Lia QArith Qreals Reals Lra.
From Verif Require Import Base Disk SweepSpec NoiseSpec Dmrg DmrgSpec TwoSite TwoSiteFacts SingleSite SingleSpec SingleFacts Tdvp TdvpSpec TdvpRun
  MpoGen MpoSpec MpoTen MpoTopSpec MpoRunSpec FiniteMps FmpsSpec EffHam EffHamSpec ChainSpec Legs VmpsSpec Cx GVec CorrSpec ChainUpdate DmrgUpdate DmrgVarSpec DmrgVarInst
  ConserveSpec ConserveInst TdvpRun SingleUpdate SingleVarSpec SingleVarInst EigenSpec EndSpec MpoUse EndRun EndFloor EndInst Prop_Variational Prop_Conserve Prop_SingleVar Prop_Eigen.
Import ListNotations.
Local Open Scope nat_scope.

Section End.
Variables (reqb : cx -> cx -> bool) (isneg small : cx -> bool).
Hypothesis reqb_spec : forall x y, reqb x y = true <-> x = y.
(** quantum numbers of operators *)
Variables (Q : Type) (q0 : Q) (qsub : Q -> Q -> Q) (qeqb : Q -> Q -> bool) (dv : lop cx -> Q).
Hypothesis qeqb_spec : forall a b, qeqb a b = true <-> a = b.
Hypothesis qsub_self : forall a, qsub a a = q0.
Hypothesis qsub_cancel : forall a b d, qsub a d = qsub b d -> a = b.
Hypothesis dv_neg : forall o, dv (lop_neg cx copp o) = dv o.
Variable (pd : nat -> nat).                                  (* dimension of a physical index *)
Variable blk : nat -> nat -> nat -> Q -> Prop.
Variables (phys : list nat) (idops : list (lop cx)).         (* the sites *)
Hypothesis Hid : good_ids cx pd Q qsub dv phys idops.
Hypothesis Hbi : Forall (block_op cx c0 Q dv blk) idops.
(** legal calls of AddTerm, one of them with a coefficient that counts; no one-site term twice, no implicit tail string that starts with a negative number *)
Variables (calls : list (acall cx)) (ops : list (nat -> lop cx)).
Notation counted := (acounted cx c0 reqb small).
Hypothesis HL : legal cx c0 reqb small phys idops pd Q q0 qsub dv blk calls ops.
Hypothesis HE : existsb counted calls = true.
Hypothesis HT : no_twice cx c0 copp reqb isneg (filter counted calls).
Hypothesis HS : Forall (fun a => tail_neg cx c0 reqb isneg a = false) (filter counted calls).
Notation N := (length phys). Notation ds := (map pd phys). Notation H := (sum_of_terms reqb small phys calls ops).
Notation run dbg := (run cx c0 c1 copp reqb isneg small dbg phys idops calls).
Notation Gen dbg compress g := (gen_mpo cx c0 cadd cmul Q qsub qeqb dv dbg compress q0 g).
Notation GenMatReprMPO dbg g := (gen_mat_mpo cx c0 cadd cmul dbg g).
Notation tensors mt := (mpo_g cx c0 reqb Q pd phys mt). Notation matrices mt := (mat_g cx c0 mt).
Let GU := gen_usable reqb isneg small reqb_spec Q q0 qsub qeqb dv qeqb_spec qsub_self qsub_cancel dv_neg pd blk phys idops Hid Hbi calls ops HL HE HT HS.
Let MU := mat_usable reqb isneg small reqb_spec Q q0 qsub qeqb dv qeqb_spec qsub_self qsub_cancel dv_neg pd blk phys idops Hid Hbi calls ops HL HE HT HS.

(** the sum of the terms is Hermitian *)
Hypothesis HH : hermitian ds H.

Section Vmps.
Variables (stev : list real -> list real -> list real * list real) (maxit : nat) (size : list nat -> nat) (svd : nat -> cg -> cg * cg * cg) (close : real -> real -> bool).
Hypothesis Hmax : 2 <= maxit.
Variables (dT dE : res cg) (canoL canoR : res cg -> res cg -> res cg * res cg) (dbg2 : bool).
(** two-site VMPS: the returned energy is <psi|H|psi> of the stored state, which is normalized; it is not above the one of the initial state, and not below any
    lower bound of H *)
Theorem C77_vmps : exact_gsvd svd -> forall dbg, exists g, run dbg = Ok g /\ forall dbg' compress, exists mt, Gen dbg' compress g = Ok mt /\ let ws := tensors mt in
  forall k rs ts w, 3 <= N -> startable (res cg) (res cg) (res real) w_triv (w_grow ws) N rs w -> holds N rs ts -> mps_on N ds ts -> mixed_at N 0 ts -> norm_sq ds (amp N ts) <> c0 ->
  opts_lapack N ws stev maxit size svd close (all_bonds 0 (N - 1) (S k)) (rs, None) ->
  exists e w' rs' ts', run_two_site (res cg) (res cg) (res real) dT dE w_triv (w_grow ws) (v_update ws stev maxit size svd close) canoL canoR dbg2 (S k) w = Ok (Ok e, w') /\
  startable (res cg) (res cg) (res real) w_triv (w_grow ws) N rs' w' /\ holds N rs' ts' /\ mps_on N ds ts' /\ mixed_at N 0 ts' /\
  state_of_energy ds H (amp N ts') e /\ (e <= mean ds H (amp N ts))%R /\ (forall lam, at_least ds H lam -> (lam <= e)%R).
Proof.
  intros ES dbg. destruct (GU dbg) as [g [E1 E2]]. exists g. split; [exact E1|]. intros dbg' compress. destruct (E2 dbg' compress) as [mt [E3 U]]. exists mt. split; [exact E3|].
  intros ws k rs ts w H3 A B C D E F. rewrite <- (norm_of pd phys ts C) in E.
  destruct (C70_run N ws ds stev maxit size svd (herm_of _ _ _ _ _ _ ws U HH) ES Hmax close dT dE canoL canoR dbg2 k rs ts w H3 A B (proj1 (chain_of _ _ _ _ _ _ ws U ts) C) D E F)
    as [e [w' [rs' [ts' [R1 [R2 [R3 [R4 [R5 [R6 R7]]]]]]]]]].
  apply (chain_of _ _ _ _ _ _ ws U) in R4. pose proof (has_of _ _ _ _ _ _ ws U ts' e R4 R6) as R8. rewrite (ratio_of _ _ _ _ _ _ ws U ts C) in R7.
  exists e, w', rs', ts'. split; [exact R1|]. split; [exact R2|]. split; [exact R3|]. split; [exact R4|]. split; [exact R5|]. split; [exact R8|]. split; [exact R7|].
  intros lam. exact (bound_of _ _ _ _ _ _ _ _ lam R8).
Qed.
(** from an eigenvector of H it returns the eigenvalue and keeps the state *)
Theorem C77_vmps_eigen : exact_gsvd svd -> forall dbg, exists g, run dbg = Ok g /\ forall dbg' compress, exists mt, Gen dbg' compress g = Ok mt /\ let ws := tensors mt in
  forall k rs ts w E, 3 <= N -> startable (res cg) (res cg) (res real) w_triv (w_grow ws) N rs w -> holds N rs ts -> mps_on N ds ts -> mixed_at N 0 ts -> norm_sq ds (amp N ts) <> c0 ->
  eigenvector ds H (amp N ts) E ->
  exists w' rs' ts', run_two_site (res cg) (res cg) (res real) dT dE w_triv (w_grow ws) (v_update ws stev maxit size svd close) canoL canoR dbg2 (S k) w = Ok (Ok E, w') /\
  startable (res cg) (res cg) (res real) w_triv (w_grow ws) N rs' w' /\ holds N rs' ts' /\ mps_on N ds ts' /\ mixed_at N 0 ts' /\ normalized N ds ts' ts.
Proof.
  intros ES dbg. destruct (GU dbg) as [g [E1 E2]]. exists g. split; [exact E1|]. intros dbg' compress. destruct (E2 dbg' compress) as [mt [E3 U]]. exists mt. split; [exact E3|].
  intros ws k rs ts w X H3 A B C D E F. rewrite <- (norm_of pd phys ts C) in E.
  destruct (C75_run N ws ds stev maxit size svd (herm_of _ _ _ _ _ _ ws U HH) ES Hmax close dT dE canoL canoR dbg2 k rs ts w X H3 A B (proj1 (chain_of _ _ _ _ _ _ ws U ts) C) D E (proj1 (eigen_of _ _ _ _ _ _ ws U _ X) F))
    as [w' [rs' [ts' [R1 [R2 [R3 [R4 [R5 R6]]]]]]]].
  exists w', rs', ts'. split; [exact R1|]. split; [exact R2|]. split; [exact R3|]. split; [exact (proj2 (chain_of _ _ _ _ _ _ ws U ts') R4)|]. split; [exact R5|exact R6].
Qed.
(** single-site VMPS, with any noises and any parameters of the noise rule *)
Variables (alpha dec inc mx : real) (noises : list real) (solve2 : bool -> nat -> res cg -> res cg -> res cg -> res cg -> res cg * res cg * res s1st).
Theorem C77_single : exact_gsvd1 svd -> forall dbg, exists g, run dbg = Ok g /\ forall dbg' compress, exists mt, Gen dbg' compress g = Ok mt /\ let ws := tensors mt in
  forall k rs ts w, 2 <= N -> startable1 (res cg) (res cg) (res s1st) w_triv (w_grow ws) N rs w -> holds N rs ts -> mps_on N ds ts -> center_at N 0 ts -> norm_sq ds (amp N ts) <> c0 ->
  sweeps1_lapack alpha dec inc mx N ws stev maxit size svd close (fun k => nth_error (match map s_preset noises with [] => [s_preset 0] | _ => map s_preset noises end) k) (S k) 0 (rs, None) ->
  exists x w' rs' ts', run_single (res cg) (res cg) (res s1st) dT dE w_triv (w_grow ws) canoL canoR (s_update alpha dec inc mx N ws stev maxit size svd close) (map s_preset noises) (s_preset 0) s_carry solve2 dbg2 (S k) w = Ok (Ok x, w') /\
  startable1 (res cg) (res cg) (res s1st) w_triv (w_grow ws) N rs' w' /\ holds N rs' ts' /\ mps_on N ds ts' /\ center_at N 0 ts' /\
  state_of_energy ds H (amp N ts') (s_e0 x) /\ (s_e0 x <= mean ds H (amp N ts))%R /\ (forall lam, at_least ds H lam -> (lam <= s_e0 x)%R).
Proof.
  intros ES dbg. destruct (GU dbg) as [g [E1 E2]]. exists g. split; [exact E1|]. intros dbg' compress. destruct (E2 dbg' compress) as [mt [E3 U]]. exists mt. split; [exact E3|].
  intros ws k rs ts w H3 A B C D E F. rewrite <- (norm_of pd phys ts C) in E.
  destruct (C71_run alpha dec inc mx N ws ds stev maxit size svd close (herm_of _ _ _ _ _ _ ws U HH) ES Hmax noises dT dE canoL canoR solve2 dbg2 k rs ts w H3 A B (proj1 (chain_of _ _ _ _ _ _ ws U ts) C) D E F)
    as [x [w' [rs' [ts' [R1 [R2 [R3 [R4 [R5 [R6 [R7 _]]]]]]]]]]].
  apply (chain_of _ _ _ _ _ _ ws U) in R4. pose proof (has_of _ _ _ _ _ _ ws U ts' _ R4 R6) as R8. rewrite (ratio_of _ _ _ _ _ _ ws U ts C) in R7.
  exists x, w', rs', ts'. split; [exact R1|]. split; [exact R2|]. split; [exact R3|]. split; [exact R4|]. split; [exact R5|]. split; [exact R8|]. split; [exact R7|].
  intros lam. exact (bound_of _ _ _ _ _ _ _ _ lam R8).
Qed.
End Vmps.

Section Tdvp.
Variables (stev : list real -> list real -> list real * list real) (maxit : nat) (size : list nat -> nat) (svd : nat -> cg -> cg * cg * cg) (qr : nat -> cg -> cg * cg) (far : list cx -> list cx -> bool).
Hypothesis ES : exact_gsvd svd.
Hypothesis EQ : exact_qr qr.
Hypothesis Hmax : 2 <= maxit.
Variables (M V : Type) (dT dE : res cg) (dM : M) (canoL : res cg -> res cg -> res cg * res cg) (dbg2 : bool) (actO : res cg -> res cg) (actI : option (res cg -> res cg)).
Variables (mtr mtl : M) (mgr : res cg -> res cg -> M -> M) (mgl : M -> res cg -> res cg -> M) (mval : M -> res cg -> res cg -> M -> V) (phase : QArith_base.Q -> V -> V).
(** two-site TDVP: the stored state has the norm and the energy <psi|H|psi> of op |initial> *)
Theorem C77_tdvp : forall dbg, exists g, run dbg = Ok g /\ forall dbg' compress, exists mt, Gen dbg' compress g = Ok mt /\ let ws := tensors mt in
  forall site steps tau ini t0 mf rs w ta, 3 <= N -> site < N -> idle (res cg) (res cg) N rs w ->
  (match ini with Some f => forall i, i < N -> f i = Some (t0 i) | None => t0 = rs end) ->
  holds N (acted (res cg) actO actI site rs) ta -> mps_on N ds ta -> (forall i, site < i < N -> cright (cten_of (ta i))) -> norm_sq ds (amp N ta) <> c0 ->
  steps_lapack N ws stev maxit size svd far tau steps (center0 (res cg) (t_rcano qr) site (acted (res cg) actO actI site rs)) ->
  exists r w' ts', tdvp_run (res cg) (res cg) M V dT dE dM w_triv (w_grow ws) canoL (t_rcano qr) (t_evo ws stev maxit size svd far) (t_back ws stev maxit size far) dbg2 actO actI mtr mtl mgr mgl mval phase true site steps tau ini mf w = Ok (r, w') /\
  (forall i, i < N -> dm (res cg) (res cg) unit w' i = Some (Ok (ts' i))) /\ mps_on N ds ts' /\
  norm_sq ds (amp N ts') = norm_sq ds (amp N ta) /\ expectation ds H (amp N ts') = expectation ds H (amp N ta).
Proof.
  intros dbg. destruct (GU dbg) as [g [E1 E2]]. exists g. split; [exact E1|]. intros dbg' compress. destruct (E2 dbg' compress) as [mt [E3 U]]. exists mt. split; [exact E3|].
  intros ws site steps tau ini t0 mf rs w ta H3 Hs A B C D E F G. rewrite <- (norm_of pd phys ta D) in F.
  destruct (C69_run N ws ds stev maxit size svd qr (herm_of _ _ _ _ _ _ ws U HH) ES EQ Hmax far M V dT dE dM canoL dbg2 actO actI mtr mtl mgr mgl mval phase site steps tau ini t0 mf rs w ta H3 Hs A B C (proj1 (chain_of _ _ _ _ _ _ ws U ta) D) E F G)
    as [r [w' [ts' [R1 [R2 [R3 [R4 R5]]]]]]].
  apply (chain_of _ _ _ _ _ _ ws U) in R3. rewrite (norm_of pd phys ts' R3), (norm_of pd phys ta D) in R4. rewrite (energy_of_terms _ _ _ _ _ _ ws U ts' R3), (energy_of_terms _ _ _ _ _ _ ws U ta D) in R5.
  exists r, w', ts'. split; [exact R1|]. split; [exact R2|]. split; [exact R3|]. split; [exact R4|exact R5].
Qed.
End Tdvp.

Section Dmrg.
Variables (stev : list real -> list real -> list real * list real) (close : real -> real -> bool) (maxit : nat) (size : nat -> nat -> nat -> nat -> nat).
Variable svd : nat -> nat -> nat -> nat -> cten4 -> cten * (nat -> nat -> cx) * cten.
Variables (canoL canoR : cten -> cten -> cten * cten) (bigL smallL bigR smallR : cten -> bool) (combL combR : cten -> cten -> cten * cten) (dT : cten) (dbg2 : bool).
Hypothesis ES : exact_svd cx c0 c1 cadd cmul cconj svd.
Hypothesis Hmax : 2 <= maxit.
Hypothesis HcL : moves_right cx c0 c1 cadd cmul cconj canoL.
Hypothesis HcR : moves_left cx c0 c1 cadd cmul cconj canoR.
Hypothesis HbL : moves_right cx c0 c1 cadd cmul cconj combL.
Hypothesis HbR : moves_left cx c0 c1 cadd cmul cconj combR.
Notation triv := (fun s : side => (fun _ _ : nat => c1) : cop).
(** DMRG with the matrices of GenMatReprMPO *)
Theorem C77_dmrg : forall dbg dbg', exists g mt, run dbg = Ok g /\ GenMatReprMPO dbg' g = Ok mt /\ let ws := matrices mt in
  forall arr n ts ts0 lb rb d, ready cten cop (res real) N (fun i => mcols (ws i)) triv (d_grow ws) canoL canoR bigL smallL bigR smallR combL combR ts ts0 lb rb d -> no_emergency cten cop (res real) arr d -> 1 <= n ->
  on_sites N ds ts -> centered N 0 ts -> norm_sq ds (damp N ts) <> c0 -> lapack_along N ws stev close maxit size (d_split svd) (all_bonds lb rb n) (ts0, None) ->
  exists d' ts' e, execute cten cop (res real) dT (fun i => mrows (ws i)) (fun i => mcols (ws i)) triv (d_grow ws) (d_update ws stev close maxit size (d_split svd)) canoL canoR bigL smallL bigR smallR combL combR dbg2 arr n d = Ok d' /\
  complete cten cop (res real) N ts' d' /\ Disk.eng cten unit (res real) (Dmrg.W cten cop (res real) d') = Some (Ok e) /\ on_sites N ds ts' /\ centered N 0 ts' /\
  state_of_energy ds H (damp N ts') e /\ (e <= mean ds H (damp N ts))%R /\ (forall lam, at_least ds H lam -> (lam <= e)%R).
Proof.
  intros dbg dbg'. destruct (MU dbg dbg') as [g [mt [E1 [E2 [_ U]]]]]. exists g, mt. split; [exact E1|]. split; [exact E2|].
  intros ws arr n ts ts0 lb rb d A B Hn C D E F. rewrite <- (d_norm_of pd phys ts C) in E.
  destruct (C68_run N ws ds stev close maxit size svd canoL canoR bigL smallL bigR smallR combL combR dT dbg2 (proper_of _ _ _ _ _ _ ws U HH) ES Hmax HcL HcR HbL HbR arr n ts ts0 lb rb d A B Hn C D E F)
    as [d' [ts' [e [R1 [R2 [R3 [R4 [R5 [R6 R7]]]]]]]]].
  pose proof (d_has_of _ _ _ _ _ _ ws U ts' e R4 R6) as R8. rewrite (d_ratio_of _ _ _ _ _ _ ws U ts C) in R7.
  exists d', ts', e. split; [exact R1|]. split; [exact R2|]. split; [exact R3|]. split; [exact R4|]. split; [exact R5|]. split; [exact R8|]. split; [exact R7|].
  intros lam. exact (bound_of _ _ _ _ _ _ _ _ lam R8).
Qed.
End Dmrg.
End End.

(** a lower bound as used above: minus the sum of the absolute values of the coefficients, if no row and no column of an operator has an absolute sum above 1 *)
Theorem C77_floor : forall reqb small pd phys calls ops,
  Forall2 (fun a op => acounted cx c0 reqb small a = true -> forall i ix, nth_error phys i = Some ix -> contraction (pd ix) (op i)) calls ops ->
  at_least (map pd phys) (sum_of_terms reqb small phys calls ops) (- coef_sum reqb small calls).
Proof. exact floor. Qed.

(** *** the transverse field Ising chain of three spins, H = -Z0 Z1 - Z1 Z2 - h (X0 + X1 + X2), for every h *)
Notation s_run isneg h dbg := (run cx c0 c1 copp s_eqb isneg s_none dbg s_phys s_ids (s_calls h)).
Notation s_gen dbg compress g := (gen_mpo cx c0 cadd cmul unit s_qsub s_qeqb s_dv dbg compress tt g).
Notation s_H h := (sum_of_terms s_eqb s_none s_phys (s_calls h) s_ops).
Notation s_tensors mt := (mpo_g cx c0 s_eqb unit s_pd s_phys mt).
Example C77_case : forall isneg h, legal cx c0 s_eqb s_none s_phys s_ids s_pd unit tt s_qsub s_dv s_blk (s_calls h) s_ops /\ existsb (acounted cx c0 s_eqb s_none) (s_calls h) = true /\
  no_twice cx c0 copp s_eqb isneg (filter (acounted cx c0 s_eqb s_none) (s_calls h)) /\ hermitian [2; 2; 2] (s_H h) /\ at_least [2; 2; 2] (s_H h) (- (2 + 3 * Rabs h)).
Proof. intros isneg h. exact (conj (s_legal h) (conj (s_counted h) (conj (s_twice isneg h) (conj (s_hermitian h) (s_floor h))))). Qed.
(** two-site VMPS from the product state (3/5, 4/5), which has the energy -98/625 - 72/25 h *)
Example C77_case_vmps : forall isneg h dbg dbg' compress k, exists g mt e w' rs' ts', s_run isneg h dbg = Ok g /\ s_gen dbg' compress g = Ok mt /\
  run_two_site (res cg) (res cg) (res real) Ub Ub w_triv (w_grow (s_tensors mt)) (v_update (s_tensors mt) stev2 2 (fun _ => 10) y_svd (fun _ _ => false)) (fun a b => (a, b)) (fun a b => (a, b)) true (S k) y_w = Ok (Ok e, w') /\
  holds 3 rs' ts' /\ state_of_energy [2; 2; 2] (s_H h) (amp 3 ts') e /\ (- (2 + 3 * Rabs h) <= e <= - (98 / 625) - 72 / 25 * h)%R.
Proof.
  intros isneg h dbg dbg' compress k.
  destruct (C77_vmps s_eqb isneg s_none s_eqb_spec unit tt s_qsub s_qeqb s_dv s_qeqb_spec s_qsub_self s_qsub_cancel s_dv_neg s_pd s_blk s_phys s_ids s_good s_blocks (s_calls h) s_ops (s_legal h) (s_counted h) (s_twice isneg h) (s_tail isneg h)
    (s_hermitian h) stev2 2 (fun _ => 10) y_svd (fun _ _ => false) ltac:(lia) Ub Ub (fun a b => (a, b)) (fun a b => (a, b)) true y_svd_ok dbg) as [g [R1 R2]].
  destruct (R2 dbg' compress) as [mt [R3 R4]]. destruct (R4 k (fun i => Ok (y_ts i)) y_ts y_w) as [e [w' [rs' [ts' [A [_ [B [_ [_ [C [D F]]]]]]]]]]].
  - cbn. lia.
  - split; [reflexivity|]. split; [intros i _; reflexivity|]. split; [intros i _; reflexivity|]. intros X. discriminate.
  - intros i _. reflexivity.
  - apply s_mps.
  - exact y_mixed.
  - apply (s_norm y_ts (s_mps _) (proj1 y_nz)).
  - apply y_opts.
  - exists g, mt, e, w', rs', ts'. split; [exact R1|]. split; [exact R3|]. split; [exact A|]. split; [exact B|]. split; [exact C|]. split; [exact (F _ (s_floor h))|]. rewrite <- (mean_of _ _ _ _ (s_energy h)). exact D.
Qed.
(** without a field and with all spins up, an eigenvector: -2 *)
Example C77_case_eigen : forall isneg dbg dbg' compress k stev, exists g mt w' rs' ts', s_run isneg 0 dbg = Ok g /\ s_gen dbg' compress g = Ok mt /\
  run_two_site (res cg) (res cg) (res real) Ub Ub w_triv (w_grow (s_tensors mt)) (v_update (s_tensors mt) stev 2 (fun _ => 10) y_svd (fun _ _ => false)) (fun a b => (a, b)) (fun a b => (a, b)) true (S k) (chain_w (y_gen s_up)) = Ok (Ok (- 2)%R, w') /\
  holds 3 rs' ts' /\ normalized 3 [2; 2; 2] ts' (y_gen s_up).
Proof.
  intros isneg dbg dbg' compress k stev.
  destruct (C77_vmps_eigen s_eqb isneg s_none s_eqb_spec unit tt s_qsub s_qeqb s_dv s_qeqb_spec s_qsub_self s_qsub_cancel s_dv_neg s_pd s_blk s_phys s_ids s_good s_blocks (s_calls 0) s_ops (s_legal 0) (s_counted 0) (s_twice isneg 0) (s_tail isneg 0)
    (s_hermitian 0) stev 2 (fun _ => 10) y_svd (fun _ _ => false) ltac:(lia) Ub Ub (fun a b => (a, b)) (fun a b => (a, b)) true y_svd_ok dbg) as [g [R1 R2]].
  destruct (R2 dbg' compress) as [mt [R3 R4]]. destruct (R4 k (fun i => Ok (y_gen s_up i)) (y_gen s_up) (chain_w (y_gen s_up)) (- 2)%R) as [w' [rs' [ts' [A [_ [B [_ [_ C]]]]]]]].
  - cbn. lia.
  - split; [reflexivity|]. split; [intros i _; reflexivity|]. split; [intros i _; reflexivity|]. intros X. discriminate.
  - intros i _. reflexivity.
  - apply s_mps.
  - exact s_up_mixed.
  - exact s_up_nz.
  - exact s_eigen.
  - exists g, mt, w', rs', ts'. split; [exact R1|]. split; [exact R3|]. split; [exact A|]. split; [exact B|exact C].
Qed.
(** single-site VMPS *)
Example C77_case_single : forall isneg h dbg dbg' compress k, exists g mt x w' rs' ts', s_run isneg h dbg = Ok g /\ s_gen dbg' compress g = Ok mt /\
  run_single (res cg) (res cg) (res s1st) Ub Ub w_triv (w_grow (s_tensors mt)) (fun a b => (a, b)) (fun a b => (a, b)) (s_update (1 / 2) (9 / 10) (11 / 10) 1 3 (s_tensors mt) stev2 2 (fun _ => 10) y_svd1 (fun _ _ => false))
    (map s_preset [(1 / 10)%R]) (s_preset 0) s_carry (fun _ _ _ _ _ _ => (Ub, Ub, Ub)) true (S k) (chain_w y_ts) = Ok (Ok x, w') /\
  holds 3 rs' ts' /\ state_of_energy [2; 2; 2] (s_H h) (amp 3 ts') (s_e0 x) /\ (- (2 + 3 * Rabs h) <= s_e0 x <= - (98 / 625) - 72 / 25 * h)%R.
Proof.
  intros isneg h dbg dbg' compress k.
  destruct (C77_single s_eqb isneg s_none s_eqb_spec unit tt s_qsub s_qeqb s_dv s_qeqb_spec s_qsub_self s_qsub_cancel s_dv_neg s_pd s_blk s_phys s_ids s_good s_blocks (s_calls h) s_ops (s_legal h) (s_counted h) (s_twice isneg h) (s_tail isneg h)
    (s_hermitian h) stev2 2 (fun _ => 10) y_svd1 (fun _ _ => false) ltac:(lia) Ub Ub (fun a b => (a, b)) (fun a b => (a, b)) true (1 / 2) (9 / 10) (11 / 10) 1 [(1 / 10)%R] (fun _ _ _ _ _ _ => (Ub, Ub, Ub)) y_svd1_ok dbg) as [g [R1 R2]].
  destruct (R2 dbg' compress) as [mt [R3 R4]]. destruct (R4 k (fun i => Ok (y_ts i)) y_ts (chain_w y_ts)) as [x [w' [rs' [ts' [A [_ [B [_ [_ [C [D F]]]]]]]]]]].
  - cbn. lia.
  - apply chain_w_ok.
  - intros i _. reflexivity.
  - apply s_mps.
  - exact y_center.
  - apply (s_norm y_ts (s_mps _) (proj1 y_nz)).
  - apply y_sweeps1.
  - exists g, mt, x, w', rs', ts'. split; [exact R1|]. split; [exact R3|]. split; [exact A|]. split; [exact B|]. split; [exact C|]. split; [exact (F _ (s_floor h))|]. rewrite <- (mean_of _ _ _ _ (s_energy h)). exact D.
Qed.
(** TDVP: X acts on spin 1 *)
Example C77_case_tdvp : forall isneg h dbg dbg' compress steps tau, exists g mt r w' ts', s_run isneg h dbg = Ok g /\ s_gen dbg' compress g = Ok mt /\
  tdvp_run (res cg) (res cg) nat nat Ub Ub 0 w_triv (w_grow (s_tensors mt)) (fun a b => (a, b)) (t_rcano y_qr) (t_evo (s_tensors mt) stev2 2 (fun _ => 10) y_svd (fun _ _ => false)) (t_back (s_tensors mt) stev2 2 (fun _ => 10) (fun _ _ => false)) true
    (t_act y_op) None 0 0 (fun _ _ m => m) (fun m _ _ => m) (fun m _ _ _ => m) (fun _ v => v) true 1 steps tau None fnone y_w = Ok (r, w') /\
  (forall i, i < 3 -> dm (res cg) (res cg) unit w' i = Some (Ok (ts' i))) /\ norm_sq [2; 2; 2] (amp 3 ts') = norm_sq [2; 2; 2] (amp 3 y_ta) /\
  expectation [2; 2; 2] (s_H h) (amp 3 ts') = expectation [2; 2; 2] (s_H h) (amp 3 y_ta).
Proof.
  intros isneg h dbg dbg' compress steps tau.
  destruct (C77_tdvp s_eqb isneg s_none s_eqb_spec unit tt s_qsub s_qeqb s_dv s_qeqb_spec s_qsub_self s_qsub_cancel s_dv_neg s_pd s_blk s_phys s_ids s_good s_blocks (s_calls h) s_ops (s_legal h) (s_counted h) (s_twice isneg h) (s_tail isneg h)
    (s_hermitian h) stev2 2 (fun _ => 10) y_svd y_qr (fun _ _ => false) y_svd_ok y_qr_ok ltac:(lia) nat nat Ub Ub 0 (fun a b => (a, b)) true (t_act y_op) None 0 0 (fun _ _ m => m) (fun m _ _ => m) (fun m _ _ _ => m) (fun _ v => v) dbg) as [g [R1 R2]].
  destruct (R2 dbg' compress) as [mt [R3 R4]]. destruct (R4 1 steps tau None (fun i => Ok (y_ts i)) fnone (fun i => Ok (y_ts i)) y_w y_ta) as [r [w' [ts' [A [B [_ [C D]]]]]]].
  - cbn. lia.
  - cbn. lia.
  - repeat split.
  - reflexivity.
  - exact y_acted.
  - exact s_mps_acted.
  - exact y_ta_right.
  - apply (s_norm y_ta s_mps_acted (proj2 y_nz)).
  - apply y_steps.
  - exists g, mt, r, w', ts'. split; [exact R1|]. split; [exact R3|]. split; [exact A|]. split; [exact B|]. split; [exact C|exact D].
Qed.
(** DMRG, initially all up *)
Example C77_case_dmrg : forall isneg h dbg dbg' n, 1 <= n -> exists g mt d' ts' e, s_run isneg h dbg = Ok g /\ gen_mat_mpo cx c0 cadd cmul dbg' g = Ok mt /\ let ws := mat_g cx c0 mt in
  execute cten cop (res real) (x_ts 0) (fun i => mrows (ws i)) (fun i => mcols (ws i)) (fun _ _ _ => c1) (d_grow ws) (d_update ws stev2 (fun _ _ => false) 2 (fun _ _ _ _ => 10) (d_split xsvd))
    xright xleft (fun _ => false) x_small (fun _ => false) x_small xright xleft true (fun _ => (false, false)) n x_d = Ok d' /\
  complete cten cop (res real) 3 ts' d' /\ Disk.eng cten unit (res real) (Dmrg.W cten cop (res real) d') = Some (Ok e) /\
  state_of_energy [2; 2; 2] (s_H h) (damp 3 ts') e /\ (- (2 + 3 * Rabs h) <= e <= mean [2%nat; 2%nat; 2%nat] (s_H h) (damp 3 x_ts))%R.
Proof.
  intros isneg h dbg dbg' n Hn.
  destruct (C77_dmrg s_eqb isneg s_none s_eqb_spec unit tt s_qsub s_qeqb s_dv s_qeqb_spec s_qsub_self s_qsub_cancel s_dv_neg s_pd s_blk s_phys s_ids s_good s_blocks (s_calls h) s_ops (s_legal h) (s_counted h) (s_twice isneg h) (s_tail isneg h)
    (s_hermitian h) stev2 (fun _ _ => false) 2 (fun _ _ _ _ => 10) xsvd xright xleft (fun _ => false) x_small (fun _ => false) x_small xright xleft (x_ts 0) true xsvd_ok ltac:(lia) xright_ok xleft_ok xright_ok xleft_ok dbg dbg') as [g [mt [R1 [R2 R3]]]].
  destruct (R3 (fun _ => (false, false)) n x_ts x_ts0 0 2 x_d) as [d' [ts' [e [A [B [C [_ [_ [D [E F]]]]]]]]]].
  - apply s_ready.
  - split; reflexivity.
  - exact Hn.
  - exact x_on.
  - exact x_center.
  - exact s_damp.
  - apply stev2_along.
  - exists g, mt, d', ts', e. split; [exact R1|]. split; [exact R2|]. split; [exact A|]. split; [exact B|]. split; [exact C|]. split; [exact D|]. split; [exact (F _ (s_floor h))|exact E].
Qed.
Print Assumptions C77_vmps.
Print Assumptions C77_vmps_eigen.
Print Assumptions C77_single.
Print Assumptions C77_tdvp.
Print Assumptions C77_dmrg.
Print Assumptions C77_floor.
