(** The record of a TDVP run from an eigenstate. *)
From Coq Require Import List Arith Bool Lia QArith Qreals Reals Lra Ring_theory.
From Verif Require Import Base Disk SweepSpec Tdvp TdvpSpec TdvpFacts TdvpRun FiniteMps FmpsSpec EffHam EffHamSpec EffHamFacts ChainSpec ChainFacts Legs VmpsLocal VmpsSpec Lanczos LanczosSpec KrylovSpec Cx KrylovInst GVec GVecFacts DmrgStep ChainOne ChainPair ChainUpdate DmrgVarSpec DmrgVar ConserveSpec ConserveFacts ConserveRun ConserveVmps ConserveDisk CorrUpdate CorrSpec CorrChain CorrRun EigenSpec EigenFacts EigenRun.
Import ListNotations.
Local Open Scope nat_scope.

Lemma eigen_ext : forall N ws ds f g E, (forall c, In c (configs ds) -> f c = g c) -> eigenstate N ws ds f E -> eigenstate N ws ds g E.
Proof.
  intros N ws ds f g E H HE c' Ic. rewrite <- (H c' Ic), <- (HE c' Ic). apply (lsum_ext cx c0 cadd). intros c J. rewrite (H c J). reflexivity.
Qed.
Lemma corr_scale : forall ds os z f g g', (forall c, In c (configs ds) -> g' c = cmul z (g c)) -> ccorr ds os f g' = cmul z (ccorr ds os f g).
Proof.
  intros ds os z f g g' H. unfold corr. rewrite (lsum_mul_l cx c0 c1 cadd cmul csub copp cx_ring). apply (lsum_ext cx c0 cadd). intros c _. unfold applied.
  transitivity (cmul (cconj (f c)) (cmul z (lsum cx c0 cadd (configs ds) (fun c' => cmul (prod_op cx c0 c1 cmul os c' c) (g c'))))); [|ring]. f_equal. rewrite (lsum_mul_l cx c0 c1 cadd cmul csub copp cx_ring). apply (lsum_ext cx c0 cadd). intros k Ik. rewrite (H k Ik). ring.
Qed.

Section Run.
Variable N : nat.
Variable ws : nat -> cg.
Variables (p : nat) (ds : list nat).
Hypothesis Hds : ds = repeat p N.
Variables (stev : list real -> list real -> list real * list real) (maxit : nat) (size : list nat -> nat) (svd : nat -> cg -> cg * cg * cg) (qr : nat -> cg -> cg * cg) (far : list cx -> list cx -> bool).
Hypothesis HH : hermitian_chain N ws ds.
Hypothesis ES : exact_gsvd svd.
Hypothesis EQ : exact_qr qr.
Hypothesis Hmax : 2 <= maxit.
Variables (dT dE dM : res cg) (canoL : res cg -> res cg -> res cg * res cg) (dbg : bool).
Variables (op0 : cg) (str0 : option cg) (op1 : cg) (str1 : option cg) (e0 : real).
Hypotheses (Hop0 : square p op0) (Hstr0 : match str0 with Some g => square p g | None => True end) (Hop1 : square p op1) (Hstr1 : match str1 with Some g => square p g | None => True end).
Notation evo := (t_evo ws stev maxit size svd far). Notation back := (t_back ws stev maxit size far).
Notation run := (tdvp_run (res cg) (res cg) (res cg) (res cx) dT dE dM w_triv (w_grow ws) canoL (t_rcano qr) evo back dbg (t_act op0) (option_map t_act str0) m_triv m_triv m_right (m_left str1) (m_val op1) (m_phase e0)).
Notation after := (after (res cg) (res cg) w_triv (w_grow ws) evo back N).
Notation prepared site rs := (center0 (res cg) (t_rcano qr) site (acted (res cg) (t_act op0) (option_map t_act str0) site rs)).
Notation O0 := (fun site => cstring N (str_of str0) (op_of op0) site). Notation O1 := (fun i => cstring N (str_of str1) (op_of op1) i).

Lemma eigen_states_ok : forall site tau rs ts E, 3 <= N -> site < N -> holds N rs ts -> chain N ws ds ts -> (forall i, site < i < N -> cright (cten_of (ts i))) ->
  let phi := capplied ds (O0 site) (amp N ts) in weight ds phi <> c0 -> eigenstate N ws ds phi E ->
  forall k, exists tk, holds N (after tau k (prepared site rs)) tk /\ chain N ws ds tk /\ forall c, In c (configs ds) -> amp N tk c = cmul (turn E (e_time_of tau k)) (phi c).
Proof.
  intros site tau rs ts E H3 Hs HR HC HRi phi NZ HE k.
  destruct (acted_ok N ws p ds Hds op0 str0 Hop0 Hstr0 site rs ts Hs HR HC) as [ta [A1 [A2 [A3 A4]]]].
  assert (HRa : forall i, site < i < N -> cright (cten_of (ta i))) by (intros i Hi; rewrite A3 by exact Hi; apply HRi; exact Hi).
  destruct (center0_amp N ws ds qr EQ site _ ta Hs A1 A2 HRa) as [t0 [B1 [B2 [B3 B4]]]].
  assert (B5 : forall c, In c (configs ds) -> amp N t0 c = phi c) by (intros c Ic; rewrite B4, A4 by exact Ic; reflexivity).
  destruct (eigen_after_ok N ws ds HH stev maxit size svd ES Hmax E far tau k 0 _ t0 H3 (Nat.le_0_l 1) B1 B2 B3) as [tk [C1 [C2 [_ C3]]]].
  - rewrite <- (weight_norm N ws ds t0 B2), (weight_ext ds _ phi B5). exact NZ.
  - apply (eigen_ext N ws ds phi); [|exact HE]. intros c Ic. symmetry. apply B5. exact Ic.
  - exists tk. split; [exact C1|]. split; [exact C2|]. intros c Ic. rewrite (C3 c Ic), (B5 c Ic). reflexivity.
Qed.
Lemma eigen_record_ok : forall site steps tau ini t0 mf rs ts w E, 3 <= N -> site < N -> idle (res cg) (res cg) N rs w -> holds N rs ts -> chain N ws ds ts -> (forall i, site < i < N -> cright (cten_of (ts i))) ->
  (match ini with Some f => (forall i, i < N -> f i = Some (Ok (t0 i))) /\ chain N ws ds t0 | None => t0 = ts end) ->
  let phi := capplied ds (O0 site) (amp N ts) in weight ds phi <> c0 -> eigenstate N ws ds phi E ->
  exists r w' ts', run true site steps tau ini mf w = Ok (r, w') /\ length r = N * (steps + 1) /\
  (forall i, i < N -> dm (res cg) (res cg) unit w' i = Some (Ok (ts' i))) /\ chain N ws ds ts' /\ (forall c, In c (configs ds) -> amp N ts' c = cmul (turn E (e_time_of tau steps)) (phi c)) /\
  (forall k i, k <= steps -> i < N -> nth_error r (k * N + i) = Some (Some (mkE (res cx) site i (e_time_of tau k) (Some (Ok (turned (e0 - E) (e_time_of tau k) (ccorr ds (O1 i) (amp N t0) phi))))))).
Proof.
  intros site steps tau ini t0 mf rs ts w E H3 Hs HI HR HC HRi Hini phi NZ HE.
  assert (X : exists rs0, holds N rs0 t0 /\ chain N ws ds t0 /\ match ini with Some f => forall i, i < N -> f i = Some (rs0 i) | None => rs0 = rs end).
  { destruct ini as [f|]; [exists (fun i => Ok (t0 i)); split; [intros i _; reflexivity|]; destruct Hini; auto|]. subst t0. exists rs. auto. }
  destruct X as [rs0 [I1 [I2 I3]]].
  destruct (TdvpRun.run_ok (res cg) (res cg) (res cg) (res cx) dT dE dM w_triv (w_grow ws) canoL (t_rcano qr) evo back dbg (t_act op0) (option_map t_act str0) m_triv m_triv m_right (m_left str1) (m_val op1) (m_phase e0) N site steps tau ini rs0 mf rs w H3 Hs HI I3) as [r [w' [R1 [R2 [R3 R4]]]]].
  pose proof (eigen_states_ok site tau rs ts E H3 Hs HR HC HRi NZ HE) as ST. cbv zeta in ST. fold phi in ST. destruct (ST steps) as [ts' [S1 [S2 S3]]].
  exists r, w', ts'. split; [exact R1|]. split; [exact R2|]. split; [|split; [exact S2|split; [exact S3|]]].
  - intros i Hi. pose proof (tr_dm _ _ _ _ _ _ _ R3 i Hi) as D. rewrite D. f_equal. apply S1. exact Hi.
  - intros k i Hk Hi. pose proof (R4 k i Hk Hi) as R5. cbn [fst] in R5. unfold TdvpRun.prepared in R5. cbv iota in R5. rewrite R5. clear R5. destruct (ST k) as [tk [A1 [A2 A3]]].
    rewrite (overlap_ok N ws p ds Hds op1 str1 Hop1 Hstr1 _ rs0 tk t0 A1 I1 A2 I2 i Hi), (corr_scale ds _ _ _ phi _ A3). set (v := ccorr ds _ _ phi). destruct v as [x y].
    destruct k as [|k]; cbn [e_val m_phase bind]; do 5 f_equal.
    + cbn [e_time_of]. rewrite turn_0. unfold turned. rewrite RMicromega.Q2R_0, Rmult_0_r, cos_0, sin_0. unfold cmul, c1. cbn [fst snd]. f_equal; ring.
    + unfold turned, turn. set (t := Q2R (e_time_of tau (S k))). rewrite Rmult_minus_distr_r, cos_minus, sin_minus. unfold cmul. cbn [fst snd]. f_equal; ring.
Qed.
End Run.
