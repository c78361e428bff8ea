(** Bounds of the adaptive noise; chains of two sites; runs without noises; environments left by an earlier run. *)
From Coq Require Import List Arith Lia Bool ZArith QArith Qminmax Qabs.
From Verif Require Import Base Disk SweepSpec DiskFacts TwoSite TwoSiteFacts TwoSiteCrash SweepInst VmpsInit NoiseSpec VmpsInitFacts Noise NoiseFacts NoiseRule.
Import ListNotations.

(** *** the noise rule *)
Section Rule.
Local Open Scope Q_scope.
Variable rnd : Q -> Q.
Hypothesis rnd_mono : forall x y, x <= y -> rnd x <= rnd y.
Hypothesis rnd_0 : rnd 0 == 0.
Variables alpha dec inc mx : Q.
Hypothesis Hdec : 0 <= dec <= 1.
Hypothesis Hinc : 1 <= inc.
Hypothesis Hmx : 0 <= mx.
Notation rule := (rule rnd alpha dec inc mx).
(** a double: rounding leaves it *)
Definition repr (x : Q) : Prop := rnd x == x.
Hypothesis rnd_repr : forall x, repr (rnd x).
Hypothesis mx_repr : repr mx.
Definition within (M x : Q) : Prop := 0 <= x /\ x <= M /\ repr x.
Lemma qeq_le : forall x y : Q, x == y -> x <= y.
Proof. intros x y H. rewrite H. apply Qle_refl. Qed.
Lemma dec_le : forall x, 0 <= x -> x * dec <= x.
Proof. intros x Hx. apply Qle_trans with (1 * x); [|apply qeq_le; ring]. rewrite (Qmult_comm x dec). apply Qmult_le_compat_r; tauto. Qed.
Lemma rnd_pos : forall x, 0 <= x -> 0 <= rnd x.
Proof. intros x Hx. apply Qle_trans with (rnd 0); [apply qeq_le; symmetry; exact rnd_0|apply rnd_mono; auto]. Qed.
Lemma rule_within : forall M s a, mx <= M -> within M (nz s) -> within M (rule s a).
Proof.
  intros M s a HM [H1 [H2 H3]]. unfold NoiseRule.rule. destruct (qleb _ 0); [repeat split; auto|]. destruct (qleb _ _).
  - assert (X : rnd (nz s * dec) <= nz s).
    { apply Qle_trans with (rnd (nz s)); [|apply qeq_le; exact H3]. apply rnd_mono. apply dec_le. auto. }
    split; [|split; [apply Qle_trans with (nz s); auto|apply rnd_repr]]. apply rnd_pos. apply Qmult_le_0_compat; tauto.
  - assert (Y : 0 <= rnd (nz s * inc)). { apply rnd_pos. apply Qmult_le_0_compat; auto. apply Qle_trans with 1; auto. discriminate. }
    unfold qmin, qleb. destruct (Qle_bool (rnd (nz s * inc)) mx) eqn:EQ; cbn [negb].
    + apply Qle_bool_iff in EQ. split; auto. split; [apply Qle_trans with mx; auto|apply rnd_repr].
    + repeat split; auto.
Qed.
(** decreasing and increasing really do what they say *)
Lemma rule_cases : forall s a, repr (nz s) -> 0 <= nz s ->
  (a - e0 s <= 0 -> rule s a = nz s) /\ (rule s a <= nz s \/ rule s a <= mx).
Proof.
  intros s a HR HP. unfold NoiseRule.rule. split.
  - intros H. unfold qleb. replace (Qle_bool (rnd (a - e0 s)) 0) with true; auto. symmetry. apply Qle_bool_iff. apply Qle_trans with (rnd 0); [apply rnd_mono; auto|apply qeq_le; exact rnd_0].
  - destruct (qleb _ 0); [left; apply Qle_refl|]. destruct (qleb _ _).
    + left. apply Qle_trans with (rnd (nz s)); [|apply qeq_le; exact HR]. apply rnd_mono. apply dec_le. auto.
    + right. unfold qmin, qleb. destruct (Qle_bool (rnd (nz s * inc)) mx) eqn:EQ; cbn [negb]; [apply Qle_bool_iff; auto|apply Qle_refl].
Qed.

Section Run.
Variables T E : Type.
Variables (dT : T) (dE : E) (triv : side -> E) (grow : side -> nat -> E -> T -> E).
Variables (canoL canoR : T -> T -> T * T).
Variables (bigL smallL bigR smallR : T -> bool) (combL combR : T -> T -> T * T).
Variable ept : bool -> nat -> E -> T -> T -> E -> Q.
Variable solve2 : bool -> nat -> E -> T -> T -> E -> T * T * nst.
Variable dbg : bool.
Variable noises : list Q.
Variable M : Q.
Hypothesis HM : mx <= M.
Hypothesis Hn : Forall (within M) noises.
Notation world := (world T E nst).
Notation nsolve u := (nsolve rnd alpha dec inc mx T E ept u).
Notation nexec1 u := (nexec1 T E nst dT dE triv grow canoL canoR (nsolve u) (npreset noises) ncarry solve2 dbg).
Notation nexec u := (nexec T E nst dT dE triv grow canoL canoR (nsolve u) (npreset noises) ncarry solve2 dbg).
Notation run_noise u := (run_noise T E nst dT dE triv grow canoL canoR bigL smallL bigR smallR combL combR (nsolve u) (npreset noises) ncarry solve2 dbg).
Definition ok_state (w : world) : Prop := forall s, eng T E nst w = Some s -> within M (nz s).
Definition quiet (c : ninstr) : Prop := match c with B c => no_upd c | _ => True end.
Lemma ok_step : forall u c w w', quiet c -> ok_state w -> nexec1 u c w = Ok w' -> ok_state w'.
Proof.
  intros u c w w' HQ HO H. destruct c as [c|rt l nn|k].
  - cbn in H. unfold ok_state. rewrite (eng_kept1 T E nst dT dE triv grow solve2 canoL canoR dbg c w w'); auto.
  - cbn [Noise.nexec1] in H. inv_bind H. inv_bind H. inv_bind H. inv_bind H. inv_bind H. inv_bind H.
    unfold NoiseRule.nsolve in H. destruct (u rt l a a1 a2 a0 a3 _) as [[[x y] z] e] eqn:EU. inv_bind H. inv_bind H. inv_bind H. inv_bind H. injection H as <-.
    intros s Hs. cbn in Hs. injection Hs as <-. cbn [nz]. apply rule_within; auto. apply HO. unfold use in Hb4. destruct (eng T E nst w); [injection Hb4 as ->; auto|discriminate].
  - cbn in H. injection H as <-. intros s Hs. cbn in Hs. unfold npreset in Hs. destruct (nth_error noises k) as [n|] eqn:EN.
    + injection Hs as <-. cbn. rewrite Forall_forall in Hn. apply Hn. eapply nth_error_In; eauto.
    + destruct (eng T E nst w) eqn:EE; [|discriminate]. cbn in Hs. injection Hs as <-. cbn. apply HO. auto.
Qed.
Lemma ok_run : forall u p w w', Forall quiet p -> ok_state w -> nexec u p w = Ok w' -> ok_state w'.
Proof.
  induction p as [|c p IH]; intros w w' HF HO H; cbn in H; [injection H as <-; auto|]. inv_bind H. apply (IH a w'); auto; [exact (Forall_inv_tail HF)|]. eapply ok_step; eauto. exact (Forall_inv HF).
Qed.
(** the updates are only called with a noise in range: what they would do with another noise has no influence *)
Lemma same_step : forall u u' c w, (forall rt l el a b er c n, within M n -> u rt l el a b er c n = u' rt l el a b er c n) -> ok_state w -> nexec1 u c w = nexec1 u' c w.
Proof.
  intros u u' c w HU HO. destruct c as [c|rt l nn|k]; auto. cbn [Noise.nexec1].
  destruct (getE T E nst L l w); auto. cbn [bind]. destruct (getE T E nst R (nm T E nst w - (l + 2)) w); auto. cbn [bind]. destruct (getM T E nst l w); auto. cbn [bind].
  destruct (getM T E nst (l + 1) w); auto. cbn [bind]. destruct (getM T E nst nn w); auto. cbn [bind]. destruct (use (eng T E nst w)) as [s| |] eqn:EU; auto. cbn [bind].
  unfold NoiseRule.nsolve. rewrite HU; auto. apply rule_within; auto. apply HO. destruct (eng T E nst w); [injection EU as ->; auto|discriminate].
Qed.
Lemma same_run : forall u u' p w, (forall rt l el a b er c n, within M n -> u rt l el a b er c n = u' rt l el a b er c n) -> Forall quiet p -> ok_state w -> nexec u p w = nexec u' p w.
Proof.
  intros u u' p w HU. revert w. induction p as [|c p IH]; intros w HF HO; auto. cbn [Noise.nexec]. rewrite (same_step u u' c w HU HO).
  destruct (nexec1 u' c w) as [w1| |] eqn:E1; auto. cbn [bind]. apply IH; [exact (Forall_inv_tail HF)|]. eapply ok_step; eauto. exact (Forall_inv HF).
Qed.
Lemma quiet_sweep : forall n lb rb k, Forall quiet (sweep3 n lb rb k).
Proof.
  intros n lb rb k. unfold sweep3. apply Forall_app. split; [repeat constructor|]. apply Forall_app. split.
  - apply Forall_flat_map. apply Forall_forall. intros i _. unfold step_right3, load_right3. destruct (i =? lb); repeat constructor.
  - apply Forall_flat_map. apply Forall_forall. intros i _. unfold step_left3, load_left3. destruct (i =? rb); repeat constructor.
Qed.
Lemma quiet_prog : forall n lb rb k, Forall quiet (noise_prog n lb rb k).
Proof.
  intros n lb rb k. unfold noise_prog. apply Forall_app. split; [repeat constructor|]. apply Forall_app. split; [|repeat constructor].
  apply Forall_flat_map. apply Forall_forall. intros i _. apply quiet_sweep.
Qed.
Lemma run_within : forall u sweeps w s w', run_noise u false sweeps w = Ok (s, w') -> within M (nz s).
Proof.
  intros u sweeps w s w' H. unfold Noise.run_noise in H. cbn [bind] in H. inv_bind H. destruct a as [[lb rb] w1]. inv_bind H. inv_bind H. injection H as -> ->.
  assert (O : ok_state w') by (eapply ok_run; [apply quiet_prog| |exact Hb0]; intros s1 Hs; discriminate).
  apply O. unfold use in Hb1. destruct (eng T E nst w'); [injection Hb1 as ->; auto|discriminate].
Qed.
Lemma run_same : forall u u' sweeps w, (forall rt l el a b er c n, within M n -> u rt l el a b er c n = u' rt l el a b er c n) -> run_noise u false sweeps w = run_noise u' false sweeps w.
Proof.
  intros u u' sweeps w HU. unfold Noise.run_noise. cbn [bind]. destruct (vmps_init _ _ _ _ _ _ _ _ _ _ _ _ _ _ _ _ _ w) as [[[lb rb] w1]| |]; auto. cbn [bind].
  rewrite (same_run u u'); auto; [apply quiet_prog|]. intros s Hs. discriminate.
Qed.
End Run.
End Rule.

Local Open Scope nat_scope.
(** *** no noises given *)
Section Empty.
Variables T E St : Type.
Variables (dT : T) (dE : E) (triv : side -> E) (grow : side -> nat -> E -> T -> E).
Variables (canoL canoR : T -> T -> T * T).
Variables (bigL smallL bigR smallR : T -> bool) (combL combR : T -> T -> T * T).
Variable solve3 : bool -> nat -> E -> T -> T -> E -> T -> St -> T * T * T * St.
Variable carry : St -> St.
Variable solve2 : bool -> nat -> E -> T -> T -> E -> T * T * St.
Variable dbg : bool.
Notation nexec := (nexec T E St dT dE triv grow canoL canoR solve3 (fun _ => None) carry solve2 dbg).
Lemma none_kept : forall p w w', Forall quiet p -> eng T E St w = None -> nexec p w = Ok w' -> eng T E St w' = None.
Proof.
  induction p as [|c p IH]; intros w w' HF HE H; cbn [Noise.nexec] in H; [injection H as <-; auto|]. inv_bind H. apply (IH a w'); auto; [exact (Forall_inv_tail HF)|]. apply Forall_inv in HF.
  destruct c as [c|rt l nn|k]; cbn [Noise.nexec1] in Hb.
  - rewrite (eng_kept1 T E St dT dE triv grow solve2 canoL canoR dbg c w a); auto.
  - exfalso. rewrite HE in Hb. cbn in Hb. inv_bind Hb. inv_bind Hb. inv_bind Hb. inv_bind Hb. inv_bind Hb. discriminate.
  - injection Hb as <-. cbn. rewrite HE. auto.
Qed.
Lemma no_noise_never_returns : forall sweeps w r, run_noise T E St dT dE triv grow canoL canoR bigL smallL bigR smallR combL combR solve3 (fun _ => None) carry solve2 dbg true sweeps w <> Ok r.
Proof.
  intros sweeps w r H. unfold run_noise in H. inv_bind H. inv_bind H. destruct a0 as [[lb rb] w1]. inv_bind H. inv_bind H.
  apply none_kept in Hb1; [|apply quiet_prog|reflexivity]. rewrite Hb1 in Hb2. discriminate.
Qed.
(** no sweeps: the uninitialised energy is returned *)
Lemma no_sweep_never_returns : forall preset w r, run_noise T E St dT dE triv grow canoL canoR bigL smallL bigR smallR combL combR solve3 preset carry solve2 dbg false 0 w <> Ok r.
Proof.
  intros preset w r H. unfold run_noise in H. cbn [bind] in H. inv_bind H. destruct a as [[lb rb] w1]. inv_bind H. inv_bind H.
  unfold noise_prog in Hb0. cbn [flat_map seq app] in Hb0.
  change [B (LoadM lb); B (LoadM (lb + 1)); B (CanoL lb); B (DumpM lb true); B (DumpM (lb + 1) true)] with (map B [LoadM lb; LoadM (lb + 1); CanoL lb; DumpM lb true; DumpM (lb + 1) true]) in Hb0.
  rewrite nexec_B in Hb0. apply eng_kept in Hb0; [rewrite Hb0 in Hb1; discriminate|]. repeat constructor.
Qed.
End Empty.

(** *** two sites *)
Section Two.
Variables T E En : Type.
Variables (dT : T) (dE : E) (triv : side -> E) (grow : side -> nat -> E -> T -> E) (solve : bool -> nat -> E -> T -> T -> E -> T * T * En).
Variables (canoL canoR : T -> T -> T * T).
Variables (bigL smallL bigR smallR : T -> bool) (combL combR : T -> T -> T * T).
Notation boundary := (boundary T E En dT dE triv grow solve canoL canoR bigL smallL bigR smallR combL combR).
Lemma two_sites : forall ts w, nm T E En w = 2 -> mem_empty T E En 2 w -> on_disk T E En 2 ts w ->
  (exists w', boundary false w = Ok (0, 0, w') /\ dm T E En w' 0 = Some (ts 0) /\ dm T E En w' 1 = Some dT /\ mm T E En w' 1 = Some dT) /\
  boundary true w = Abort /\
  (exists w', exec T E En dT dE triv grow solve canoL canoR true ([EmptyM; LoadM 0] ++ dumps [0; 1]) w = Ok w' /\ dm T E En w' 1 = Some dT).
Proof.
  intros ts w H1 H2 H3. destruct w as [nm_ mm_ ne_ le0 re0 acc_ eng_ dm_ dl_ dr_ tmp_]. cbn in H1. subst nm_.
  pose proof (H2 0 ltac:(lia)) as M0. pose proof (H2 1 ltac:(lia)) as M1. pose proof (H3 0 ltac:(lia)) as D0. pose proof (H3 1 ltac:(lia)) as D1. cbn in M0, M1, D0, D1.
  split; [|split].
  - unfold VmpsInit.boundary. cbn. rewrite D0. cbn. eexists. split; [reflexivity|]. cbn. unfold fset. cbn. rewrite M1. auto.
  - unfold VmpsInit.boundary. cbn. rewrite M0, M1. cbn. rewrite D0. cbn. reflexivity.
  - cbn. rewrite M0, M1. cbn. rewrite D0. cbn. eexists. split; [reflexivity|]. cbn. unfold fset. cbn. rewrite M1. reflexivity.
Qed.
End Two.
