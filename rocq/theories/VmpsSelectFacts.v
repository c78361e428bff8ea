From Coq Require Import List Arith Lia Bool Floats.SpecFloat.
From Verif Require Import Base Disk SweepSpec DiskFacts TwoSite TwoSiteFacts VmpsInit NoiseSpec VmpsInitFacts Noise NoiseFacts NoiseMore VmpsSelect.
Import ListNotations.
Local Open Scope nat_scope.

Lemma above0_true x : (forall s, x <> S754_zero s) -> x <> S754_nan -> above0 x = true.
Proof. intros H1 H2. destruct x; try reflexivity; [destruct (H1 s eq_refl)|destruct (H2 eq_refl)]. Qed.
Lemma above0_false x : (exists s, x = S754_zero s) \/ x = S754_nan -> above0 x = false.
Proof. intros [[s ->]| ->]; reflexivity. Qed.
Lemma above0_cases x : (above0 x = true /\ (forall s, x <> S754_zero s) /\ x <> S754_nan) \/ (above0 x = false /\ ((exists s, x = S754_zero s) \/ x = S754_nan)).
Proof. destruct x; [right|left|right|left]; (split; [reflexivity|]); eauto; split; intros; discriminate. Qed.
Lemma any_true l : forall x, In x l -> above0 x = true -> any_above0 l = true.
Proof. induction l as [|y l IH]; intros x HI HX; [destruct HI|]. cbn. destruct HI as [->|HI]; [rewrite HX; auto|]. destruct (above0 y); eauto. Qed.
Lemma any_false l : Forall (fun x => above0 x = false) l -> any_above0 l = false.
Proof. induction 1 as [|x l H F IH]; auto. cbn. rewrite H. auto. Qed.
Lemma any_inv l : (any_above0 l = true /\ exists x, In x l /\ (forall s, x <> S754_zero s) /\ x <> S754_nan) \/
  (any_above0 l = false /\ Forall (fun x => (exists s, x = S754_zero s) \/ x = S754_nan) l).
Proof.
  induction l as [|y l [[A (x & B & C)]|[A B]]]; [right; auto| |].
  - left. split; [cbn; rewrite A; destruct (above0 y); auto|]. exists x. split; [right|]; auto.
  - destruct (above0_cases y) as [(P & Q)|(P & Q)]; [left|right]; cbn; rewrite P; (split; auto). exists y. split; [left|]; auto.
Qed.
Lemma valid_any sweeps noises : p_valid (params_noised sweeps noises) = any_above0 noises.
Proof. destruct noises; reflexivity. Qed.

Lemma select_processes : forall procs sweeps noises,
  mpi_algo procs (params_noised sweeps noises) = serial_algo (params_noised sweeps noises) /\ mpi_algo procs (params_plain sweeps) = serial_algo (params_plain sweeps) /\
  (serial_algo (params_noised sweeps noises) = Noised <-> exists x, In x noises /\ (forall s, x <> S754_zero s) /\ x <> S754_nan) /\
  (serial_algo (params_noised sweeps noises) = Plain <-> Forall (fun x => (exists s, x = S754_zero s) \/ x = S754_nan) noises).
Proof.
  intros procs sweeps noises. unfold mpi_algo, serial_algo. rewrite valid_any. change (p_noises (params_noised sweeps noises)) with noises. cbn [params_plain p_valid p_noises length].
  destruct (any_inv noises) as [[A (x & B & C)]|[A B]]; rewrite A.
  - destruct noises as [|y l]; [destruct B|]. cbn [length Nat.eqb]. destruct (procs =? 1); repeat split; auto; try discriminate; eauto; intros F; exfalso; rewrite Forall_forall in F; destruct (F x B) as [[s X]|X]; destruct C as [C1 C2]; [eapply C1; eauto|auto|eapply C1; eauto|auto].
  - destruct (procs =? 1); repeat split; auto; try discriminate; intros (x & X & Y & Z); rewrite Forall_forall in B; destruct (B x X) as [[s V]|V]; exfalso; [eapply Y; eauto|auto|eapply Y; eauto|auto].
Qed.

Section Select.
Variables T E St : Type.
Variables (dT : T) (dE : E) (triv : side -> E) (grow : side -> nat -> E -> T -> E).
Variables (canoL canoR : T -> T -> T * T) (bigL smallL bigR smallR : T -> bool) (combL combR : T -> T -> T * T).
Variable solve3 : bool -> nat -> E -> T -> T -> E -> T -> St -> T * T * T * St.
Variable start : spec_float -> St.
Variable carry : St -> St.
Variable solve2 : bool -> nat -> E -> T -> T -> E -> T * T * St.
Variable dbg : bool.
Variable N : nat.
Notation two_site_vmps := (two_site_vmps T E St dT dE triv grow canoL canoR bigL smallL bigR smallR combL combR solve3 start carry solve2 dbg).
Notation run_two_site := (run_two_site T E St dT dE triv grow solve2 canoL canoR dbg).
Notation prep := (prep T canoL canoR bigL smallL bigR smallR combL combR N).

Lemma select_noised : forall sweeps noises x ts w lb rb ts1, In x noises -> (forall s, x <> S754_zero s) -> x <> S754_nan ->
  3 <= N -> nm T E St w = N -> mem_empty T E St N w -> on_disk T E St N ts w -> prep ts = (lb, rb, ts1) -> envs_fresh T E St triv grow N ts1 lb rb w ->
  exists ts2 s w', sweeps3 T E St triv grow solve3 N (fun k => option_map start (nth_error noises k)) carry lb rb (S sweeps) 0 (ts1, None) = (ts2, Some s) /\
    two_site_vmps (params_noised (S sweeps) noises) w = Ok (s, w') /\
    mem_empty T E St N w' /\ on_disk T E St N (set2 T ts2 lb (canoL (ts2 lb) (ts2 (lb + 1)))) w'.
Proof.
  intros sweeps noises x ts w lb rb ts1 HI H1 H2 HN HW HM HD HP HE.
  assert (HL : length noises =? 0 = false) by (destruct noises; [destruct HI|reflexivity]).
  destruct (run_noise_ok T E St dT dE triv grow canoL canoR bigL smallL bigR smallR combL combR solve3 (fun k => option_map start (nth_error noises k)) carry solve2 dbg N sweeps ts w lb rb ts1) as (ts2 & s & w' & A & B & C & D & F); auto.
  { destruct noises; [destruct HI|discriminate]. }
  exists ts2, s, w'. split; auto. split; auto. unfold VmpsSelect.two_site_vmps. rewrite valid_any, (any_true noises x HI (above0_true x H1 H2)).
  rewrite (ex_EmptyM T E St dT dE triv grow solve2 canoL canoR dbg). 2:{ rewrite HW. auto. } cbn [bind exec]. change (p_noises (params_noised (S sweeps) noises)) with noises. rewrite HL. unfold preset_of. cbn [p_noises params_noised p_sweeps]. destruct noises; [destruct HI|exact B].
Qed.
Lemma select_plain : forall sweeps noises w, Forall (fun x => (exists s, x = S754_zero s) \/ x = S754_nan) noises ->
  two_site_vmps (params_noised sweeps noises) w = run_two_site sweeps w /\ two_site_vmps (params_plain sweeps) w = run_two_site sweeps w.
Proof.
  intros sweeps noises w H. split; [|reflexivity]. unfold VmpsSelect.two_site_vmps. rewrite valid_any, any_false; [reflexivity|]. eapply Forall_impl; [|exact H]. intros x. apply above0_false.
Qed.
Lemma select_assigned : forall sweeps noises w, two_site_vmps (assign_noises noises (params_plain sweeps)) w = run_two_site sweeps w.
Proof. reflexivity. Qed.
Lemma select_cleared : forall sweeps noises x w r, In x noises -> (forall s, x <> S754_zero s) -> x <> S754_nan ->
  two_site_vmps (assign_noises [] (params_noised sweeps noises)) w <> Ok r.
Proof.
  intros sweeps noises x w r HI H1 H2. unfold VmpsSelect.two_site_vmps, assign_noises. cbn [p_valid p_noises p_sweeps length Nat.eqb]. rewrite valid_any, (any_true noises x HI (above0_true x H1 H2)).
  destruct (exec _ _ _ _ _ _ _ _ _ _ _ _ w) as [w1| |]; try discriminate. cbn [bind].
  intros H. refine (no_noise_never_returns T E St dT dE triv grow canoL canoR bigL smallL bigR smallR combL combR solve3 carry solve2 dbg sweeps w1 r _). exact H.
Qed.
End Select.
