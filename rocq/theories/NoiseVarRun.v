(** Sweeps and runs of noised two-site VMPS without truncation. *)
From Coq Require Import List Arith Bool Lia QArith Qreals Reals Lra Ring_theory.
From Verif Require Import Base Disk SweepSpec NoiseSpec Noise NoiseFacts VmpsInitFacts FiniteMps FmpsSpec EffHam EffHamSpec ChainSpec Legs VmpsLocal VmpsSpec Lanczos LanczosSpec Cx GVec ChainUpdate DmrgVarSpec ConserveSpec ConserveFacts ConserveVmps SingleUpdate SingleVarSpec SingleVar SingleVarRun NoiseUpdate NoiseVarSpec NoiseVar NoiseVarPrep.
Import ListNotations.
Local Open Scope nat_scope.

(** updates of neighbouring bonds, each the next one in the direction of the update before *)
Fixpoint path3 (N c : nat) (bs : list (bool * nat)) (m : nat) : Prop :=
  match bs with [] => c = m | (rt, l) :: bs => l = c /\ c + 1 < N /\ (if rt then c + 2 < N else 1 <= c) /\ path3 N (if rt then c + 1 else c - 1) bs m end.
Lemma path3_app : forall N bs bs' c m m', path3 N c bs m -> path3 N m bs' m' -> path3 N c (bs ++ bs') m'.
Proof. intros N. induction bs as [|[rt i] bs IH]; intros bs' c m m' H H'; cbn in *; [subst; auto|]. destruct H as [H1 [H2 [H3 H4]]]. repeat split; auto. eapply IH; eauto. Qed.
Lemma path3_split : forall N bs bs' c m, path3 N c (bs ++ bs') m -> exists k, path3 N c bs k /\ path3 N k bs' m.
Proof. intros N. induction bs as [|[rt i] bs IH]; intros bs' c m H; cbn in *; [eauto|]. destruct H as [H1 [H2 [H3 H4]]]. destruct (IH _ _ _ H4) as [k [A B]]. exists k. auto. Qed.
Lemma path3_up : forall N n c, c + n + 1 < N -> path3 N c (map (fun i => (true, i)) (seq c n)) (c + n).
Proof. intros N n. induction n as [|n IH]; intros c H; cbn [seq map path3]; [lia|]. repeat split; try lia. replace (c + S n) with (S c + n) by lia. replace (c + 1) with (S c) by lia. apply IH. lia. Qed.
Lemma path3_down : forall N n lb, lb + n + 1 < N -> path3 N (lb + n) (map (fun i => (false, i - 1)) (rev (seq (lb + 2) n))) lb.
Proof.
  intros N n lb. induction n as [|n IH]; intros H; [cbn; lia|]. replace (S n) with (n + 1) at 2 by lia. rewrite seq_app, rev_app_distr. cbn [seq rev app map path3].
  repeat split; try lia. replace (lb + S n - 1) with (lb + n) by lia. apply IH. lia.
Qed.
Lemma path3_bonds : forall N lb rb, lb + 2 <= rb -> rb < N -> path3 N lb (bonds lb rb) lb.
Proof. intros N lb rb H1 H2. unfold bonds. eapply path3_app; [apply path3_up; lia|]. apply path3_down. lia. Qed.
Lemma bonds_nil : forall lb rb, lb + 2 <= rb -> bonds lb rb <> [].
Proof. intros lb rb H. unfold bonds. destruct (rb - 1 - lb) eqn:E; [lia|cbn; discriminate]. Qed.

Section Runs.
Variables alpha dec inc mx : real.
Variable N : nat.
Variable ws : nat -> cg.
Variable ds : list nat.
Hypothesis HH : hermitian_chain N ws ds.
Variables (stev : list real -> list real -> list real * list real) (maxit : nat) (size : list nat -> nat) (svd : nat -> cg -> cg * cg * cg) (close : real -> real -> bool).
Variables (covered : bool -> cg -> cg -> bool) (normal : cg -> bool) (mock : cg -> cg).
Hypothesis ES : exact_gsvd svd.
Hypothesis HM : mock_legs mock.
Hypothesis Hmax : 2 <= maxit.
Notation chain := (chain N ws ds). Notation sq_norm := (sq_norm N). Notation energy_val := (energy_val N ws). Notation holds := (holds N). Notation mixed_at := (mixed_at N). Notation center_at := (center_at N).
Notation energy_ratio := (energy_ratio N ws). Notation has_energy := (has_energy N ws).
Notation upd := (n_update alpha dec inc mx ws stev maxit size svd close covered normal mock).
Notation opt3 := (opt3 (res cg) (res cg) (res s1st) w_triv (w_grow ws) upd N). Notation opts3 := (opts3 (res cg) (res cg) (res s1st) w_triv (w_grow ws) upd N).
Notation opts3_lapack := (opts3_lapack alpha dec inc mx N ws stev maxit size svd close covered normal mock). Notation sweeps3_lapack := (sweeps3_lapack alpha dec inc mx N ws stev maxit size svd close covered normal mock).
Notation s_rule := (s_rule alpha dec inc mx).

Lemma opts3_cons : forall b bs s, opts3 (b :: bs) s = opts3 bs (opt3 b s).
Proof. reflexivity. Qed.
Lemma opts3_app : forall bs bs' s, opts3 (bs ++ bs') s = opts3 bs' (opts3 bs s).
Proof. intros. unfold NoiseSpec.opts3. apply fold_left_app. Qed.
Lemma lapack3_app : forall bs bs' s, opts3_lapack (bs ++ bs') s <-> opts3_lapack bs s /\ opts3_lapack bs' (opts3 bs s).
Proof. induction bs as [|b bs IH]; intros bs' s; cbn [app NoiseVarSpec.opts3_lapack]; [cbn; tauto|]. rewrite IH, opts3_cons. tauto. Qed.
Lemma set3_holds : forall rs ts i j k x y z, holds rs ts -> holds (fset (fset (fset rs k (Ok z)) i (Ok x)) j (Ok y)) (fset (fset (fset ts k z) i x) j y).
Proof. intros rs ts i j k x y z H n Hn. unfold fset. destruct (n =? j); [reflexivity|]. destruct (n =? i); [reflexivity|]. destruct (n =? k); [reflexivity|]. apply H. exact Hn. Qed.

(** the state after some updates: either none was made, or the energy is that of the chain *)
Lemma opts3_ok : forall bs c m rs ts s, path3 N c bs m -> holds rs ts -> chain ts -> mixed_at c ts -> sq_norm ts <> c0 -> opts3_lapack bs (rs, Ok s) ->
  exists ts' s', holds (fst (opts3 bs (rs, Ok s))) ts' /\ snd (opts3 bs (rs, Ok s)) = Ok s' /\ chain ts' /\ mixed_at m ts' /\ sq_norm ts' <> c0 /\ (energy_ratio ts' <= energy_ratio ts)%R /\
  (bs <> [] -> has_energy ts' (s_e0 s')) /\ (bs = [] -> s' = s) /\ (bs <> [] -> s_nz s' = s_rule s (fst (energy_val ts))).
Proof.
  induction bs as [|[rt i] bs IH]; intros c m rs ts s HP HR HC HMx HZ HLA.
  - cbn in HP. subst m. exists ts, s. cbn. split; [exact HR|]. split; [reflexivity|]. split; [exact HC|]. split; [exact HMx|]. split; [exact HZ|]. split; [lra|]. split; [congruence|]. split; [reflexivity|congruence].
  - cbn in HP. destruct HP as [-> [H1 [H2 HP]]]. destruct HLA as [HA HLA]. cbn [fst snd] in HA.
    destruct (noise_step_ok alpha dec inc mx N ws ds HH stev maxit size svd close covered normal mock ES HM Hmax rt c rs ts s H1 H2 HR HC HMx HZ HA) as [x [y [z [s1 [U [C1 [M1 [E1 [L1 [A1 R1]]]]]]]]]]. cbv zeta in *.
    rewrite opts3_cons, U in *. set (nn := if rt then c + 2 else c - 1) in *. set (ts1 := fset (fset (fset ts nn z) c x) (c + 1) y) in *.
    destruct (IH (if rt then c + 1 else c - 1) m (fset (fset (fset rs nn (Ok z)) c (Ok x)) (c + 1) (Ok y)) ts1 s1 HP (set3_holds rs ts c (c + 1) nn x y z HR) C1 M1 (has_nz N ws _ _ E1) HLA) as [ts' [s' [B1 [B2 [B3 [B4 [B5 [B6 [B7 [B8 B9]]]]]]]]]].
    exists ts', s'. split; [exact B1|]. split; [exact B2|]. split; [exact B3|]. split; [exact B4|]. split; [exact B5|]. split.
    { apply Rle_trans with (energy_ratio ts1); [exact B6|]. rewrite (has_ratio N ws ts1 _ E1). exact L1. }
    split; [|split; [discriminate|]]; intros _.
    + destruct bs as [|b bs]; [|apply B7; discriminate]. specialize (B8 eq_refl). subst s'. cbn in B1.
      assert (S : sites N ts' = sites N ts1) by (apply (holds_same N _ _ _ B1); apply set3_holds; exact HR).
      destruct E1 as [E1 E2]. unfold ConserveSpec.has_energy, ConserveSpec.sq_norm, ConserveSpec.energy_val in *. rewrite S. auto.
    + destruct bs as [|b bs]; [specialize (B8 eq_refl); subst s'; exact R1|]. rewrite B9 by discriminate. destruct E1 as [E1 E2]. rewrite E2. cbn [fst cre].
      unfold SingleUpdate.s_rule at 1. unfold rle at 1. destruct (Rle_dec (s_e0 s1 - s_e0 s1) 0) as [_|F]; [exact R1|]. exfalso. apply F. lra.
Qed.
Lemma energies3_ok : forall bs c m rs ts s, path3 N c bs m -> holds rs ts -> chain ts -> mixed_at c ts -> sq_norm ts <> c0 -> opts3_lapack bs (rs, Ok s) ->
  forall i j, i <= j -> j <= length bs -> exists ti tj,
  let si := opts3 (firstn i bs) (rs, Ok s) in let sj := opts3 (firstn j bs) (rs, Ok s) in
  holds (fst si) ti /\ holds (fst sj) tj /\ chain tj /\ (1 <= j -> exists x, snd sj = Ok x /\ has_energy tj (s_e0 x)) /\ (energy_ratio tj <= energy_ratio ti)%R.
Proof.
  intros bs c m rs ts s HP HR HC HMx HZ HLA i j Hij Hj. cbv zeta.
  rewrite <- (firstn_skipn j bs) in HP, HLA. destruct (path3_split _ _ _ _ _ HP) as [mj [Pj _]]. apply lapack3_app in HLA. destruct HLA as [Lj _].
  assert (E : firstn j bs = firstn i bs ++ firstn (j - i) (skipn i bs)). { replace j with (i + (j - i)) at 1 by lia. clear. generalize (j - i). intros k. revert bs. induction i as [|i IH]; intros [|b bs]; cbn [Nat.add firstn skipn app]; rewrite ?firstn_nil; auto. f_equal. apply IH. }
  assert (NE : 1 <= j -> firstn j bs <> []) by (intros H1 C; apply (f_equal (@length _)) in C; rewrite firstn_length in C; cbn in C; lia).
  destruct (opts3_ok _ _ _ rs ts s Pj HR HC HMx HZ Lj) as [tj [xj [J1 [J2 [J3 [J4 [J5 [_ [J7 _]]]]]]]]].
  rewrite E in Pj, Lj. destruct (path3_split _ _ _ _ _ Pj) as [mi [Pi Pr]]. apply lapack3_app in Lj. destruct Lj as [Li Lr].
  destruct (opts3_ok _ _ _ rs ts s Pi HR HC HMx HZ Li) as [ti [xi [B0 [B1 [B2 [B3 [B4 _]]]]]]].
  exists ti, tj. split; [exact B0|]. split; [exact J1|]. split; [exact J3|]. split; [intros H1; exists xj; auto|].
  assert (OB : opts3 (firstn j bs) (rs, Ok s) = opts3 (firstn (j - i) (skipn i bs)) (opts3 (firstn i bs) (rs, Ok s))) by (rewrite E; apply opts3_app).
  destruct (opts3 (firstn i bs) (rs, Ok s)) as [ri ei]. cbn [fst snd] in *. subst ei. destruct (opts3_ok _ _ _ ri ti xi Pr B0 B2 B3 B4 Lr) as [t2 [x2 [C1 [_ [_ [_ [_ [C _]]]]]]]].
  rewrite <- OB in C1. rewrite <- (same_ratio N ws _ _ (holds_same N _ _ _ C1 J1)). exact C.
Qed.
(** the noise after any update of a sweep *)
Lemma noise3_ok : forall bs c m rs ts n, path3 N c bs m -> holds rs ts -> chain ts -> mixed_at c ts -> sq_norm ts <> c0 -> opts3_lapack bs (rs, Ok (mkS1 n 0 0)) ->
  forall j, 1 <= j -> j <= length bs -> exists x, snd (opts3 (firstn j bs) (rs, Ok (mkS1 n 0 0))) = Ok x /\ s_nz x = if rle (fst (energy_val ts)) 0 then n else (n * dec)%R.
Proof.
  intros bs c m rs ts n HP HR HC HMx HZ HLA j H1 Hj.
  rewrite <- (firstn_skipn j bs) in HP, HLA. destruct (path3_split _ _ _ _ _ HP) as [mj [Pj _]]. apply lapack3_app in HLA. destruct HLA as [Lj _].
  assert (NE : firstn j bs <> []) by (intros C; apply (f_equal (@length _)) in C; rewrite firstn_length in C; cbn in C; lia).
  destruct (opts3_ok _ _ _ rs ts _ Pj HR HC HMx HZ Lj) as [tj [xj [_ [J2 [_ [_ [_ [_ [_ [_ J9]]]]]]]]]]. exists xj. split; [exact J2|]. rewrite J9 by auto. apply rule_start.
Qed.

(** *** sweeps *)
Variable noises : list real.
Hypothesis HNs : noises <> [].
Notation preset := (n_preset noises).
Notation sweeps3 := (sweeps3 (res cg) (res cg) (res s1st) w_triv (w_grow ws) upd N preset s_carry).
Notation start_noise := (start_noise noises).
Lemma presets_same : presets noises = noises.
Proof. unfold presets. destruct noises; [congruence|reflexivity]. Qed.
Lemma begin3_ok : forall k0 x, match preset k0 with Some x => Some x | None => option_map s_carry (Some (Ok x)) end = Some (Ok (mkS1 (start_noise k0 (s_nz x)) 0 0)).
Proof. intros k0 x. unfold n_preset, SingleVarRun.start_noise. rewrite presets_same. destruct (nth_error noises k0); reflexivity. Qed.
Lemma begin3_first : match preset 0 with Some x => Some x | None => option_map s_carry None end = Some (Ok (mkS1 (start_noise 0 0) 0 0)).
Proof. unfold n_preset, SingleVarRun.start_noise. rewrite presets_same. destruct noises; [congruence|reflexivity]. Qed.
Lemma sweeps3_ok : forall n k0 lb rb rs ts x, lb + 2 <= rb -> rb < N -> holds rs ts -> chain ts -> mixed_at lb ts -> has_energy ts (s_e0 x) -> sweeps3_lapack preset lb rb n k0 (rs, Some (Ok x)) ->
  exists ts' x', holds (fst (sweeps3 lb rb n k0 (rs, Some (Ok x)))) ts' /\ snd (sweeps3 lb rb n k0 (rs, Some (Ok x))) = Some (Ok x') /\ chain ts' /\ mixed_at lb ts' /\ has_energy ts' (s_e0 x') /\ (s_e0 x' <= s_e0 x)%R /\
  ((s_e0 x <= 0)%R -> s_nz x' = fold_left (fun z k => start_noise k z) (seq k0 n) (s_nz x)) /\
  ((0 < s_e0 x')%R -> s_nz x' = fold_left (fun z k => (start_noise k z * dec)%R) (seq k0 n) (s_nz x)).
Proof.
  induction n as [|n IH]; intros k0 lb rb rs ts x H1 H2 HR HC HMx HE HLA.
  - exists ts, x. cbn. split; [exact HR|]. split; [reflexivity|]. split; [exact HC|]. split; [exact HMx|]. split; [exact HE|]. split; [lra|]. split; reflexivity.
  - cbn [NoiseSpec.sweeps3 NoiseVarSpec.sweeps3_lapack fst snd] in *. rewrite begin3_ok in *. destruct HLA as [LA LS].
    assert (HP := path3_bonds N lb rb H1 H2).
    destruct (opts3_ok (bonds lb rb) lb lb rs ts (mkS1 (start_noise k0 (s_nz x)) 0 0) HP HR HC HMx (has_nz N ws _ _ HE) LA) as [t1 [x1 [A1 [A2 [A3 [A4 [_ [A6 [A7 [_ A9]]]]]]]]]].
    assert (NE := bonds_nil lb rb H1). specialize (A7 NE). specialize (A9 NE).
    rewrite (has_ratio N ws t1 _ A7), (has_ratio N ws ts _ HE) in A6. rewrite rule_start in A9. rewrite (proj2 HE) in A9. cbn [fst cre] in A9.
    destruct (opts3 (bonds lb rb) (rs, Ok (mkS1 (start_noise k0 (s_nz x)) 0 0))) as [r1 y1]. cbn [fst snd] in *. subst y1.
    destruct (IH (S k0) lb rb r1 t1 x1 H1 H2 A1 A3 A4 A7 LS) as [t2 [x2 [B1 [B2 [B3 [B4 [B5 [B6 [B7 B8]]]]]]]]].
    exists t2, x2. split; [exact B1|]. split; [exact B2|]. split; [exact B3|]. split; [exact B4|]. split; [exact B5|]. split; [lra|]. cbn [seq fold_left]. unfold rle in A9. split; intros H.
    + rewrite B7 by lra. destruct (Rle_dec (s_e0 x) 0) as [_|F]; [rewrite A9; reflexivity|contradiction].
    + rewrite B8 by exact H. destruct (Rle_dec (s_e0 x) 0) as [F|_]; [lra|rewrite A9; reflexivity].
Qed.

(** *** the run on disk *)
Variables (dT dE : res cg) (qr : nat -> cg -> cg * cg) (Dmax : nat) (solve2 : bool -> nat -> res cg -> res cg -> res cg -> res cg -> res cg * res cg * res s1st) (dbg : bool).
Hypothesis EQ : exact_qr qr.
Notation run := (run_noise (res cg) (res cg) (res s1st) dT dE w_triv (w_grow ws) (n_lcano qr) (t_rcano qr) (n_big 0 1 Dmax) (n_small 0 1 2) (n_big 1 2 Dmax) (n_small 1 2 0) n_combL n_combR upd preset s_carry solve2 dbg false).
Notation prep := (prep (res cg) (n_lcano qr) (t_rcano qr) (n_big 0 1 Dmax) (n_small 0 1 2) (n_big 1 2 Dmax) (n_small 1 2 0) n_combL n_combR N).
Notation envs_fresh := (envs_fresh (res cg) (res cg) (res s1st) w_triv (w_grow ws) N).
Lemma noise_run_ok : forall k rs ts w lb rb rs1, 3 <= N -> nm _ _ _ w = N -> mem_empty (res cg) (res cg) (res s1st) N w -> on_disk (res cg) (res cg) (res s1st) N rs w -> prep rs = (lb, rb, rs1) -> envs_fresh rs1 lb rb w ->
  holds rs ts -> chain ts -> (forall j, lb + 1 < j < N -> cright (cten_of (ts j))) -> sq_norm ts <> c0 -> sweeps3_lapack preset lb rb (S k) 0 (rs1, None) ->
  exists x w' rs' ts', run (S k) w = Ok (Ok x, w') /\ nm _ _ _ w' = N /\ mem_empty (res cg) (res cg) (res s1st) N w' /\ on_disk (res cg) (res cg) (res s1st) N rs' w' /\
  holds rs' ts' /\ chain ts' /\ center_at (lb + 1) ts' /\ has_energy ts' (s_e0 x) /\ (s_e0 x <= energy_ratio ts)%R /\
  let last := Nat.min k (length noises - 1) in
  ((energy_ratio ts <= 0)%R -> s_nz x = nth last noises 0%R) /\ ((0 < s_e0 x)%R -> s_nz x = (nth last noises 0 * dec ^ (S (k - last)))%R).
Proof.
  intros k rs ts w lb rb rs1 H3 W1 W2 W3 EP HF HR HC HRi HZ HLA.
  assert (PZ : preset 0 <> None) by (unfold n_preset; destruct noises; [congruence|discriminate]).
  destruct (run_noise_ok (res cg) (res cg) (res s1st) dT dE w_triv (w_grow ws) (n_lcano qr) (t_rcano qr) (n_big 0 1 Dmax) (n_small 0 1 2) (n_big 1 2 Dmax) (n_small 1 2 0) n_combL n_combR upd preset s_carry solve2 dbg N k rs w lb rb rs1 H3 W1 W2 W3 PZ EP HF)
    as [rs2 [s [w' [A1 [A2 [A3 [A4 A5]]]]]]].
  destruct (prep_range _ _ _ _ _ _ _ _ _ _ _ _ _ _ H3 EP) as [R1 R2]. destruct (half_bounds N H3) as [Y1 [Y2 [Y3 Y4]]].
  assert (LR : lb + 2 <= rb) by (unfold half in R1, Y2; destruct (Nat.even N); lia).
  destruct (prep_ok N ws ds (n_lcano qr) (t_rcano qr) n_combL n_combR _ _ _ _ (lcano_goes qr EQ) (rcano_goes qr EQ) combL_goes combR_goes rs ts lb rb rs1 H3 HR HC EP HRi) as [t0 [P1 [[P2 [P3 P4]] [P5 P6]]]].
  assert (RQ : energy_ratio t0 = energy_ratio ts) by (unfold ConserveSpec.energy_ratio; rewrite P3, P4; reflexivity). rewrite <- P3 in HZ. rewrite <- RQ.
  assert (M0 : mixed_at lb t0) by (split; intros j Hj; [apply P5|apply P6]; lia).
  cbn [NoiseSpec.sweeps3 NoiseVarSpec.sweeps3_lapack fst snd] in *. rewrite begin3_first in *. destruct HLA as [LA LS].
  assert (HP := path3_bonds N lb rb LR ltac:(lia)).
  destruct (opts3_ok (bonds lb rb) lb lb rs1 t0 (mkS1 (start_noise 0 0) 0 0) HP P1 P2 M0 HZ LA) as [t1 [x1 [B1 [B2 [B3 [B4 [B5 [B6 [B7 [_ B9]]]]]]]]]].
  assert (NE := bonds_nil lb rb LR). specialize (B7 NE). specialize (B9 NE). rewrite rule_start in B9. rewrite (has_ratio N ws t1 _ B7) in B6.
  destruct (opts3 (bonds lb rb) (rs1, Ok (mkS1 (start_noise 0 0) 0 0))) as [r1 y1]. cbn [fst snd] in *. subst y1.
  destruct (sweeps3_ok k 1 lb rb r1 t1 x1 LR ltac:(lia) B1 B3 B4 B7 LS) as [t2 [x2 [C1 [C2 [C3 [C4 [C5 [C6 [C7 C8]]]]]]]]].
  rewrite A1 in *. cbn [fst snd] in *. injection C2 as ->.
  destruct (go_right N ws ds (n_lcano qr) rs2 t2 lb (lcano_goes qr EQ) ltac:(lia) C1 C3) as [t3 [D1 [[D2 [D3 D4]] [D5 D6]]]].
  exists x2, w', (set2 (res cg) rs2 lb (n_lcano qr (rs2 lb) (rs2 (lb + 1)))), t3.
  split; [exact A2|]. split; [exact A3|]. split; [exact A4|]. split; [exact A5|]. split; [exact D1|]. split; [exact D2|]. split.
  { destruct C4 as [C41 C42]. split; intros j Hj; [|rewrite D6 by lia; apply C42; lia]. destruct (Nat.eq_dec j lb) as [->|]; [exact D5|]. rewrite D6 by lia. apply C41. lia. }
  split; [destruct C5 as [C51 C52]; split; congruence|]. split; [lra|]. cbv zeta.
  assert (S0 : start_noise 0 0 = nth 0 noises 0%R) by (unfold SingleVarRun.start_noise; rewrite presets_same; destruct noises; reflexivity).
  assert (SG : forall y, energy_ratio t0 = y -> ((y <= 0)%R <-> (fst (energy_val t0) <= 0)%R)).
  { intros y <-. unfold ConserveSpec.energy_ratio. destruct (norm_pos N t0) as [q [Q1 Q2]]. rewrite Q1 in *. cbn [fst cre].
    assert (P : (0 < q)%R). { destruct Q2 as [Q2|Q2]; [exact Q2|]. subst q. exfalso. apply HZ. reflexivity. }
    assert (PI := Rinv_0_lt_compat _ P). unfold Rdiv. split; intros H.
    - apply Rmult_le_reg_r with (/ q)%R; [exact PI|]. lra.
    - rewrite <- (Rmult_0_l (/ q)%R). apply Rmult_le_compat_r; lra. }
  specialize (SG _ eq_refl). unfold rle in B9. replace k with (1 + k - 1) by lia. assert (PL := presets_len maxit Hmax noises). rewrite <- presets_same at 1 2 3 4. split; intros H.
  - replace (1 + k - 1) with k in C7 by lia. rewrite C7 by lra. rewrite (fold_keep maxit Hmax noises 1 k); auto. cbn. rewrite presets_same, B9, S0. destruct (Rle_dec (fst (energy_val t0)) 0) as [_|F]; [reflexivity|]. exfalso. apply F. apply SG. exact H.
  - rewrite C8 by exact H. rewrite (fold_dec dec maxit Hmax noises 1 k); auto; [rewrite presets_same; reflexivity|]. cbn. rewrite presets_same, B9, S0, Rmult_1_r. destruct (Rle_dec (fst (energy_val t0)) 0) as [F|_]; [|reflexivity]. exfalso. apply SG in F. lra.
Qed.
End Runs.
