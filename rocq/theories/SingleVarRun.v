(** Sweeps and runs of single-site VMPS without truncation. *)
From Coq Require Import List Arith Bool Lia QArith Qreals Reals Lra Ring_theory.
From Verif Require Import Base Disk SweepSpec SingleSite SingleSpec SingleFacts FiniteMps FmpsSpec EffHam EffHamSpec ChainSpec Legs VmpsLocal VmpsSpec Lanczos LanczosSpec Cx GVec ChainUpdate DmrgVarSpec ConserveSpec ConserveFacts ConserveVmps SingleUpdate SingleVarSpec SingleVar.
Import ListNotations.
Local Open Scope nat_scope.

(** updates of neighbouring sites, each of the site that the update before handed the center to *)
Fixpoint path1 (N c : nat) (bs : list (bool * nat)) (m : nat) : Prop :=
  match bs with [] => c = m | (rt, i) :: bs => i = c /\ c < N /\ (if rt then c + 1 < N else 1 <= c) /\ path1 N (if rt then c + 1 else c - 1) bs m end.
Lemma path1_app : forall N bs bs' c m m', path1 N c bs m -> path1 N m bs' m' -> path1 N c (bs ++ bs') m'.
Proof. intros N. induction bs as [|[rt i] bs IH]; intros bs' c m m' H H'; cbn in *; [subst; auto|]. destruct H as [H1 [H2 [H3 H4]]]. repeat split; auto. eapply IH; eauto. Qed.
Lemma path1_split : forall N bs bs' c m, path1 N c (bs ++ bs') m -> exists k, path1 N c bs k /\ path1 N k bs' m.
Proof. intros N. induction bs as [|[rt i] bs IH]; intros bs' c m H; cbn in *; [eauto|]. destruct H as [H1 [H2 [H3 H4]]]. destruct (IH _ _ _ H4) as [k [A B]]. exists k. auto. Qed.
Lemma path1_up : forall N n c, c + n < N -> path1 N c (map (fun i => (true, i)) (seq c n)) (c + n).
Proof. intros N n. induction n as [|n IH]; intros c H; cbn [seq map path1]; [lia|]. repeat split; try lia. replace (c + S n) with (S c + n) by lia. replace (c + 1) with (S c) by lia. apply IH. lia. Qed.
Lemma path1_down : forall N n, n < N -> path1 N n (map (fun i => (false, i)) (rev (seq 1 n))) 0.
Proof.
  intros N n. induction n as [|n IH]; intros H; [reflexivity|]. replace (S n) with (n + 1) at 2 by lia. rewrite seq_app, rev_app_distr. cbn [seq rev app map path1].
  repeat split; try lia. replace (S n - 1) with n by lia. apply IH. lia.
Qed.
Lemma path1_sites : forall N, 1 <= N -> path1 N 0 (sites1 N) 0.
Proof. intros N H. unfold sites1. eapply path1_app; [apply path1_up; lia|]. apply path1_down. lia. Qed.

Section Runs.
Variables alpha dec inc mx : real.
Variable N : nat.
Variable ws : nat -> cg.
Variable ds : list nat.
Hypothesis HH : hermitian_chain N ws ds.
Variables (stev : list real -> list real -> list real * list real) (maxit : nat) (size : list nat -> nat) (svd : nat -> cg -> cg * cg * cg) (close : real -> real -> bool).
Hypothesis ES : exact_gsvd1 svd.
Hypothesis Hmax : 2 <= maxit.
Notation chain := (chain N ws ds). Notation sq_norm := (sq_norm N). Notation energy_val := (energy_val N ws). Notation holds := (holds N). Notation center_at := (center_at N).
Notation energy_ratio := (energy_ratio N ws). Notation has_energy := (has_energy N ws).
Notation upd := (s_update alpha dec inc mx N ws stev maxit size svd close).
Notation opt1 := (opt1 (res cg) (res cg) (res s1st) w_triv (w_grow ws) upd N). Notation opts1 := (opts1 (res cg) (res cg) (res s1st) w_triv (w_grow ws) upd N).
Notation opts1_lapack := (opts1_lapack alpha dec inc mx N ws stev maxit size svd close). Notation at_lapack1 := (at_lapack1 N ws stev maxit size close).
Notation s_rule := (s_rule alpha dec inc mx). Notation sweeps1_lapack := (sweeps1_lapack alpha dec inc mx N ws stev maxit size svd close).

Lemma opts1_cons : forall b bs s, opts1 (b :: bs) s = opts1 bs (opt1 b s).
Proof. reflexivity. Qed.
Lemma opts1_app : forall bs bs' s, opts1 (bs ++ bs') s = opts1 bs' (opts1 bs s).
Proof. intros. unfold SingleSpec.opts1. apply fold_left_app. Qed.
Lemma lapack1_app : forall bs bs' s, opts1_lapack (bs ++ bs') s <-> opts1_lapack bs s /\ opts1_lapack bs' (opts1 bs s).
Proof. induction bs as [|b bs IH]; intros bs' s; cbn [app SingleVarSpec.opts1_lapack]; [cbn; tauto|]. rewrite IH, opts1_cons. tauto. Qed.
Lemma sv_set_holds : forall rs ts i j x y, holds rs ts -> holds (fset (fset rs i (Ok x)) j (Ok y)) (fset (fset ts i x) j y).
Proof. intros rs ts i j x y H k Hk. unfold fset. destruct (k =? j); [reflexivity|]. destruct (k =? i); [reflexivity|]. apply H. exact Hk. Qed.
Lemma holds_same : forall rs ts ts', holds rs ts -> holds rs ts' -> sites N ts = sites N ts'.
Proof. intros rs ts ts' H H'. unfold sites. apply map_ext_in. intros i Hi. apply in_seq in Hi. destruct Hi as [_ Hi]. cbn in Hi. specialize (H i Hi). specialize (H' i Hi). congruence. Qed.
Lemma same_ratio : forall ts ts', sites N ts = sites N ts' -> energy_ratio ts = energy_ratio ts'.
Proof. intros ts ts' E. unfold ConserveSpec.energy_ratio, ConserveSpec.energy_val, ConserveSpec.sq_norm. rewrite E. reflexivity. Qed.

(** the state after some updates: either none was made, or the energy is that of the chain *)
Lemma opts1_ok : forall bs c m rs ts s, path1 N c bs m -> holds rs ts -> chain ts -> center_at c ts -> sq_norm ts <> c0 -> opts1_lapack bs (rs, Ok s) ->
  exists ts' s', holds (fst (opts1 bs (rs, Ok s))) ts' /\ snd (opts1 bs (rs, Ok s)) = Ok s' /\ chain ts' /\ center_at m ts' /\ sq_norm ts' <> c0 /\ (energy_ratio ts' <= energy_ratio ts)%R /\
  (bs <> [] -> has_energy ts' (s_e0 s')) /\ (bs = [] -> s' = s) /\ (bs <> [] -> s_nz s' = s_rule s (fst (energy_val ts))).
Proof.
  induction bs as [|[rt i] bs IH]; intros c m rs ts s HP HR HC HM HZ HLA.
  - cbn in HP. subst m. exists ts, s. cbn. repeat split; auto; try congruence; try apply HC; try apply HM; lra.
  - cbn in HP. destruct HP as [-> [H1 [H2 HP]]]. destruct HLA as [HA HLA]. cbn [fst snd] in HA.
    destruct (step_ok alpha dec inc mx N ws ds HH stev maxit size svd close ES Hmax rt c rs ts s H1 H2 HR HC HM HZ HA) as [x [y [s1 [U [C1 [M1 [E1 [L1 [A1 R1]]]]]]]]]. cbv zeta in *.
    rewrite opts1_cons, U in *. set (nn := if rt then c + 1 else c - 1) in *. set (ts1 := fset (fset ts c x) nn y) in *.
    destruct (IH nn m (fset (fset rs c (Ok x)) nn (Ok y)) ts1 s1 HP (sv_set_holds rs ts c nn x y HR) C1 M1 (has_nz N ws _ _ E1) HLA) as [ts' [s' [B1 [B2 [B3 [B4 [B5 [B6 [B7 [B8 B9]]]]]]]]]].
    exists ts', s'. split; [exact B1|]. split; [exact B2|]. split; [exact B3|]. split; [exact B4|]. split; [exact B5|]. split.
    { apply Rle_trans with (energy_ratio ts1); [exact B6|]. rewrite (has_ratio N ws ts1 _ E1). exact L1. }
    split; [|split; [discriminate|]]; intros _.
    + destruct bs as [|b bs]; [|apply B7; discriminate]. specialize (B8 eq_refl). subst s'. cbn in B1.
      assert (S : sites N ts' = sites N ts1) by (apply (holds_same _ _ _ B1); apply sv_set_holds; exact HR).
      destruct E1 as [E1 E2]. unfold ConserveSpec.has_energy, ConserveSpec.sq_norm, ConserveSpec.energy_val in *. rewrite S. auto.
    + destruct bs as [|b bs]; [specialize (B8 eq_refl); subst s'; exact R1|]. rewrite B9 by discriminate. destruct E1 as [E1 E2]. rewrite E2. cbn [fst cre].
      unfold SingleUpdate.s_rule at 1. unfold rle at 1. destruct (Rle_dec (s_e0 s1 - s_e0 s1) 0) as [_|F]; [exact R1|]. exfalso. apply F. lra.
Qed.
(** the rule at the first update of a sweep, where both energies are 0 *)
Lemma rule_start : forall n act, s_rule (mkS1 n 0 0) act = if rle act 0 then n else (n * dec)%R.
Proof.
  intros n act. unfold SingleUpdate.s_rule, rle. cbn [s_e0 s_nz s_last]. replace (act - 0)%R with act by ring. destruct (Rle_dec act 0) as [_|H]; [reflexivity|].
  replace (0 - 0)%R with 0%R by ring. rewrite Rabs_R0, Rmult_0_r. destruct (Rle_dec 0 act) as [_|F]; [reflexivity|]. exfalso. lra.
Qed.
Lemma energies1_ok : forall bs c m rs ts s, path1 N c bs m -> holds rs ts -> chain ts -> center_at c ts -> sq_norm ts <> c0 -> opts1_lapack bs (rs, Ok s) ->
  forall i j, i <= j -> j <= length bs -> exists ti tj,
  let si := opts1 (firstn i bs) (rs, Ok s) in let sj := opts1 (firstn j bs) (rs, Ok s) in
  holds (fst si) ti /\ holds (fst sj) tj /\ chain tj /\ (1 <= j -> exists x, snd sj = Ok x /\ has_energy tj (s_e0 x)) /\ (energy_ratio tj <= energy_ratio ti)%R.
Proof.
  intros bs c m rs ts s HP HR HC HM HZ HLA i j Hij Hj. cbv zeta.
  rewrite <- (firstn_skipn j bs) in HP, HLA. destruct (path1_split _ _ _ _ _ HP) as [mj [Pj _]]. apply lapack1_app in HLA. destruct HLA as [Lj _].
  assert (E : firstn j bs = firstn i bs ++ firstn (j - i) (skipn i bs)). { replace j with (i + (j - i)) at 1 by lia. clear. generalize (j - i). intros k. revert bs. induction i as [|i IH]; intros [|b bs]; cbn [Nat.add firstn skipn app]; rewrite ?firstn_nil; auto. f_equal. apply IH. }
  assert (NE : 1 <= j -> firstn j bs <> []) by (intros H1 C; apply (f_equal (@length _)) in C; rewrite firstn_length in C; cbn in C; lia).
  destruct (opts1_ok _ _ _ rs ts s Pj HR HC HM HZ Lj) as [tj [xj [J1 [J2 [J3 [J4 [J5 [_ [J7 _]]]]]]]]].
  rewrite E in Pj, Lj. destruct (path1_split _ _ _ _ _ Pj) as [mi [Pi Pr]]. apply lapack1_app in Lj. destruct Lj as [Li Lr].
  destruct (opts1_ok _ _ _ rs ts s Pi HR HC HM HZ Li) as [ti [xi [B0 [B1 [B2 [B3 [B4 _]]]]]]].
  exists ti, tj. split; [exact B0|]. split; [exact J1|]. split; [exact J3|]. split; [intros H1; exists xj; auto|].
  assert (OB : opts1 (firstn j bs) (rs, Ok s) = opts1 (firstn (j - i) (skipn i bs)) (opts1 (firstn i bs) (rs, Ok s))) by (rewrite E; apply opts1_app).
  destruct (opts1 (firstn i bs) (rs, Ok s)) as [ri ei]. cbn [fst snd] in *. subst ei. destruct (opts1_ok _ _ _ ri ti xi Pr B0 B2 B3 B4 Lr) as [t2 [x2 [C1 [_ [_ [_ [_ [C _]]]]]]]].
  rewrite <- OB in C1. rewrite <- (same_ratio _ _ (holds_same _ _ _ C1 J1)). exact C.
Qed.
(** the noise after any update of a sweep *)
Lemma noise1_ok : forall bs c m rs ts n, path1 N c bs m -> holds rs ts -> chain ts -> center_at c ts -> sq_norm ts <> c0 -> opts1_lapack bs (rs, Ok (mkS1 n 0 0)) ->
  forall j, 1 <= j -> j <= length bs -> exists x, snd (opts1 (firstn j bs) (rs, Ok (mkS1 n 0 0))) = Ok x /\ s_nz x = if rle (fst (energy_val ts)) 0 then n else (n * dec)%R.
Proof.
  intros bs c m rs ts n HP HR HC HM HZ HLA j H1 Hj.
  rewrite <- (firstn_skipn j bs) in HP, HLA. destruct (path1_split _ _ _ _ _ HP) as [mj [Pj _]]. apply lapack1_app in HLA. destruct HLA as [Lj _].
  assert (NE : firstn j bs <> []) by (intros C; apply (f_equal (@length _)) in C; rewrite firstn_length in C; cbn in C; lia).
  destruct (opts1_ok _ _ _ rs ts _ Pj HR HC HM HZ Lj) as [tj [xj [_ [J2 [_ [_ [_ [_ [_ [_ J9]]]]]]]]]]. exists xj. split; [exact J2|]. rewrite J9 by auto. apply rule_start.
Qed.

(** *** sweeps *)
Variable noises : list real.
Notation preset := (fun k => nth_error (match map s_preset noises with [] => [s_preset 0] | _ => map s_preset noises end) k).
Notation sweeps1 := (sweeps1 (res cg) (res cg) (res s1st) w_triv (w_grow ws) upd N preset s_carry).
(** the presets, with 0.0 if there are none *)
Definition presets : list real := match noises with [] => [0%R] | _ => noises end.
Lemma preset_nth : forall k, preset k = option_map s_preset (nth_error presets k).
Proof. intros k. unfold presets. destruct noises as [|x l]; cbn [map]; [destruct k as [|[|k]]; reflexivity|]. change (s_preset x :: map s_preset l) with (map s_preset (x :: l)). apply nth_error_map. Qed.
(** noise at the start of sweep k0, if the one before left x *)
Definition start_noise (k0 : nat) (x : real) : real := match nth_error presets k0 with Some n => n | None => x end.
Lemma begin_ok : forall k0 x, begin1 (res s1st) preset s_carry k0 (Some (Ok x)) = Some (Ok (mkS1 (start_noise k0 (s_nz x)) 0 0)).
Proof. intros k0 x. unfold begin1, start_noise. rewrite preset_nth. destruct (nth_error presets k0); reflexivity. Qed.
Lemma begin_first : begin1 (res s1st) preset s_carry 0 None = Some (Ok (mkS1 (start_noise 0 0) 0 0)).
Proof. unfold begin1, start_noise. rewrite preset_nth. unfold presets. destruct noises; reflexivity. Qed.

Section Noise.
(** f: what a sweep does to the noise *)
Lemma sweeps1_ok1 : forall n k0 rs ts x, 2 <= N -> holds rs ts -> chain ts -> center_at 0 ts -> has_energy ts (s_e0 x) -> sweeps1_lapack preset n k0 (rs, Some (Ok x)) ->
  exists ts' x', holds (fst (sweeps1 n k0 (rs, Some (Ok x)))) ts' /\ snd (sweeps1 n k0 (rs, Some (Ok x))) = Some (Ok x') /\ chain ts' /\ center_at 0 ts' /\ has_energy ts' (s_e0 x') /\ (s_e0 x' <= s_e0 x)%R /\
  ((s_e0 x <= 0)%R -> s_nz x' = fold_left (fun z k => start_noise k z) (seq k0 n) (s_nz x)) /\
  ((0 < s_e0 x')%R -> s_nz x' = fold_left (fun z k => (start_noise k z * dec)%R) (seq k0 n) (s_nz x)).
Proof.
  induction n as [|n IH]; intros k0 rs ts x H2 HR HC HM HE HLA.
  - exists ts, x. cbn. repeat split; auto; try apply HC; try apply HM; try apply HE. lra.
  - cbn [SingleSpec.sweeps1 SingleVarSpec.sweeps1_lapack fst snd] in *. rewrite begin_ok in *. destruct HLA as [LA LS].
    assert (HP := path1_sites N ltac:(lia)).
    destruct (opts1_ok (sites1 N) 0 0 rs ts (mkS1 (start_noise k0 (s_nz x)) 0 0) HP HR HC HM (has_nz N ws _ _ HE) LA) as [t1 [x1 [A1 [A2 [A3 [A4 [_ [A6 [A7 [_ A9]]]]]]]]]].
    assert (NE : sites1 N <> []) by (unfold sites1; destruct (N - 1) eqn:E; [lia|cbn; discriminate]). specialize (A7 NE). specialize (A9 NE).
    rewrite (has_ratio N ws t1 _ A7), (has_ratio N ws ts _ HE) in A6. rewrite rule_start in A9. rewrite (proj2 HE) in A9. cbn [fst cre] in A9.
    destruct (opts1 (sites1 N) (rs, Ok (mkS1 (start_noise k0 (s_nz x)) 0 0))) as [r1 y1]. cbn [fst snd] in *. subst y1.
    destruct (IH (S k0) r1 t1 x1 H2 A1 A3 A4 A7 LS) as [t2 [x2 [B1 [B2 [B3 [B4 [B5 [B6 [B7 B8]]]]]]]]].
    exists t2, x2. split; [exact B1|]. split; [exact B2|]. split; [exact B3|]. split; [exact B4|]. split; [exact B5|]. split; [lra|]. cbn [seq fold_left]. unfold rle in A9. split; intros H.
    + rewrite B7 by lra. destruct (Rle_dec (s_e0 x) 0) as [_|F]; [rewrite A9; reflexivity|contradiction].
    + rewrite B8 by exact H. destruct (Rle_dec (s_e0 x) 0) as [F|_]; [lra|rewrite A9; reflexivity].
Qed.
End Noise.
(** noise at the end of sweep k if no energy is positive: the preset that is in force; if all are positive: lowered once in every sweep since *)
Lemma fold_keep : forall k0 n z, 1 <= length presets -> 1 <= k0 -> z = nth (Nat.min (k0 - 1) (length presets - 1)) presets 0%R ->
  fold_left (fun z k => start_noise k z) (seq k0 n) z = nth (Nat.min (k0 + n - 1) (length presets - 1)) presets 0%R.
Proof.
  intros k0 n. revert k0. induction n as [|n IH]; intros k0 z H1 H2 Hz; cbn [seq fold_left]; [rewrite Nat.add_0_r; exact Hz|].
  replace (k0 + S n - 1) with (S k0 + n - 1) by lia. apply IH; [exact H1|lia|]. unfold start_noise. destruct (nth_error presets k0) as [y|] eqn:E.
  - assert (k0 < length presets) by (apply nth_error_Some; congruence). rewrite (Nat.min_l (S k0 - 1)) by lia. replace (S k0 - 1) with k0 by lia. symmetry. apply nth_error_nth. exact E.
  - apply nth_error_None in E. rewrite Hz. f_equal. lia.
Qed.
Lemma fold_dec : forall k0 n z, 1 <= length presets -> 1 <= k0 -> z = (nth (Nat.min (k0 - 1) (length presets - 1)) presets 0 * dec ^ (Datatypes.S (k0 - 1 - Nat.min (k0 - 1) (length presets - 1))))%R ->
  fold_left (fun z k => (start_noise k z * dec)%R) (seq k0 n) z = (nth (Nat.min (k0 + n - 1) (length presets - 1)) presets 0 * dec ^ (Datatypes.S (k0 + n - 1 - Nat.min (k0 + n - 1) (length presets - 1))))%R.
Proof.
  intros k0 n. revert k0. induction n as [|n IH]; intros k0 z H1 H2 Hz; cbn [seq fold_left]; [rewrite Nat.add_0_r; exact Hz|].
  replace (k0 + S n - 1) with (S k0 + n - 1) by lia. apply IH; [exact H1|lia|]. unfold start_noise. destruct (nth_error presets k0) as [y|] eqn:E.
  - assert (k0 < length presets) by (apply nth_error_Some; congruence). rewrite (Nat.min_l (S k0 - 1)) by lia. replace (S k0 - 1) with k0 by lia. rewrite Nat.sub_diag, pow_1. f_equal. symmetry. apply nth_error_nth. exact E.
  - apply nth_error_None in E. rewrite Hz, Rmult_assoc. rewrite !Nat.min_r by lia. f_equal. replace (S k0 - 1 - (length presets - 1)) with (Datatypes.S (k0 - 1 - (length presets - 1))) by lia. cbn [pow]. ring.
Qed.
Lemma presets_len : 1 <= length presets.
Proof. unfold presets. destruct noises; cbn; lia. Qed.

(** *** the run on disk *)
Variables (dT dE : res cg) (canoL canoR : res cg -> res cg -> res cg * res cg) (solve2 : bool -> nat -> res cg -> res cg -> res cg -> res cg -> res cg * res cg * res s1st) (dbg : bool).
Notation run := (run_single (res cg) (res cg) (res s1st) dT dE w_triv (w_grow ws) canoL canoR upd (map s_preset noises) (s_preset 0) s_carry solve2 dbg).
Notation startable1 := (startable1 (res cg) (res cg) (res s1st) w_triv (w_grow ws) N).
Lemma single_run_ok : forall k rs ts w, 2 <= N -> startable1 rs w -> holds rs ts -> chain ts -> center_at 0 ts -> sq_norm ts <> c0 -> sweeps1_lapack preset (S k) 0 (rs, None) ->
  exists x w' rs' ts', run (S k) w = Ok (Ok x, w') /\ startable1 rs' w' /\ holds rs' ts' /\ chain ts' /\ center_at 0 ts' /\ has_energy ts' (s_e0 x) /\ (s_e0 x <= energy_ratio ts)%R /\
  let last := Nat.min k (length presets - 1) in
  ((energy_ratio ts <= 0)%R -> s_nz x = nth last presets 0%R) /\ ((0 < s_e0 x)%R -> s_nz x = (nth last presets 0 * dec ^ (S (k - last)))%R).
Proof.
  intros k rs ts w H2 HS HR HC HM HZ HLA.
  destruct (run_single_ok (res cg) (res cg) (res s1st) dT dE w_triv (w_grow ws) canoL canoR upd (map s_preset noises) (s_preset 0) s_carry solve2 dbg N rs k w H2 HS) as [s [w' [A1 [A2 [A3 _]]]]].
  change (preset1 (res s1st) (map s_preset noises) (s_preset 0)) with preset in *.
  cbn [SingleSpec.sweeps1 SingleVarSpec.sweeps1_lapack fst snd] in *. rewrite begin_first in *. destruct HLA as [LA LS].
  assert (HP := path1_sites N ltac:(lia)).
  destruct (opts1_ok (sites1 N) 0 0 rs ts (mkS1 (start_noise 0 0) 0 0) HP HR HC HM HZ LA) as [t1 [x1 [B1 [B2 [B3 [B4 [B5 [B6 [B7 [_ B9]]]]]]]]]].
  assert (NE : sites1 N <> []) by (unfold sites1; destruct (N - 1) eqn:E; [lia|cbn; discriminate]). specialize (B7 NE). specialize (B9 NE). rewrite rule_start in B9.
  rewrite (has_ratio N ws t1 _ B7) in B6.
  destruct (opts1 (sites1 N) (rs, Ok (mkS1 (start_noise 0 0) 0 0))) as [r1 y1]. cbn [fst snd] in *. subst y1.
  destruct (sweeps1_ok1 k 1 r1 t1 x1 H2 B1 B3 B4 B7 LS) as [t2 [x2 [C1 [C2 [C3 [C4 [C5 [C6 [C7 C8]]]]]]]]].
  rewrite C2 in A2. injection A2 as <-. exists x2, w', (fst (sweeps1 k 1 (r1, Some (Ok x1)))), t2.
  split; [exact A1|]. split; [exact A3|]. split; [exact C1|]. split; [exact C3|]. split; [exact C4|]. split; [exact C5|]. split; [lra|]. cbv zeta.
  assert (S0 : start_noise 0 0 = nth 0 presets 0%R) by (unfold start_noise, presets; destruct noises; reflexivity).
  assert (SG : forall y, energy_ratio ts = y -> ((y <= 0)%R <-> (fst (energy_val ts) <= 0)%R)).
  { intros y <-. unfold ConserveSpec.energy_ratio. destruct (norm_pos N ts) as [q [Q1 Q2]]. rewrite Q1 in *. cbn [fst cre].
    assert (P : (0 < q)%R). { destruct Q2 as [Q2|Q2]; [exact Q2|]. subst q. exfalso. apply HZ. reflexivity. }
    assert (PI := Rinv_0_lt_compat _ P). unfold Rdiv. split; intros H.
    - apply Rmult_le_reg_r with (/ q)%R; [exact PI|]. lra.
    - rewrite <- (Rmult_0_l (/ q)%R). apply Rmult_le_compat_r; lra. }
  specialize (SG _ eq_refl). unfold rle in B9. replace k with (1 + k - 1) by lia. assert (PL := presets_len). split; intros H.
  - replace (1 + k - 1) with k in C7 by lia. rewrite C7 by lra. apply fold_keep; auto. cbn. rewrite B9, S0. destruct (Rle_dec (fst (energy_val ts)) 0) as [_|F]; [reflexivity|]. exfalso. apply F. apply SG. exact H.
  - rewrite C8 by exact H. apply fold_dec; auto. cbn. rewrite B9, S0, Rmult_1_r. destruct (Rle_dec (fst (energy_val ts)) 0) as [F|_]; [|reflexivity]. exfalso. apply SG in F. lra.
Qed.
End Runs.
