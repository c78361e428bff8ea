(** Gauge moves keep norm and energy; two-site VMPS without truncation never raises the energy. *)
From Coq Require Import List Arith Bool Lia QArith Qreals Reals Lra Ring_theory.
From Verif Require Import Base Disk SweepSpec NoiseSpec Tdvp TdvpSpec FiniteMps FmpsSpec FmpsFacts EffHam EffHamSpec EffHamFacts ChainSpec ChainFacts Legs VmpsLocal VmpsSpec VmpsEnv VmpsHeff Lanczos LanczosSpec KrylovSpec Cx KrylovInst GVec GVecFacts DmrgStep ChainOne ChainPair ChainUpdate DmrgVarSpec DmrgVar ConserveSpec ConserveFacts ConserveRun.
Import ListNotations.
Local Open Scope nat_scope.

Section Gauge.
Variable N : nat.
Variable ws : nat -> cg.
Variable ds : list nat.
Notation chain := (chain N ws ds). Notation sq_norm := (sq_norm N). Notation energy_val := (energy_val N ws). Notation holds := (holds N). Notation center_at := (center_at N).

(** two neighbours replaced by tensors with the same product *)
Lemma set_pair : forall ts l a b D0 p1 D p2 D3 K, chain ts -> l + 1 < N -> cgd (ts l) = [D0; p1; D] -> cgd (ts (l + 1)) = [D; p2; D3] -> cgd a = [D0; p1; K] -> cgd b = [K; p2; D3] ->
  csplits D0 p1 p2 D3 (ctwo (cten_of (ts l)) (cten_of (ts (l + 1)))) (cten_of a) (cten_of b) ->
  let ts' := fset (fset ts l a) (l + 1) b in chain ts' /\ sq_norm ts' = sq_norm ts /\ energy_val ts' = energy_val ts.
Proof.
  intros ts l a b D0 p1 D p2 D3 K HC Hl E1 E2 S2 S3 SP ts'.
  destruct (ten_dims cx _ _ _ _ E1) as [A0 [A1 A2]]. destruct (ten_dims cx _ _ _ _ E2) as [B0 [B1 B2]].
  destruct (ten_dims cx _ _ _ _ S2) as [P0 [P1 P2]]. destruct (ten_dims cx _ _ _ _ S3) as [Q0 [Q1 Q2]].
  assert (HC' := HC). apply chain_iff in HC'. destruct HC' as [HS [HF [HW HD]]].
  rewrite (sites_mid N _ _ l Hl) in HF. apply fit_mid in HF. destruct HF as [F1 [F2 F3]]. rewrite A0 in F1. rewrite B2 in F3.
  set (tl := sites l (fun i => cten_of (ts i))) in *. set (tr := map (fun i => cten_of (ts i)) (seq (l + 2) (N - (l + 2)))) in *.
  assert (TS : map cten_of (sites N ts) = tl ++ [cten_of (ts l); cten_of (ts (l + 1))] ++ tr) by (unfold sites at 1; rewrite map_map; apply (sites_mid N _ (fun i => cten_of (ts i)) l Hl)).
  assert (TS' : map cten_of (sites N ts') = tl ++ [cten_of a; cten_of b] ++ tr).
  { unfold ts'. rewrite (sites_set N _ _ _ _ _ Hl), !map_app. cbn [map]. unfold sites. rewrite !map_map. reflexivity. }
  split.
  - unfold ConserveSpec.chain, part. rewrite TS'. split; [split; [|split]|].
    + unfold sites. apply Forall2_map, Forall_forall. intros i Hi. apply in_seq in Hi. unfold ts'. destruct (Nat.eq_dec i (l + 1)) as [->|N1]; [|destruct (Nat.eq_dec i l) as [->|N2]].
      * unfold fset. rewrite Nat.eqb_refl. destruct (HS (l + 1) ltac:(lia)) as [? [? [? [m [n [U V]]]]]]. rewrite E2 in U. injection U as <- <- <-. exists K, p2, D3, m, n. auto.
      * unfold fset. replace (l =? l + 1) with false by (symmetry; apply Nat.eqb_neq; lia). rewrite Nat.eqb_refl. destruct (HS l ltac:(lia)) as [? [? [? [m [n [U V]]]]]]. rewrite E1 in U. injection U as <- <- <-. exists D0, p1, K, m, n. auto.
      * unfold fset. replace (i =? l + 1) with false by (symmetry; apply Nat.eqb_neq; lia). replace (i =? l) with false by (symmetry; apply Nat.eqb_neq; lia). apply HS. lia.
    + apply fit_mid. rewrite P0, Q2. split; [exact F1|]. split; [congruence|exact F3].
    + unfold sites. rewrite map_map. exact HW.
    + destruct HC as [_ HD']. rewrite <- HD', TS, !map_app. cbn [map]. rewrite P1, Q1, A1, B1. reflexivity.
  - assert (SM : csame (map cten_of (sites N ts)) (map cten_of (sites N ts'))).
    { rewrite TS, TS'. apply (splits_same cx c0 c1 cadd cmul csub copp cx_ring); [rewrite A0; exact F1|congruence|]. rewrite A0, A1, B1, B2. exact SP. }
    unfold ConserveSpec.sq_norm, ConserveSpec.energy_val. split; [apply (same_norm2 cx c0 c1 cadd cmul cconj); exact SM|apply (same_energy cx c0 c1 cadd cmul cconj); exact SM].
Qed.

Variable qr : nat -> cg -> cg * cg.
Hypothesis EQ : exact_qr qr.
(** the center goes to site 0 *)
Lemma center0_ok : forall c rs ts, c < N -> holds rs ts -> chain ts -> (forall i, c < i < N -> cright (cten_of (ts i))) ->
  exists ts', holds (center0 (res cg) (t_rcano qr) c rs) ts' /\ chain ts' /\ center_at 0 ts' /\ sq_norm ts' = sq_norm ts /\ energy_val ts' = energy_val ts.
Proof.
  induction c as [|c IH]; intros rs ts Hc HR HC HRi.
  - exists ts. cbn [center0]. repeat split; auto; try apply HC; intros; lia.
  - cbn [center0]. assert (Hl : c + 1 < N) by lia. destruct (cut2_at N ws ds ts c HC Hl) as [D0 [p1 [D [p2 [D3 [E1 [E2 _]]]]]]].
    destruct (rcano_ok cx c0 c1 cadd cmul csub copp cx_ring cconj qr EQ _ _ _ _ _ _ _ E1 E2) as [a [b [K [RC [S2 [S3 [SP CB]]]]]]].
    destruct (set_pair ts c a b _ _ _ _ _ _ HC Hl E1 E2 S2 S3 SP) as [C' [N' V']]. cbv zeta in *.
    assert (HR' : holds (let (x, y) := t_rcano qr (rs c) (rs (S c)) in fset (fset rs c x) (S c) y) (fset (fset ts c a) (c + 1) b)).
    { rewrite (HR c) by lia. rewrite (HR (S c)) by lia. unfold t_rcano. cbn [bind]. replace (S c) with (c + 1) by lia. unfold rcano in RC. rewrite RC. cbn [both]. apply set_holds. exact HR. }
    destruct (IH _ _ ltac:(lia) HR' C') as [t2 [B1 [B2 [B3 [B4 B5]]]]].
    { intros i Hi. unfold fset. destruct (Nat.eqb_spec i (c + 1)); [exact CB|]. replace (i =? c) with false by (symmetry; apply Nat.eqb_neq; lia). apply HRi. lia. }
    exists t2. split; [exact B1|]. split; [exact B2|]. split; [exact B3|]. split; congruence.
Qed.
End Gauge.

Section Vmps.
Variable N : nat.
Variable ws : nat -> cg.
Variable ds : list nat.
Hypothesis HH : hermitian_chain N ws ds.
Variables (stev : list real -> list real -> list real * list real) (maxit : nat) (size : list nat -> nat) (svd : nat -> cg -> cg * cg * cg) (close : real -> real -> bool).
Hypothesis ES : exact_gsvd svd.
Hypothesis Hmax : 2 <= maxit.
Notation chain := (chain N ws ds). Notation sq_norm := (sq_norm N). Notation energy_val := (energy_val N ws). Notation holds := (holds N). Notation mixed_at := (mixed_at N).
Notation energy_ratio := (energy_ratio N ws). Notation has_energy := (has_energy N ws).
Notation lenv := (left_env (res cg) (res cg) w_triv (w_grow ws)). Notation renv := (right_env (res cg) (res cg) w_triv (w_grow ws) N).
Notation upd := (v_update ws stev maxit size svd close).
Notation opt := (opt (res cg) (res cg) (res real) w_triv (w_grow ws) upd N). Notation opts := (opts (res cg) (res cg) (res real) w_triv (w_grow ws) upd N).
Notation opts_lapack := (opts_lapack N ws stev maxit size svd close).
Definition at_lapack (l : nat) (rs : nat -> res cg) : Prop :=
  forall el a b er x, lenv rs l = Ok el -> rs l = Ok a -> rs (l + 1) = Ok b -> renv rs (N - (l + 2)) = Ok er ->
    gcontract cx c0 cadd cmul [2] [0] a b = Ok x -> eig_lapack_ok stev maxit size close (cgd x) (h_two ws l el er (cgd x)) (cge x).

Lemma norm_pos : forall ts, exists x, sq_norm ts = cre x /\ (0 <= x)%R.
Proof. intros ts. destruct (norm_real N (fun i => cten_of (ts i))) as [x P]. exists x. unfold ConserveSpec.sq_norm, sites in *. rewrite map_map. exact P. Qed.
Lemma has_nz : forall ts e, has_energy ts e -> sq_norm ts <> c0.
Proof. intros ts e [H _]. rewrite H. unfold c0, c1. intros E. injection E as E. lra. Qed.
Lemma has_ratio : forall ts e, has_energy ts e -> energy_ratio ts = e.
Proof. intros ts e [H1 H2]. unfold ConserveSpec.energy_ratio. rewrite H1, H2. unfold c1, cre. cbn [fst]. field. Qed.
Lemma below_ratio : forall ts e, sq_norm ts <> c0 -> (e * fst (sq_norm ts) <= fst (energy_val ts))%R -> (e <= energy_ratio ts)%R.
Proof.
  intros ts e HZ H. unfold ConserveSpec.energy_ratio. destruct (norm_pos ts) as [x [E P]]. rewrite E in *. cbn [fst cre] in *.
  assert (0 < x)%R. { destruct P as [P|P]; [exact P|]. subst x. exfalso. apply HZ. reflexivity. }
  apply Rmult_le_reg_r with x; [assumption|]. unfold Rdiv. rewrite Rmult_assoc, Rinv_l by lra. lra.
Qed.

Lemma vmps_update_ok : forall rt l rs ts e0, l + 1 < N -> holds rs ts -> chain ts -> mixed_at l ts -> sq_norm ts <> c0 -> at_lapack l rs ->
  exists a b e, opt (rt, l) (rs, e0) = (fset (fset rs l (Ok a)) (l + 1) (Ok b), Some (Ok e)) /\
  let ts' := fset (fset ts l a) (l + 1) b in
  chain ts' /\ (if rt then cleft (cten_of a) else cright (cten_of b)) /\ has_energy ts' e /\ (e <= energy_ratio ts)%R.
Proof.
  intros rt l rs ts e0 Hl HR HC [ML MR] NZ HLA.
  destruct (two_problem N ws ds HH svd ES ts l HC Hl) as [el [er [x [z [L1 [R1 [X1 [Z1 [MH [NV [EV SP]]]]]]]]]]]; [intros; apply ML; lia|intros; apply MR; lia|].
  cbv zeta in *. assert (LE : lenv rs l = Ok el) by (rewrite (lenv_lenvs N ws rs ts l) by (auto; lia); exact L1).
  assert (RE : renv rs (N - (l + 2)) = Ok er) by (rewrite (renv_renvs N ws rs ts) by (auto; lia); replace (N - (N - (l + 2))) with (l + 2) by lia; exact R1).
  assert (T1 : rs l = Ok (ts l)) by (apply HR; lia). assert (T2 : rs (l + 1) = Ok (ts (l + 1))) by (apply HR; lia).
  specialize (HLA el (ts l) (ts (l + 1)) er x LE T1 T2 RE X1).
  destruct (g_lanczos_ok (cgd x) (h_two ws l el er (cgd x)) MH stev maxit (size (cgd x)) Hmax close (cge x)) as [r [g [RUN [G1 [G2 G3]]]]]; [rewrite NV; exact NZ|exact HLA|].
  destruct (SP rt g) as [a [b [S1 [S2 [S3 [S4 S5]]]]]].
  exists a, b, (eng real r). split; [|split; [exact S2|split; [exact S3|split]]].
  - unfold SweepSpec.opt. rewrite LE, RE, T1, T2. unfold v_update. cbn [bind]. rewrite X1. cbn [bind]. rewrite Z1. cbn [bind]. rewrite RUN. cbn [bind]. rewrite S1. cbn [bind]. reflexivity.
  - split; [rewrite S4; exact G1|rewrite S5; exact G2].
  - apply below_ratio; [exact NZ|]. rewrite <- NV, <- EV. exact G3.
Qed.
Lemma set_mixed_at : forall ts l l' a b (rt : bool), l + 1 < N -> mixed_at l ts -> (l' = l \/ (if rt then l' = l + 1 else l' + 1 = l)) -> (if rt then cleft (cten_of a) else cright (cten_of b)) ->
  mixed_at l' (fset (fset ts l a) (l + 1) b).
Proof.
  intros ts l l' a b rt Hl [ML MR] HL CA. unfold fset. split; intros i Hi; (destruct (Nat.eqb_spec i (l + 1)) as [->|N1]; [|destruct (Nat.eqb_spec i l) as [->|N2]]); try (destruct rt; auto; lia);
    try (apply ML; destruct rt; lia); apply MR; destruct rt; lia.
Qed.
Lemma vmps_opts_ok : forall bs l m rs ts e, path N l bs m -> holds rs ts -> chain ts -> mixed_at l ts -> sq_norm ts <> c0 -> opts_lapack bs (rs, e) ->
  exists ts', holds (fst (opts bs (rs, e))) ts' /\ chain ts' /\ mixed_at m ts' /\ sq_norm ts' <> c0 /\
  (bs <> [] -> exists x, snd (opts bs (rs, e)) = Some (Ok x) /\ has_energy ts' x) /\ (energy_ratio ts' <= energy_ratio ts)%R.
Proof.
  induction bs as [|[rt l0] bs IH]; intros l m rs ts e HP HR HC HM HZ HLA.
  - inversion HP; subst. exists ts. cbn. split; [auto|]. split; [auto|]. split; [auto|]. split; [auto|]. split; [congruence|lra].
  - assert (l0 = l) by (inversion HP; auto). subst l0. assert (HP' : l + 1 < N /\ exists l', (l' = l \/ (if rt then l' = l + 1 else l' + 1 = l)) /\ path N l' bs m) by (inversion HP; subst; eauto). clear HP. destruct HP' as [H3 [l' [H4 H5]]].
    destruct HLA as [HA HLA]. cbn [fst snd] in HA.
    destruct (vmps_update_ok rt l rs ts e H3 HR HC HM HZ HA) as [a [b [x [U [O1 [C1 [E1 L1]]]]]]]. cbv zeta in *.
    rewrite U in HLA. cbn [SweepSpec.opts fold_left]. change (fold_left (fun (s : (nat -> res cg) * option (res real)) (b0 : bool * nat) => opt b0 s) bs (opt (rt, l) (rs, e))) with (opts bs (opt (rt, l) (rs, e))). rewrite U.
    set (ts1 := fset (fset ts l a) (l + 1) b) in *. set (rs1 := fset (fset rs l (Ok a)) (l + 1) (Ok b)) in *.
    destruct (IH l' m rs1 ts1 (Some (Ok x)) H5 (set_holds N rs ts l a b HR) O1) as [ts' [A0 [A1 [A2 [A3 [A4 A5]]]]]]; auto.
    { apply set_mixed_at with (rt := rt); auto. }
    { apply (has_nz _ x). exact E1. }
    exists ts'. split; [exact A0|]. split; [exact A1|]. split; [exact A2|]. split; [exact A3|]. split.
    + intros _. destruct bs as [|b0 bs]; [|apply A4; discriminate]. cbn in *. exists x. split; [reflexivity|].
      destruct E1 as [E1 E2]. assert (SAME : sites N ts' = sites N ts1). { unfold sites. apply map_ext_in. intros i Hi. apply in_seq in Hi. specialize (A0 i ltac:(lia)). assert (X := set_holds N rs ts l a b HR i ltac:(lia)). fold rs1 ts1 in X. congruence. }
      unfold ConserveSpec.has_energy, ConserveSpec.sq_norm, ConserveSpec.energy_val in *. rewrite SAME. auto.
    + apply Rle_trans with (energy_ratio ts1); [exact A5|]. rewrite (has_ratio ts1 x E1). exact L1.
Qed.
Lemma vmps_lapack_app : forall bs bs' s, opts_lapack (bs ++ bs') s <-> opts_lapack bs s /\ opts_lapack bs' (opts bs s).
Proof.
  induction bs as [|b bs IH]; intros bs' s; cbn [app ConserveSpec.opts_lapack]; [cbn; tauto|]. rewrite IH. cbn [SweepSpec.opts fold_left]. change (fold_left (fun (s : (nat -> res cg) * option (res real)) (b0 : bool * nat) => opt b0 s) bs (opt b s)) with (opts bs (opt b s)). tauto.
Qed.
(** after any update *)
Lemma vmps_energies_ok : forall bs l m rs ts e, path N l bs m -> holds rs ts -> chain ts -> mixed_at l ts -> sq_norm ts <> c0 -> opts_lapack bs (rs, e) ->
  forall i j, i <= j -> j <= length bs -> exists ti tj,
  let si := opts (firstn i bs) (rs, e) in let sj := opts (firstn j bs) (rs, e) in
  holds (fst si) ti /\ holds (fst sj) tj /\ chain tj /\ (1 <= j -> exists x, snd sj = Some (Ok x) /\ has_energy tj x) /\ (energy_ratio tj <= energy_ratio ti)%R.
Proof.
  intros bs l m rs ts e HP HR HO HM HZ HLA i j Hij Hj. cbv zeta.
  rewrite <- (firstn_skipn j bs) in HP, HLA. destruct (path_split _ _ _ _ _ HP) as [mj [Pj _]]. apply vmps_lapack_app in HLA. destruct HLA as [Lj _].
  assert (E : firstn j bs = firstn i bs ++ firstn (j - i) (skipn i bs)). { replace j with (i + (j - i)) at 1 by lia. clear. generalize (j - i). intros k. revert bs. induction i as [|i IH]; intros [|b bs]; cbn [Nat.add firstn skipn app]; rewrite ?firstn_nil; auto. f_equal. apply IH. }
  assert (NE : 1 <= j -> firstn j bs <> []) by (intros H1 C; apply (f_equal (@length _)) in C; rewrite firstn_length in C; cbn in C; lia).
  destruct (vmps_opts_ok _ _ _ rs ts e Pj HR HO HM HZ Lj) as [tj [J1 [J2 [J3 [J4 [J5 _]]]]]].
  rewrite E in Pj, Lj. destruct (path_split _ _ _ _ _ Pj) as [mi [Pi Pr]]. apply vmps_lapack_app in Lj. destruct Lj as [Li Lr].
  destruct (vmps_opts_ok _ _ _ rs ts e Pi HR HO HM HZ Li) as [ti [B0 [B1 [B2 [B3 _]]]]].
  exists ti, tj. split; [exact B0|]. split; [exact J1|]. split; [exact J2|]. split; [intros H1; apply J5; auto|].
  assert (OB : opts (firstn j bs) (rs, e) = opts (firstn (j - i) (skipn i bs)) (opts (firstn i bs) (rs, e))) by (rewrite E; unfold SweepSpec.opts; apply fold_left_app).
  destruct (opts (firstn i bs) (rs, e)) as [ri ei]. cbn [fst] in *. destruct (vmps_opts_ok _ _ _ ri ti ei Pr B0 B1 B2 B3 Lr) as [t2 [C1 [_ [_ [_ [_ C]]]]]].
  rewrite <- OB in C1. assert (SAME : sites N t2 = sites N tj). { unfold sites. apply map_ext_in. intros k Hk. apply in_seq in Hk. specialize (C1 k ltac:(lia)). specialize (J1 k ltac:(lia)). congruence. }
  unfold ConserveSpec.energy_ratio, ConserveSpec.sq_norm, ConserveSpec.energy_val in *. rewrite SAME in C. exact C.
Qed.
End Vmps.
