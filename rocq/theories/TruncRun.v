(** Runs of two-site VMPS and TDVP with truncation. *)
From Coq Require Import List Arith Bool Lia QArith Qreals Reals Lra Ring_theory.
From Verif Require Import Base Disk SweepSpec TwoSite TwoSiteFacts Tdvp TdvpSpec TdvpFacts TdvpRun FiniteMps FmpsSpec FmpsFacts EffHam EffHamSpec EffHamFacts ChainSpec ChainFacts Legs VmpsLocal VmpsSpec VmpsEnv VmpsHeff Lanczos LanczosSpec KrylovSpec Cx KrylovInst GVec GVecFacts DmrgStep ChainOne ChainPair ChainUpdate DmrgVarSpec DmrgVar DmrgVarRun ConserveSpec ConserveFacts ConserveRun ConserveVmps ConserveDisk ConserveInst CorrSpec CorrRun TruncUpdate TruncSpec TruncFacts.
Import ListNotations.
Local Open Scope nat_scope.

Lemma cre_mul : forall a b, cmul (cre a) (cre b) = cre (a * b).
Proof. intros. unfold cmul, cre. cbn [fst snd]. f_equal; ring. Qed.
Lemma cre_one : forall a, cmul (cre a) c1 = cre a.
Proof. intros. unfold cmul, cre, c1. cbn [fst snd]. f_equal; ring. Qed.
Lemma cre_nz : forall a, (0 < a)%R -> cre a <> c0.
Proof. intros a H E. injection E as E. lra. Qed.
(** every bond occurs in a sweep, in a time step *)
Lemma bonds_all : forall N l, 3 <= N -> l + 1 < N -> exists rt, In (rt, l) (bonds 0 (N - 1)).
Proof.
  intros N l H3 Hl. unfold bonds. destruct (Nat.eq_dec l (N - 2)) as [->|NE].
  - exists false. apply in_or_app. right. apply in_map_iff. exists (N - 1). split; [f_equal; lia|]. rewrite <- in_rev. apply in_seq. lia.
  - exists true. apply in_or_app. left. apply in_map_iff. exists l. split; [reflexivity|]. apply in_seq. lia.
Qed.
Lemma schedule_all : forall N tau l, 3 <= N -> l + 1 < N -> exists rt t, In (Two rt l t) (schedule N tau).
Proof.
  intros N tau l H3 Hl. unfold schedule. destruct (Nat.eq_dec l (N - 2)) as [->|NE].
  - exists false. eexists. apply in_or_app. right. apply in_or_app. left. left. reflexivity.
  - exists true. eexists. apply in_or_app. left. apply in_flat_map. exists l. split; [apply in_seq; lia|]. left. reflexivity.
Qed.

Section Run.
Variable N : nat.
Variable ws : nat -> cg.
Variable ds : list nat.
Hypothesis HH : hermitian_chain N ws ds.
Variables (stev : list real -> list real -> list real * list real) (maxit : nat) (size : list nat -> nat) (svd : nat -> cg -> cg * cg * cg) (err : cg -> real).
Hypothesis ET : trunc_gsvd err svd.
Hypothesis Hmax : 2 <= maxit.
Notation chain := (chain N ws ds). Notation sq_norm := (sq_norm N). Notation energy_val := (energy_val N ws). Notation holds := (holds N). Notation mixed_at := (mixed_at N). Notation center_at := (center_at N).
Notation energy_ratio := (energy_ratio N ws). Notation has_energy := (has_energy N ws). Notation overlap := (chain_overlap N ds).
Notation lenv := (left_env (res cg) (res cg) w_triv (w_grow ws)). Notation renv := (right_env (res cg) (res cg) w_triv (w_grow ws) N).

Section Vmps.
Variable close : real -> real -> bool.
Notation upd := (v_update_e ws stev maxit size svd err close).
Notation opt := (opt (res cg) (res cg) (res (real * real)) w_triv (w_grow ws) upd N). Notation opts := (opts (res cg) (res cg) (res (real * real)) w_triv (w_grow ws) upd N).
Notation along_lapack := (along_lapack N ws stev maxit size svd err close). Notation bond_lapack := (bond_lapack N ws stev maxit size close).

Notation left_by := (left_by N ws ds).
Lemma trunc_update_ok : forall rt l rs ts e0, l + 1 < N -> holds rs ts -> chain ts -> mixed_at l ts -> sq_norm ts <> c0 -> bond_lapack l rs ->
  exists a b e d ph, opt (rt, l) (rs, e0) = (fset (fset rs l (Ok a)) (l + 1) (Ok b), Some (Ok (e, d))) /\
  let ts' := fset (fset ts l a) (l + 1) b in
  left_by ts' e d ph /\ (if rt then cleft (cten_of a) else cright (cten_of b)) /\ (e <= energy_ratio ts)%R /\
  (forall j, j + 1 < N -> j <> l -> bond_dim ts' j = bond_dim ts j) /\ (forall D, capped_gsvd D svd -> bond_dim ts' l <= D).
Proof.
  intros rt l rs ts e0 Hl HR HC [ML MR] NZ HLA.
  destruct (trunc_problem N ws ds HH svd err ET ts l HC Hl) as [el [er [x [z [L1 [R1 [X1 [Z1 [MH [NV [EV SP]]]]]]]]]]]; [intros; apply ML; lia|intros; apply MR; lia|].
  cbv zeta in *. assert (LE : lenv rs l = Ok el) by (rewrite (lenv_lenvs N ws rs ts l) by (auto; lia); exact L1).
  assert (RE : renv rs (N - (l + 2)) = Ok er) by (rewrite (renv_renvs N ws rs ts) by (auto; lia); replace (N - (N - (l + 2))) with (l + 2) by lia; exact R1).
  assert (T1 : rs l = Ok (ts l)) by (apply HR; lia). assert (T2 : rs (l + 1) = Ok (ts (l + 1))) by (apply HR; lia).
  specialize (HLA el (ts l) (ts (l + 1)) er x LE T1 T2 RE X1).
  destruct (g_lanczos_ok (cgd x) (h_two ws l el er (cgd x)) MH stev maxit (size (cgd x)) Hmax close (cge x)) as [r [g [RUN [G1 [G2 G3]]]]]; [rewrite NV; exact NZ|exact HLA|].
  destruct (SP rt g) as [a [b [ph [S1 [S2 [S3 [S4 [S5 [S6 [S7 [S8 [S9 [S10 S11]]]]]]]]]]]]]; [rewrite G1; unfold c0, c1; intros E; injection E as E; lra|].
  rewrite G1 in *. rewrite cre_one in *.
  exists a, b, (Lanczos.eng real r), (err (mkG cx (cgd x) g)), ph. split; [|split; [|split; [exact S3|split; [|split; [exact S10|exact S11]]]]].
  - unfold SweepSpec.opt. rewrite LE, RE, T1, T2. unfold v_update_e. cbn [bind]. rewrite X1. cbn [bind]. rewrite Z1. cbn [bind]. rewrite RUN. cbn [bind]. rewrite S1. cbn [bind]. reflexivity.
  - split; [exact S2|]. split; [exact S4|]. split; [exact S8|]. split; [exact S5|]. split; [|exact S9]. split; [exact S6|rewrite S7; exact G2].
  - apply (below_ratio N ws); [exact NZ|]. rewrite <- NV, <- EV. exact G3.
Qed.
Lemma opt_any : forall q rs e e', opt q (rs, e) = opt q (rs, e').
Proof. intros [rt l] rs e e'. reflexivity. Qed.
Lemma trunc_opts_ok : forall bs l m rs ts e, path N l bs m -> holds rs ts -> chain ts -> mixed_at l ts -> sq_norm ts <> c0 -> along_lapack bs rs ->
  exists ts', holds (fst (opts bs (rs, e))) ts' /\ chain ts' /\ mixed_at m ts' /\ sq_norm ts' <> c0 /\
  (bs <> [] -> exists x d ph, snd (opts bs (rs, e)) = Some (Ok (x, d)) /\ left_by ts' x d ph) /\
  (forall D j, capped_gsvd D svd -> j + 1 < N -> bond_dim ts j <= D \/ (exists rt, In (rt, j) bs) -> bond_dim ts' j <= D).
Proof.
  induction bs as [|[rt l0] bs IH]; intros l m rs ts e HP HR HC HM HZ HLA.
  - inversion HP; subst. exists ts. cbn. split; [auto|]. split; [auto|]. split; [auto|]. split; [auto|]. split; [congruence|]. intros D j _ _ [H|[? []]]. exact H.
  - assert (l0 = l) by (inversion HP; auto). subst l0. assert (HP' : l + 1 < N /\ exists l', (l' = l \/ (if rt then l' = l + 1 else l' + 1 = l)) /\ path N l' bs m) by (inversion HP; subst; eauto). clear HP. destruct HP' as [H3 [l' [H4 H5]]].
    destruct HLA as [HA HLA]. cbn [snd] in HA.
    destruct (trunc_update_ok rt l rs ts e H3 HR HC HM HZ HA) as [a [b [x [d [ph [U [O1 [C1 [_ [B1 B2]]]]]]]]]]. cbv zeta in *.
    rewrite (opt_any _ rs None e), U in HLA. cbn [fst] in HLA. cbn [SweepSpec.opts fold_left]. change (fold_left (fun (s : (nat -> res cg) * option (res (real * real))) (b0 : bool * nat) => opt b0 s) bs (opt (rt, l) (rs, e))) with (opts bs (opt (rt, l) (rs, e))). rewrite U.
    set (ts1 := fset (fset ts l a) (l + 1) b) in *. set (rs1 := fset (fset rs l (Ok a)) (l + 1) (Ok b)) in *.
    assert (O1' := O1). destruct O1' as [O2 [O3 [O4 _]]].
    destruct (IH l' m rs1 ts1 (Some (Ok (x, d))) H5 (set_holds N rs ts l a b HR) O2) as [ts' [A0 [A1 [A2 [A3 [A4 A5]]]]]]; auto.
    { apply (set_mixed_at N maxit Hmax) with (rt := rt); auto. }
    { rewrite O4. apply cre_nz. lra. }
    exists ts'. split; [exact A0|]. split; [exact A1|]. split; [exact A2|]. split; [exact A3|]. split.
    + intros _. destruct bs as [|b0 bs]; [|apply A4; discriminate]. cbn in A0 |- *. exists x, d, ph. split; [reflexivity|].
      assert (SAME : sites N ts' = sites N ts1). { unfold sites. apply map_ext_in. intros i Hi. apply in_seq in Hi. specialize (A0 i ltac:(lia)). assert (X := set_holds N rs ts l a b HR i ltac:(lia)). fold rs1 ts1 in X. congruence. }
      unfold TruncSpec.left_by in *. split; [exact A1|]. destruct O1 as [_ [P1 [P2 [P3 [P4 P5]]]]]. split; [exact P1|]. split; [unfold ConserveSpec.sq_norm in *; rewrite SAME; exact P2|]. split; [exact P3|]. split; [exact P4|]. unfold chain_overlap, amp in *. rewrite SAME. exact P5.
    + intros D j HD Hj HJ. apply A5; auto. destruct (Nat.eq_dec j l) as [->|NE]; [left; apply B2; exact HD|]. destruct HJ as [HJ|[rt' [HJ|HJ]]].
      * left. rewrite B1 by auto. exact HJ.
      * injection HJ as _ HJ. congruence.
      * right. eauto.
Qed.
Lemma along_app : forall bs bs' rs e, along_lapack (bs ++ bs') rs -> along_lapack bs rs /\ along_lapack bs' (fst (opts bs (rs, e))).
Proof.
  induction bs as [|b bs IH]; intros bs' rs e H; cbn [app TruncSpec.along_lapack] in *; [split; [exact I|exact H]|]. destruct H as [H1 H2]. destruct (IH bs' _ (snd (opt b (rs, e))) H2) as [A B]. split; [split; [exact H1|exact A]|].
  cbn [SweepSpec.opts fold_left]. change (fold_left (fun (s : (nat -> res cg) * option (res (real * real))) (b0 : bool * nat) => opt b0 s) bs (opt b (rs, e))) with (opts bs (opt b (rs, e))).
  rewrite (opt_any b rs None e) in B. destruct (opt b (rs, e)) as [r' e']. exact B.
Qed.
(** the update number i of a sequence *)
Lemma trunc_each_ok : forall bs l m rs ts e, path N l bs m -> holds rs ts -> chain ts -> mixed_at l ts -> sq_norm ts <> c0 -> along_lapack bs rs ->
  forall i, i < length bs -> exists ti tj x d ph,
  let si := opts (firstn i bs) (rs, e) in let sj := opts (firstn (S i) bs) (rs, e) in
  holds (fst si) ti /\ holds (fst sj) tj /\ snd sj = Some (Ok (x, d)) /\ left_by tj x d ph /\ (x <= energy_ratio ti)%R.
Proof.
  intros bs l m rs ts e HP HR HC HM HZ HLA i Hi. cbv zeta.
  assert (E : exists q rest, bs = firstn i bs ++ q :: rest /\ firstn (S i) bs = firstn i bs ++ [q]).
  { clear - Hi. revert bs Hi. induction i as [|i IH]; intros [|q bs] Hi; cbn in Hi; try lia; [exists q, bs; split; reflexivity|]. destruct (IH bs ltac:(lia)) as [q' [rest [A B]]]. exists q', rest.
    split; [cbn [firstn app]; f_equal; exact A|]. change (firstn (S (S i)) (q :: bs)) with (q :: firstn (S i) bs). rewrite B. reflexivity. }
  destruct E as [[rt l1] [rest [E1 E2]]]. rewrite E1 in HP, HLA. destruct (path_split _ _ _ _ _ HP) as [mi [Pi Pr]]. destruct (along_app _ _ _ e HLA) as [Li Lr]. destruct Lr as [Lr _].
  destruct (trunc_opts_ok _ _ _ rs ts e Pi HR HC HM HZ Li) as [ti [B0 [B1 [B2 [B3 _]]]]].
  rewrite E2. unfold SweepSpec.opts at 2 3. rewrite fold_left_app. cbn [fold_left]. change (fold_left (fun (s : (nat -> res cg) * option (res (real * real))) (b0 : bool * nat) => opt b0 s) (firstn i bs) (rs, e)) with (opts (firstn i bs) (rs, e)).
  destruct (opts (firstn i bs) (rs, e)) as [ri ei]. cbn [fst snd] in *.
  assert (l1 = mi /\ mi + 1 < N) as [-> Hm] by (inversion Pr; auto).
  destruct (trunc_update_ok rt mi ri ti ei Hm B0 B1 B2 B3 Lr) as [a [b [x [d [ph [U [O1 [C1 [LE _]]]]]]]]]. cbv zeta in *.
  exists ti, (fset (fset ti mi a) (mi + 1) b), x, d, ph. rewrite U. cbn [fst snd]. split; [exact B0|]. split; [apply (set_holds N); exact B0|]. split; [reflexivity|]. split; [exact O1|exact LE].
Qed.

Variables (dT dE : res cg) (canoL canoR : res cg -> res cg -> res cg * res cg) (dbg : bool).
Notation run := (run_two_site (res cg) (res cg) (res (real * real)) dT dE w_triv (w_grow ws) upd canoL canoR dbg).
Notation startable := (startable (res cg) (res cg) (res (real * real)) w_triv (w_grow ws) N).
Lemma trunc_disk_ok : forall k rs ts w, 3 <= N -> startable rs w -> holds rs ts -> chain ts -> mixed_at 0 ts -> sq_norm ts <> c0 -> along_lapack (all_bonds 0 (N - 1) (S k)) rs ->
  exists e d w' rs' ts' ph, run (S k) w = Ok (Ok (e, d), w') /\ startable rs' w' /\ holds rs' ts' /\ mixed_at 0 ts' /\ left_by ts' e d ph /\
  (forall D, capped_gsvd D svd -> forall l, l + 1 < N -> bond_dim ts' l <= D).
Proof.
  intros k rs ts w H3 HS HR HC HM NZ LA.
  destruct (TwoSiteFacts.run_ok (res cg) (res cg) (res (real * real)) dT dE w_triv (w_grow ws) upd canoL canoR dbg N rs k w H3 HS) as [e [w' [A1 [A2 [A3 _]]]]]. cbv zeta in *.
  assert (SA : forall n s, sweeps_spec (res cg) (res cg) (res (real * real)) w_triv (w_grow ws) upd N 0 (N - 1) n s = opts (all_bonds 0 (N - 1) n) s).
  { clear. intros n. induction n as [|n IH]; intros s; [reflexivity|]. cbn [SweepSpec.sweeps_spec]. rewrite IH. unfold all_bonds. cbn [repeat concat]. unfold SweepSpec.opts. rewrite fold_left_app. reflexivity. }
  rewrite SA in *.
  destruct (trunc_opts_ok _ 0 0 rs ts None (path_all N 0 (N - 1) (S k) ltac:(lia) ltac:(lia)) HR HC HM NZ LA) as [ts' [B0 [B1 [B2 [B3 [B4 B5]]]]]].
  assert (NE : all_bonds 0 (N - 1) (S k) <> []) by (unfold all_bonds, bonds; cbn [repeat concat]; destruct (N - 1 - 1 - 0) eqn:E; [lia|cbn; discriminate]).
  destruct (B4 NE) as [x [d [ph [X1 X2]]]]. rewrite A2 in X1. injection X1 as ->.
  exists x, d, w', (fst (opts (all_bonds 0 (N - 1) (S k)) (rs, None))), ts', ph.
  split; [exact A1|]. split; [exact A3|]. split; [exact B0|]. split; [exact B2|]. split; [exact X2|]. intros D HD l Hl. apply (B5 D l HD Hl). right. destruct (bonds_all N l H3 Hl) as [rt I]. exists rt. unfold all_bonds. cbn [repeat concat]. apply in_or_app. left. exact I.
Qed.
End Vmps.

Section Tdvp.
Variable far : list cx -> list cx -> bool.
Notation evo := (t_evo ws stev maxit size svd far). Notation back := (t_back ws stev maxit size far).
Notation evolve := (evolve (res cg) (res cg) w_triv (w_grow ws) evo back N).
Notation sub_lapack := (sub_lapack N ws stev maxit size far). Notation subs_lapack := (subs_lapack N ws stev maxit size svd far). Notation steps_lapack := (steps_lapack N ws stev maxit size svd far).
Notation kept := (kept N ws stev maxit size err far). Notation kept_all := (kept_all N ws stev maxit size svd err far). Notation kept_steps := (kept_steps N ws stev maxit size svd err far).
Notation scaled := (scaled N).
Lemma scaled_nz : forall k ts' ts, scaled k ts' ts -> sq_norm ts <> c0 -> sq_norm ts' <> c0.
Proof.
  intros k ts' ts [K E] NZ E0. apply NZ. rewrite E0 in E. destruct (sq_norm ts) as [a b]. unfold cmul, cre, c0 in *. cbn [fst snd] in E. injection E as E1 E2. f_equal; nra.
Qed.
Lemma scaled_trans : forall k1 k2 t0 t1 t2, scaled k1 t1 t0 -> scaled k2 t2 t1 -> scaled (k1 * k2) t2 t0.
Proof. intros k1 k2 t0 t1 t2 [K1 E1] [K2 E2]. split; [nra|]. rewrite E2, E1. destruct (sq_norm t0) as [a b]. unfold cmul, cre. cbn [fst snd]. f_equal; ring. Qed.
Lemma scaled_refl : forall ts, scaled 1 ts ts.
Proof. intros ts. split; [lra|]. destruct (sq_norm ts) as [a b]. unfold cmul, cre. cbn [fst snd]. f_equal; ring. Qed.

Lemma trunc_two_ok : forall rt l t c rs ts, l + 1 < N -> (c = l \/ c = l + 1) -> holds rs ts -> chain ts -> center_at c ts -> sq_norm ts <> c0 -> sub_lapack (Two rt l t) rs ->
  exists ts', holds (evolve rs (Two rt l t)) ts' /\ chain ts' /\ center_at (if rt then l + 1 else l) ts' /\ scaled (kept (Two rt l t) rs) ts' ts /\
  (forall j, j + 1 < N -> j <> l -> bond_dim ts' j = bond_dim ts j) /\ (forall D, capped_gsvd D svd -> bond_dim ts' l <= D).
Proof.
  intros rt l t c rs ts Hl HCc HR HC HCen NZ HLA. assert (HCen' := HCen). destruct HCen' as [ML MR].
  destruct (trunc_problem N ws ds HH svd err ET ts l HC Hl) as [el [er [x [z [L1 [R1 [X1 [Z1 [MH [NV [EV SP]]]]]]]]]]]; [intros; apply ML; lia|intros; apply MR; lia|].
  cbv zeta in *. assert (LE : lenv rs l = Ok el) by (rewrite (lenv_lenvs N ws rs ts l) by (auto; lia); exact L1).
  assert (RE : renv rs (N - (l + 2)) = Ok er) by (rewrite (renv_renvs N ws rs ts) by (auto; lia); replace (N - (N - (l + 2))) with (l + 2) by lia; exact R1).
  assert (T1 : rs l = Ok (ts l)) by (apply HR; lia). assert (T2 : rs (l + 1) = Ok (ts (l + 1))) by (apply HR; lia).
  specialize (HLA el (ts l) (ts (l + 1)) er x LE T1 T2 RE X1).
  destruct (g_expmv_ok (cgd x) (h_two ws l el er (cgd x)) MH stev maxit (size (cgd x)) Hmax (Q2R t) far (cge x)) as [r [g [RUN [G1 G2]]]]; [rewrite NV; exact NZ|exact HLA|].
  destruct (SP rt g) as [a [b [ph [S1 [S2 [S3 [S4 [S5 [S6 [S7 [S8 [S9 [S10 S11]]]]]]]]]]]]]; [rewrite G1, NV; exact NZ|].
  exists (fset (fset ts l a) (l + 1) b). split; [|split; [exact S2|split; [exact (set_center N maxit Hmax ts l a b rt c Hl HCen HCc S3)|split; [|split; [exact S10|exact S11]]]]].
  - unfold TdvpSpec.evolve. rewrite LE, RE, T1, T2. unfold t_evo. cbn [bind]. rewrite X1. cbn [bind]. rewrite Z1. cbn [bind]. rewrite RUN. cbn [bind]. rewrite S1. cbn [both]. apply (set_holds N). exact HR.
  - unfold TruncSpec.kept. rewrite LE, RE, T1, T2. unfold t_err. cbn [bind]. rewrite X1. cbn [bind]. rewrite RUN. cbn [bind]. split; [lra|]. rewrite S8, G1, NV. reflexivity.
Qed.
Lemma back_legs : forall j t el a er b, back j t el (Ok a) er = Ok b -> cgd b = cgd a.
Proof.
  intros j t el a er b. unfold t_back. destruct el as [el| |]; try discriminate. cbn [bind]. destruct er as [er| |]; try discriminate. cbn [bind]. destruct (mul1 _ _ _ _ _ _ _ _); try discriminate. cbn [bind].
  destruct (g_expmv _ _ _ _ _ _ _ _) as [[r g]| |]; try discriminate. cbn [bind]. intros E. injection E as <-. reflexivity.
Qed.
Lemma trunc_subs_ok : forall ss c m rs ts, walk N c ss m -> holds rs ts -> chain ts -> center_at c ts -> sq_norm ts <> c0 -> subs_lapack ss rs ->
  exists ts', holds (fold_left evolve ss rs) ts' /\ chain ts' /\ center_at m ts' /\ scaled (kept_all ss rs) ts' ts /\
  (forall D j, capped_gsvd D svd -> j + 1 < N -> bond_dim ts j <= D \/ (exists rt t, In (Two rt j t) ss) -> bond_dim ts' j <= D).
Proof.
  induction ss as [|s ss IH]; intros c m rs ts HW HR HC HCen NZ HLA.
  - inversion HW; subst. exists ts. cbn. split; [auto|]. split; [auto|]. split; [auto|]. split; [apply scaled_refl|]. intros D j _ _ [H|[? [? []]]]. exact H.
  - destruct HLA as [LA HLA]. cbn [fold_left].
    assert (exists c', walk N c' ss m /\ exists ts', holds (evolve rs s) ts' /\ chain ts' /\ center_at c' ts' /\ scaled (kept s rs) ts' ts /\
      (forall D j, capped_gsvd D svd -> j + 1 < N -> bond_dim ts j <= D \/ (exists rt t, s = Two rt j t) -> bond_dim ts' j <= D)) as [c' [W' [t1 [A1 [A2 [A3 [A4 A5]]]]]]].
    { inversion HW; subst.
      - eexists. split; [eassumption|]. destruct (trunc_two_ok rt l t c rs ts) as [ts' [Q1 [Q2 [Q3 [Q4 [Q5 Q6]]]]]]; auto. exists ts'. split; [exact Q1|]. split; [exact Q2|]. split; [exact Q3|]. split; [exact Q4|].
        intros D j HD Hj HJ. destruct (Nat.eq_dec j l) as [->|NE]; [apply Q6; exact HD|]. rewrite Q5 by auto. destruct HJ as [HJ|[? [? HJ]]]; [exact HJ|]. injection HJ as _ HJ _. congruence.
      - eexists. split; [eassumption|].
        match goal with H : center_at ?i ts |- _ => rename i into cc end.
        destruct (one_ok N ws ds HH stev maxit size svd Hmax far cc t rs ts) as [ts' [Q1 [Q2 [Q3 [Q4 Q5]]]]]; auto.
        exists ts'. split; [exact Q1|]. split; [exact Q2|]. split; [exact Q3|]. split; [unfold TruncSpec.scaled, TruncSpec.kept; rewrite Q4; apply scaled_refl|].
        intros D i HD Hj [HJ|[? [? HJ]]]; [|discriminate]. replace (bond_dim ts' i) with (bond_dim ts i); [exact HJ|]. unfold bond_dim. f_equal.
        specialize (Q1 i ltac:(lia)). unfold TdvpSpec.evolve, fset in Q1. destruct (Nat.eqb_spec i cc) as [EI|NE]; [|rewrite (HR i) in Q1 by lia; congruence].
        symmetry. subst i. rewrite (HR cc) in Q1 by lia. exact (back_legs _ _ _ _ _ _ Q1). }
    destruct (IH c' m (evolve rs s) t1 W' A1 A2 A3) as [t2 [B1 [B2 [B3 [B4 B5]]]]]; [apply (scaled_nz _ _ _ A4 NZ)|exact HLA|].
    exists t2. split; [exact B1|]. split; [exact B2|]. split; [exact B3|]. split; [cbn [TruncSpec.kept_all]; apply (scaled_trans _ _ _ _ _ A4 B4)|].
    intros D j HD Hj HJ. apply B5; auto. destruct HJ as [HJ|[rt [t [HJ|HJ]]]].
    + left. apply A5; auto.
    + left. apply A5; auto. right. eauto.
    + right. eauto.
Qed.
Notation after := (after (res cg) (res cg) w_triv (w_grow ws) evo back N).
(** a time step that is cut after any substep *)
Lemma trunc_prefix_ok : forall tau j c rs ts, 3 <= N -> c <= 1 -> holds rs ts -> chain ts -> center_at c ts -> sq_norm ts <> c0 -> subs_lapack (firstn j (schedule N tau)) rs ->
  exists ts', holds (fold_left evolve (firstn j (schedule N tau)) rs) ts' /\ chain ts' /\ scaled (kept_all (firstn j (schedule N tau)) rs) ts' ts.
Proof.
  intros tau j c rs ts H3 Hc HR HC HCen NZ HLA. destruct (walk_firstn N _ _ _ j (walk_schedule N tau c H3 Hc)) as [m W].
  destruct (trunc_subs_ok _ _ _ rs ts W HR HC HCen NZ HLA) as [t' [A1 [A2 [_ [A4 _]]]]]. exists t'. auto.
Qed.
Lemma trunc_after_ok : forall tau k c rs ts, 3 <= N -> c <= 1 -> holds rs ts -> chain ts -> center_at c ts -> sq_norm ts <> c0 -> steps_lapack tau k rs ->
  exists ts', holds (after tau k rs) ts' /\ chain ts' /\ (exists c', c' <= 1 /\ center_at c' ts') /\ scaled (kept_steps tau k rs) ts' ts /\
  (1 <= k -> forall D l, capped_gsvd D svd -> l + 1 < N -> bond_dim ts' l <= D).
Proof.
  intros tau k c rs ts H3 Hc HR HC HCen NZ. induction k as [|k IH]; intros HLA.
  - exists ts. cbn. split; [exact HR|]. split; [exact HC|]. split; [exists c; auto|]. split; [apply scaled_refl|lia].
  - destruct HLA as [LA HLA]. destruct (IH LA) as [t1 [A1 [A2 [[c' [A3 A3']] [A4 A5]]]]]. cbn [TdvpSpec.after]. unfold tau_step.
    destruct (trunc_subs_ok _ _ _ _ t1 (walk_schedule N tau c' H3 A3) A1 A2 A3') as [t2 [B1 [B2 [B3 [B4 B5]]]]]; [apply (scaled_nz _ _ _ A4 NZ)|exact HLA|].
    exists t2. split; [exact B1|]. split; [exact B2|]. split; [exists 1; split; [lia|exact B3]|]. split; [cbn [TruncSpec.kept_steps]; apply (scaled_trans _ _ _ _ _ A4 B4)|].
    intros _ D l HD Hl. apply (B5 D l HD Hl). right. apply schedule_all; auto.
Qed.
Variable qr : nat -> cg -> cg * cg.
Hypothesis EQ : exact_qr qr.
Variables (M V : Type) (dT dE : res cg) (dM : M) (canoL : res cg -> res cg -> res cg * res cg) (dbg : bool) (actO : res cg -> res cg) (actI : option (res cg -> res cg)).
Variables (mtr mtl : M) (mgr : res cg -> res cg -> M -> M) (mgl : M -> res cg -> res cg -> M) (mval : M -> res cg -> res cg -> M -> V) (phase : Q -> V -> V).
Notation run := (tdvp_run (res cg) (res cg) M V dT dE dM w_triv (w_grow ws) canoL (t_rcano qr) evo back dbg actO actI mtr mtl mgr mgl mval phase).
Notation prepared site rs := (center0 (res cg) (t_rcano qr) site (acted (res cg) actO actI site rs)).
Lemma trunc_steps_ok : forall site tau n rs ta, 3 <= N -> site < N -> holds (acted (res cg) actO actI site rs) ta -> chain ta -> (forall i, site < i < N -> cright (cten_of (ta i))) -> sq_norm ta <> c0 ->
  steps_lapack tau n (prepared site rs) -> forall k, k <= n ->
  exists ts', holds (after tau k (prepared site rs)) ts' /\ chain ts' /\ scaled (kept_steps tau k (prepared site rs)) ts' ta /\
  (1 <= k -> forall D l, capped_gsvd D svd -> l + 1 < N -> bond_dim ts' l <= D).
Proof.
  intros site tau n rs ta H3 Hs HR HC HRi NZ LA k Hk. destruct (center0_ok N ws ds qr EQ site _ ta Hs HR HC HRi) as [t0 [A1 [A2 [A3 [A4 A5]]]]].
  destruct (trunc_after_ok tau k 0 _ t0 H3 (Nat.le_0_l 1) A1 A2 A3) as [t1 [B1 [B2 [_ [B4 B5]]]]]; [congruence|apply (steps_mono N ws stev maxit size svd far tau n k _ Hk LA)|].
  exists t1. split; [exact B1|]. split; [exact B2|]. split; [|exact B5]. unfold TruncSpec.scaled in *. rewrite A4 in B4. exact B4.
Qed.
Lemma trunc_tdvp_disk_ok : forall site steps tau ini t0 mf rs w ta, 3 <= N -> site < N -> idle (res cg) (res cg) N rs w ->
  (match ini with Some f => forall i, i < N -> f i = Some (t0 i) | None => t0 = rs end) ->
  holds (acted (res cg) actO actI site rs) ta -> chain ta -> (forall i, site < i < N -> cright (cten_of (ta i))) -> sq_norm ta <> c0 ->
  steps_lapack tau steps (prepared site rs) ->
  exists r w' ts', run true site steps tau ini mf w = Ok (r, w') /\ (forall i, i < N -> dm (res cg) (res cg) unit w' i = Some (Ok (ts' i))) /\
  chain ts' /\ scaled (kept_steps tau steps (prepared site rs)) ts' ta /\ (1 <= steps -> forall D l, capped_gsvd D svd -> l + 1 < N -> bond_dim ts' l <= D).
Proof.
  intros site steps tau ini t0 mf rs w ta H3 Hs HI Hini HR HC HRi NZ LA.
  destruct (TdvpRun.run_ok (res cg) (res cg) M V dT dE dM w_triv (w_grow ws) canoL (t_rcano qr) evo back dbg actO actI mtr mtl mgr mgl mval phase N site steps tau ini t0 mf rs w H3 Hs HI Hini) as [r [w' [R1 [_ [R3 _]]]]].
  destruct (trunc_steps_ok site tau steps rs ta H3 Hs HR HC HRi NZ LA steps (le_n _)) as [ts' [A1 A2]].
  exists r, w', ts'. split; [exact R1|]. split; [|exact A2]. intros i Hi. pose proof (tr_dm _ _ _ _ _ _ _ R3 i Hi) as D. rewrite D. f_equal. apply A1. exact Hi.
Qed.
End Tdvp.
End Run.
