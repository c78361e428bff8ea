(** Two-site VMPS and two-site TDVP on eigenstates. *)
From Coq Require Import List Arith Bool Lia QArith Qreals Reals Lra Ring_theory.
From Verif Require Import Base Disk SweepSpec TwoSite TwoSiteFacts Tdvp TdvpSpec TdvpFacts TdvpRun FiniteMps FmpsSpec FmpsFacts EffHam EffHamSpec EffHamFacts ChainSpec ChainFacts Legs VmpsLocal VmpsSpec VmpsEnv VmpsHeff Lanczos LanczosSpec KrylovSpec Cx KrylovInst GVec GVecFacts GVecEigen DmrgStep ChainOne ChainPair ChainUpdate DmrgVarSpec DmrgVar DmrgVarRun ConserveSpec ConserveFacts ConserveRun ConserveVmps ConserveDisk CorrUpdate CorrSpec CorrChain CorrRun EigenSpec EigenFacts.
Import ListNotations.
Local Open Scope nat_scope.

Lemma cph_turn : forall E t, cph (Q2R t) E = turn E t.
Proof. intros. unfold cph, turn. rewrite Rmult_comm. reflexivity. Qed.
Lemma turn_add : forall E a b, cmul (turn E a) (turn E b) = turn E (a + b).
Proof. intros E a b. unfold turn, cmul. cbn [fst snd]. rewrite Q2R_plus, Rmult_plus_distr_l, cos_plus, sin_plus. f_equal; ring. Qed.
Lemma turn_eq : forall E a b, (a == b)%Q -> turn E a = turn E b.
Proof. intros E a b H. unfold turn. rewrite (Qeq_eqR _ _ H). reflexivity. Qed.
Lemma turn_0 : forall E, turn E 0 = c1.
Proof. intros E. unfold turn. rewrite RMicromega.Q2R_0, Rmult_0_r, cos_0, sin_0. unfold c1. f_equal. ring. Qed.
Lemma total_app : forall a b, (total (a ++ b) == total a + total b)%Q.
Proof. unfold total. induction a as [|s a IH]; intros b; cbn [app map fold_right]; [symmetry; apply Qplus_0_l|]. rewrite IH. apply Qplus_assoc. Qed.
Lemma total_schedule : forall N tau, (total (schedule N tau) == tau)%Q.
Proof.
  intros N tau. unfold schedule. rewrite !total_app. unfold total at 2. cbn [map fold_right sub_time].
  assert (A : forall l, (total (flat_map (fun i => [Two true i (tau / 2)%Q; One (i + 1) (- tau / 2)%Q]) l) == 0)%Q).
  { induction l as [|i l IH]; [reflexivity|]. cbn [flat_map]. rewrite total_app, IH. unfold total. cbn [map fold_right sub_time]. field. }
  assert (B : forall l, (total (flat_map (fun j => [One j (- tau / 2)%Q; Two (j =? 1) (j - 1) (tau / 2)%Q]) l) == 0)%Q).
  { induction l as [|i l IH]; [reflexivity|]. cbn [flat_map]. rewrite total_app, IH. unfold total. cbn [map fold_right sub_time]. field. }
  rewrite A, B. field.
Qed.

Section Run.
Variable N : nat.
Variable ws : nat -> cg.
Variable ds : list nat.
Hypothesis HH : hermitian_chain N ws ds.
Variables (stev : list real -> list real -> list real * list real) (maxit : nat) (size : list nat -> nat) (svd : nat -> cg -> cg * cg * cg).
Hypothesis ES : exact_gsvd svd.
Hypothesis Hmax : 2 <= maxit.
Variable E : real.
Notation chain := (chain N ws ds). Notation sq_norm := (sq_norm N). Notation holds := (holds N). Notation mixed_at := (mixed_at N). Notation center_at := (center_at N).
Notation eigen ts := (eigenstate N ws ds (amp N ts) E). Notation times := (times N ds).
Notation lenv := (left_env (res cg) (res cg) w_triv (w_grow ws)). Notation renv := (right_env (res cg) (res cg) w_triv (w_grow ws) N).

Lemma times_one : forall ts, times c1 ts ts.
Proof. intros ts c _. ring. Qed.
Lemma times_ext : forall z ts ts' us us', sites N ts = sites N us -> sites N ts' = sites N us' -> times z ts' ts -> times z us' us.
Proof. intros z ts ts' us us' H1 H2 H c Ic. specialize (H c Ic). unfold amp in *. rewrite <- H1, <- H2. exact H. Qed.
(** <psi|psi> of a multiple *)
Lemma times_norm : forall z ts ts', chain ts -> chain ts' -> times z ts' ts -> sq_norm ts' = cmul (cre (ab2 z)) (sq_norm ts).
Proof.
  intros z ts ts' HC HC' HT. rewrite <- (weight_norm N ws ds ts HC), <- (weight_norm N ws ds ts' HC'), (weight_ext ds _ _ HT). unfold weight. rewrite (lsum_mul_l cx c0 c1 cadd cmul csub copp cx_ring). apply (lsum_ext cx c0 cadd). intros c _.
  rewrite cconj_mul, <- self_ab2. ring.
Qed.

Section Vmps.
Variable close : real -> real -> bool.
Notation upd := (v_update ws stev maxit size svd close).
Notation opt := (opt (res cg) (res cg) (res real) w_triv (w_grow ws) upd N). Notation opts := (opts (res cg) (res cg) (res real) w_triv (w_grow ws) upd N).
Notation normalized := (normalized N ds).
Lemma eigen_update_ok : forall rt l rs ts e0, l + 1 < N -> holds rs ts -> chain ts -> mixed_at l ts -> sq_norm ts <> c0 -> eigen ts ->
  exists a b, opt (rt, l) (rs, e0) = (fset (fset rs l (Ok a)) (l + 1) (Ok b), Some (Ok E)) /\
  let ts' := fset (fset ts l a) (l + 1) b in chain ts' /\ (if rt then cleft (cten_of a) else cright (cten_of b)) /\ normalized ts' ts.
Proof.
  intros rt l rs ts e0 Hl HR HC [ML MR] NZ HE.
  destruct (two_problem_to N ws ds HH svd ts l HC Hl) as [el [er [x [z [L1 [R1 [X1 [Z1 [MH [NV [_ SP]]]]]]]]]]]; [intros; apply ML; lia|intros; apply MR; lia|].
  cbv zeta in *. assert (LE : lenv rs l = Ok el) by (rewrite (lenv_lenvs N ws rs ts l) by (auto; lia); exact L1).
  assert (RE : renv rs (N - (l + 2)) = Ok er) by (rewrite (renv_renvs N ws rs ts) by (auto; lia); replace (N - (N - (l + 2))) with (l + 2) by lia; exact R1).
  assert (T1 : rs l = Ok (ts l)) by (apply HR; lia). assert (T2 : rs (l + 1) = Ok (ts (l + 1))) by (apply HR; lia).
  assert (EV := two_eigen N ws ds ts l el er x E HC Hl ltac:(intros; apply ML; lia) ltac:(intros; apply MR; lia) L1 R1 X1 HE).
  destruct (lanczos_eigen (cgd x) (h_two ws l el er (cgd x)) MH stev maxit (size (cgd x)) Hmax (cge x) E) with (close := close) as [r [g [n [RUN [_ [G2 [G3 [G4 G5]]]]]]]]; [rewrite NV; exact NZ|exact EV|].
  destruct (cut2_at N ws ds ts l HC Hl) as [D0 [p1 [D [p2 [D3 [E1 [E2 _]]]]]]]. destruct (pair_ok cx c0 cadd cmul _ _ _ _ _ _ _ E1 E2) as [x' [X1' [X2 _]]]. rewrite X1 in X1'. injection X1' as <-.
  destruct (ES (mkG cx (cgd x) g) _ _ _ _ X2) as [FA CA]. destruct (SP rt g g FA CA) as [a [b [S1 [S2 [S3 [_ [_ [S6 _]]]]]]]].
  exists a, b. split; [|split; [exact S2|split; [exact S3|]]].
  - unfold SweepSpec.opt. rewrite LE, RE, T1, T2. unfold v_update. cbn [bind]. rewrite X1. cbn [bind]. rewrite Z1. cbn [bind]. rewrite RUN. cbn [bind]. rewrite S1. cbn [bind]. rewrite G2. reflexivity.
  - exists n. split; [exact G3|]. split; [rewrite <- NV, <- G4; unfold cmul, cre; cbn [fst snd]; f_equal; ring|]. apply (two_times N ws ds ts l x a b g _ HC Hl X1); [rewrite G5; intros k _; reflexivity|exact S6].
Qed.
Lemma normalized_norm : forall ts ts', chain ts -> chain ts' -> normalized ts' ts -> sq_norm ts' = c1.
Proof.
  intros ts ts' HC HC' [n [P [Q T]]]. rewrite (times_norm _ _ _ HC HC' T), Q. unfold ab2, cmul, cre, c1. cbn [fst snd]. f_equal; field; lra.
Qed.
Lemma normalized_trans : forall t0 t1 t2, chain t0 -> chain t1 -> normalized t1 t0 -> normalized t2 t1 -> normalized t2 t0.
Proof.
  intros t0 t1 t2 C0 C1 H1 [n2 [P2 [Q2 T2]]]. assert (N1 := normalized_norm t0 t1 C0 C1 H1). destruct H1 as [n [P [Q T]]]. exists n. split; [exact P|]. split; [exact Q|].
  rewrite N1 in Q2. unfold c1, cre in Q2. injection Q2 as Q2. assert (n2 = 1%R) by nra. subst n2. intros c Ic. rewrite (times_trans N ds _ _ _ _ _ T T2 c Ic), Rinv_1. change (cre 1) with c1. ring.
Qed.
Lemma normalized_eigen : forall ts ts', normalized ts' ts -> eigen ts -> eigen ts'.
Proof. intros ts ts' [n [_ [_ T]]] HE. exact (times_eigen N ws ds _ _ _ _ T HE). Qed.
Lemma eigen_opts_ok : forall bs l m rs ts e, path N l bs m -> holds rs ts -> chain ts -> mixed_at l ts -> sq_norm ts <> c0 -> eigen ts ->
  exists ts', holds (fst (opts bs (rs, e))) ts' /\ chain ts' /\ mixed_at m ts' /\ eigen ts' /\
  (bs <> [] -> snd (opts bs (rs, e)) = Some (Ok E) /\ normalized ts' ts).
Proof.
  induction bs as [|[rt l0] bs IH]; intros l m rs ts e HP HR HC HM HZ HE.
  - inversion HP; subst. exists ts. cbn. split; [auto|]. split; [auto|]. split; [auto|]. split; [auto|]. congruence.
  - assert (l0 = l) by (inversion HP; auto). subst l0. assert (HP' : l + 1 < N /\ exists l', (l' = l \/ (if rt then l' = l + 1 else l' + 1 = l)) /\ path N l' bs m) by (inversion HP; subst; eauto). clear HP. destruct HP' as [H3 [l' [H4 H5]]].
    destruct (eigen_update_ok rt l rs ts e H3 HR HC HM HZ HE) as [a [b [U [O1 [C1 N1]]]]]. cbv zeta in *.
    cbn [SweepSpec.opts fold_left]. change (fold_left (fun (s : (nat -> res cg) * option (res real)) (b0 : bool * nat) => opt b0 s) bs (opt (rt, l) (rs, e))) with (opts bs (opt (rt, l) (rs, e))). rewrite U.
    set (ts1 := fset (fset ts l a) (l + 1) b) in *. set (rs1 := fset (fset rs l (Ok a)) (l + 1) (Ok b)) in *.
    assert (S1 := normalized_norm ts ts1 HC O1 N1).
    destruct (IH l' m rs1 ts1 (Some (Ok E)) H5 (set_holds N rs ts l a b HR) O1) as [ts' [A0 [A1 [A2 [A3 A4]]]]]; auto.
    { apply (set_mixed_at N maxit Hmax) with (rt := rt); auto. }
    { rewrite S1. unfold c0, c1. intros X. injection X as X. lra. }
    { apply (normalized_eigen ts); auto. }
    exists ts'. split; [exact A0|]. split; [exact A1|]. split; [exact A2|]. split; [exact A3|]. intros _. destruct bs as [|b0 bs].
    + cbn in *. split; [reflexivity|]. destruct N1 as [n [P [Q T]]]. exists n. split; [exact P|]. split; [exact Q|]. apply (times_ext _ ts ts1 ts ts'); auto.
      unfold sites. apply map_ext_in. intros i Hi. apply in_seq in Hi. specialize (A0 i ltac:(lia)). assert (X := set_holds N rs ts l a b HR i ltac:(lia)). fold rs1 ts1 in X. congruence.
    + destruct (A4 ltac:(discriminate)) as [A5 A6]. split; [exact A5|]. apply (normalized_trans ts ts1 ts'); auto.
Qed.
Lemma eigen_each_ok : forall bs l m rs ts e, path N l bs m -> holds rs ts -> chain ts -> mixed_at l ts -> sq_norm ts <> c0 -> eigen ts ->
  forall j, 1 <= j -> j <= length bs -> let s := opts (firstn j bs) (rs, e) in snd s = Some (Ok E) /\ exists ts', holds (fst s) ts' /\ chain ts' /\ eigen ts' /\ normalized ts' ts.
Proof.
  intros bs l m rs ts e HP HR HC HM NZ HE j H1 Hj. cbv zeta. rewrite <- (firstn_skipn j bs) in HP. destruct (path_split _ _ _ _ _ HP) as [m' [P1 _]].
  destruct (eigen_opts_ok _ _ _ rs ts e P1 HR HC HM NZ HE) as [ts' [A0 [A1 [A2 [A3 A4]]]]]. destruct A4 as [A4 A5]; [intros X; apply (f_equal (@length _)) in X; rewrite firstn_length in X; cbn in X; lia|].
  split; [exact A4|]. exists ts'. auto.
Qed.
Variables (dT dE : res cg) (canoL canoR : res cg -> res cg -> res cg * res cg) (dbg : bool).
Notation run := (run_two_site (res cg) (res cg) (res real) dT dE w_triv (w_grow ws) upd canoL canoR dbg).
Notation startable := (startable (res cg) (res cg) (res real) w_triv (w_grow ws) N).
Lemma eigen_vmps_disk_ok : forall k rs ts w, 3 <= N -> startable rs w -> holds rs ts -> chain ts -> mixed_at 0 ts -> sq_norm ts <> c0 -> eigen ts ->
  exists w' rs' ts', run (S k) w = Ok (Ok E, w') /\ startable rs' w' /\ holds rs' ts' /\ chain ts' /\ mixed_at 0 ts' /\ normalized ts' ts.
Proof.
  intros k rs ts w H3 HS HR HC HM NZ HE.
  destruct (TwoSiteFacts.run_ok (res cg) (res cg) (res real) dT dE w_triv (w_grow ws) upd canoL canoR dbg N rs k w H3 HS) as [e [w' [A1 [A2 [A3 _]]]]]. cbv zeta in *.
  assert (SA : forall n s, sweeps_spec (res cg) (res cg) (res real) w_triv (w_grow ws) upd N 0 (N - 1) n s = opts (all_bonds 0 (N - 1) n) s).
  { clear. intros n. induction n as [|n IH]; intros s; [reflexivity|]. cbn [SweepSpec.sweeps_spec]. rewrite IH. unfold all_bonds. cbn [repeat concat]. unfold SweepSpec.opts. rewrite fold_left_app. reflexivity. }
  rewrite SA in *.
  destruct (eigen_opts_ok _ 0 0 rs ts None (path_all N 0 (N - 1) (S k) ltac:(lia) ltac:(lia)) HR HC HM NZ HE) as [ts' [B0 [B1 [B2 [_ B4]]]]].
  assert (NE : all_bonds 0 (N - 1) (S k) <> []) by (unfold all_bonds, bonds; cbn [repeat concat]; destruct (N - 1 - 1 - 0) eqn:X; [lia|cbn; discriminate]).
  destruct (B4 NE) as [X1 X2]. rewrite A2 in X1. injection X1 as ->.
  exists w', (fst (opts (all_bonds 0 (N - 1) (S k)) (rs, None))), ts'. split; [exact A1|]. split; [exact A3|]. split; [exact B0|]. split; [exact B1|]. split; [exact B2|exact X2].
Qed.
End Vmps.

Section Tdvp.
Variable far : list cx -> list cx -> bool.
Notation evo := (t_evo ws stev maxit size svd far). Notation back := (t_back ws stev maxit size far).
Notation evolve := (evolve (res cg) (res cg) w_triv (w_grow ws) evo back N). Notation after := (after (res cg) (res cg) w_triv (w_grow ws) evo back N).
Lemma turn_nz : forall t ts ts', chain ts -> chain ts' -> times (turn E t) ts' ts -> sq_norm ts <> c0 -> sq_norm ts' <> c0.
Proof.
  intros t ts ts' HC HC' T NZ. rewrite (times_norm _ _ _ HC HC' T). replace (ab2 (turn E t)) with 1%R; [change (cre 1) with c1; intros X; apply NZ; rewrite <- X; ring|].
  unfold ab2, turn. cbn [fst snd]. pose proof (sin2_cos2 (E * Q2R t)) as P. unfold Rsqr in P. lra.
Qed.
Lemma eigen_two_ok : forall rt l t c rs ts, l + 1 < N -> (c = l \/ c = l + 1) -> holds rs ts -> chain ts -> center_at c ts -> sq_norm ts <> c0 -> eigen ts ->
  exists ts', holds (evolve rs (Two rt l t)) ts' /\ chain ts' /\ center_at (if rt then l + 1 else l) ts' /\ times (turn E t) ts' ts.
Proof.
  intros rt l t c rs ts Hl HCc HR HC HCen NZ HE. assert (HCen' := HCen). destruct HCen' as [ML MR].
  destruct (two_problem_to N ws ds HH svd ts l HC Hl) as [el [er [x [z [L1 [R1 [X1 [Z1 [MH [NV [_ SP]]]]]]]]]]]; [intros; apply ML; lia|intros; apply MR; lia|].
  cbv zeta in *. assert (LE : lenv rs l = Ok el) by (rewrite (lenv_lenvs N ws rs ts l) by (auto; lia); exact L1).
  assert (RE : renv rs (N - (l + 2)) = Ok er) by (rewrite (renv_renvs N ws rs ts) by (auto; lia); replace (N - (N - (l + 2))) with (l + 2) by lia; exact R1).
  assert (T1 : rs l = Ok (ts l)) by (apply HR; lia). assert (T2 : rs (l + 1) = Ok (ts (l + 1))) by (apply HR; lia).
  assert (EV := two_eigen N ws ds ts l el er x E HC Hl ltac:(intros; apply ML; lia) ltac:(intros; apply MR; lia) L1 R1 X1 HE).
  destruct (expmv_eigen (cgd x) (h_two ws l el er (cgd x)) MH stev maxit (size (cgd x)) Hmax (cge x) E) with (d := Q2R t) (far := far) as [r [g [RUN [_ G]]]]; [rewrite NV; exact NZ|exact EV|].
  destruct (cut2_at N ws ds ts l HC Hl) as [D0 [p1 [D [p2 [D3 [E1 [E2 _]]]]]]]. destruct (pair_ok cx c0 cadd cmul _ _ _ _ _ _ _ E1 E2) as [x' [X1' [X2 _]]]. rewrite X1 in X1'. injection X1' as <-.
  destruct (ES (mkG cx (cgd x) g) _ _ _ _ X2) as [FA CA]. destruct (SP rt g g FA CA) as [a [b [S1 [S2 [S3 [_ [_ [S6 _]]]]]]]].
  exists (fset (fset ts l a) (l + 1) b). split; [|split; [exact S2|split; [exact (set_center N maxit Hmax ts l a b rt c Hl HCen HCc S3)|]]].
  - unfold TdvpSpec.evolve. rewrite LE, RE, T1, T2. unfold t_evo. cbn [bind]. rewrite X1. cbn [bind]. rewrite Z1. cbn [bind]. rewrite RUN. cbn [bind]. rewrite S1. cbn [both]. apply (set_holds N). exact HR.
  - apply (two_times N ws ds ts l x a b g _ HC Hl X1); [rewrite <- cph_turn; exact G|exact S6].
Qed.
Lemma eigen_one_ok : forall j t rs ts, j < N -> holds rs ts -> chain ts -> center_at j ts -> sq_norm ts <> c0 -> eigen ts ->
  exists ts', holds (evolve rs (One j t)) ts' /\ chain ts' /\ center_at j ts' /\ times (turn E t) ts' ts.
Proof.
  intros j t rs ts Hj HR HC HCen NZ HE.
  destruct (one_problem N ws ds HH ts j HC Hj HCen) as [el [er [z [L1 [R1 [Z1 [MH [NV [_ SP]]]]]]]]].
  cbv zeta in *. assert (LE : lenv rs j = Ok el) by (rewrite (lenv_lenvs N ws rs ts j) by (auto; lia); exact L1).
  assert (RE : renv rs (N - 1 - j) = Ok er) by (rewrite (renv_renvs N ws rs ts) by (auto; lia); replace (N - (N - 1 - j)) with (j + 1) by lia; exact R1).
  assert (T1 : rs j = Ok (ts j)) by (apply HR; lia).
  assert (EV := one_eigen N ws ds ts j el er E HC Hj HCen L1 R1 HE).
  destruct (expmv_eigen (cgd (ts j)) (h_one ws j el er (cgd (ts j))) MH stev maxit (size (cgd (ts j))) Hmax (cge (ts j)) E) with (d := Q2R t) (far := far) as [r [g [RUN [_ G]]]]; [rewrite NV; exact NZ|exact EV|].
  exists (fset ts j (mkG cx (cgd (ts j)) g)). split; [|split; [exact (proj1 (SP g))|split]].
  - unfold TdvpSpec.evolve. rewrite LE, RE, T1. unfold t_back. cbn [bind]. rewrite Z1. cbn [bind]. rewrite RUN. cbn [bind]. intros i Hi. unfold fset. destruct (i =? j); [reflexivity|]. apply HR. exact Hi.
  - destruct HCen as [ML MR]. unfold fset. split; intros i Hi; (destruct (Nat.eqb_spec i j) as [->|]; [lia|]); [apply ML|apply MR]; exact Hi.
  - apply (one_times N ws ds ts j g _ HC Hj). rewrite <- cph_turn. exact G.
Qed.
Lemma eigen_subs_ok : forall ss c m rs ts, walk N c ss m -> holds rs ts -> chain ts -> center_at c ts -> sq_norm ts <> c0 -> eigen ts ->
  exists ts', holds (fold_left evolve ss rs) ts' /\ chain ts' /\ center_at m ts' /\ times (turn E (total ss)) ts' ts.
Proof.
  induction ss as [|s ss IH]; intros c m rs ts HW HR HC HCen NZ HE.
  - inversion HW; subst. exists ts. cbn [fold_left]. split; [auto|]. split; [auto|]. split; [auto|]. unfold total. cbn [map fold_right]. rewrite turn_0. apply times_one.
  - cbn [fold_left].
    assert (exists c', walk N c' ss m /\ exists ts', holds (evolve rs s) ts' /\ chain ts' /\ center_at c' ts' /\ times (turn E (sub_time s)) ts' ts) as [c' [W' [t1 [A1 [A2 [A3 A4]]]]]].
    { inversion HW; subst.
      - eexists. split; [eassumption|]. eapply eigen_two_ok; eauto.
      - eexists. split; [eassumption|]. apply eigen_one_ok; auto. }
    destruct (IH c' m (evolve rs s) t1 W' A1 A2 A3) as [t2 [B1 [B2 [B3 B4]]]]; [apply (turn_nz _ _ _ HC A2 A4 NZ)|apply (times_eigen N ws ds _ _ _ _ A4 HE)|].
    exists t2. split; [exact B1|]. split; [exact B2|]. split; [exact B3|]. unfold total. cbn [map fold_right]. intros k Ik. rewrite (times_trans N ds _ _ _ _ _ A4 B4 k Ik), turn_add. f_equal. apply turn_eq. unfold total. apply Qplus_comm.
Qed.
Lemma eigen_prefix_ok : forall tau j c rs ts, 3 <= N -> c <= 1 -> holds rs ts -> chain ts -> center_at c ts -> sq_norm ts <> c0 -> eigen ts ->
  exists ts', holds (fold_left evolve (firstn j (schedule N tau)) rs) ts' /\ chain ts' /\ times (turn E (total (firstn j (schedule N tau)))) ts' ts.
Proof.
  intros tau j c rs ts H3 Hc HR HC HCen NZ HE. destruct (walk_firstn N _ _ _ j (walk_schedule N tau c H3 Hc)) as [m W].
  destruct (eigen_subs_ok _ _ _ rs ts W HR HC HCen NZ HE) as [t' [A1 [A2 [_ A4]]]]. exists t'. auto.
Qed.
Lemma eigen_after_ok : forall tau k c rs ts, 3 <= N -> c <= 1 -> holds rs ts -> chain ts -> center_at c ts -> sq_norm ts <> c0 -> eigen ts ->
  exists ts', holds (after tau k rs) ts' /\ chain ts' /\ (exists c', c' <= 1 /\ center_at c' ts') /\ times (turn E (e_time_of tau k)) ts' ts.
Proof.
  intros tau k c rs ts H3 Hc HR HC HCen NZ HE. induction k as [|k IH].
  - exists ts. cbn [TdvpSpec.after e_time_of]. split; [auto|]. split; [auto|]. split; [exists c; auto|]. rewrite turn_0. apply times_one.
  - destruct IH as [t1 [A1 [A2 [[c' [A3 A3']] A4]]]]. cbn [TdvpSpec.after]. unfold tau_step.
    destruct (eigen_subs_ok _ _ _ _ t1 (walk_schedule N tau c' H3 A3) A1 A2 A3') as [t2 [B1 [B2 [B3 B4]]]]; [apply (turn_nz _ _ _ HC A2 A4 NZ)|apply (times_eigen N ws ds _ _ _ _ A4 HE)|].
    exists t2. split; [exact B1|]. split; [exact B2|]. split; [exists 1; split; [lia|exact B3]|]. intros i Ii. rewrite (times_trans N ds _ _ _ _ _ A4 B4 i Ii), turn_add. f_equal. apply turn_eq. rewrite total_schedule.
    replace (e_time_of tau (S k)) with (inject_Z (Z.of_nat (S k)) * tau)%Q by reflexivity. destruct k as [|k]; [cbn [e_time_of]; ring|]. cbn [e_time_of]. rewrite (Nat2Z.inj_succ (S k)). unfold Z.succ. rewrite inject_Z_plus. ring.
Qed.
End Tdvp.
End Run.
