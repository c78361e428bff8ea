(** Runs of two-site VMPS and TDVP in a symmetry sector. *)
From Coq Require Import List Arith Bool Lia QArith Qreals Reals Lra Ring_theory.
From Verif Require Import Base Disk SweepSpec TwoSite TwoSiteFacts Tdvp TdvpSpec TdvpFacts TdvpRun FiniteMps FmpsSpec FmpsFacts EffHam EffHamSpec EffHamFacts ChainSpec ChainFacts Legs VmpsLocal VmpsSpec VmpsEnv VmpsHeff Lanczos LanczosSpec KrylovSpec Cx KrylovInst GVec GVecFacts DmrgStep ChainOne ChainPair ChainUpdate DmrgVarSpec DmrgVar DmrgVarRun ConserveSpec ConserveFacts ConserveRun ConserveVmps ConserveDisk ConserveInst CorrSpec CorrRun TruncUpdate TruncSpec TruncFacts TruncRun SectorSpec SectorFacts.
Import ListNotations.
Local Open Scope nat_scope.

Lemma configs_split : forall ds ds' c, In c (configs (ds ++ ds')) -> exists c1 c2, c = c1 ++ c2 /\ In c1 (configs ds) /\ In c2 (configs ds').
Proof.
  induction ds as [|d ds IH]; intros ds' c I; cbn [app configs] in *; [exists [], c; cbn; auto|]. apply in_flat_map in I. destruct I as [s [Is I]]. apply in_map_iff in I. destruct I as [c' [<- I]].
  destruct (IH ds' c' I) as [c1 [c2 [-> [I1 I2]]]]. exists (s :: c1), c2. split; [reflexivity|]. split; [|exact I2]. apply in_flat_map. exists s. split; [exact Is|]. apply in_map. exact I1.
Qed.

Section Run.
Variables (G : Type) (q0 : G) (qadd : G -> G -> G) (qopp : G -> G).
Hypothesis QG : q_group q0 qadd qopp.
Variable ch : nat -> nat -> G.
Variable N : nat.
Variable ws : nat -> cg.
Variable ds : list nat.
Hypothesis HH : hermitian_chain N ws ds.
Hypothesis HCons : conserving G q0 qadd ch N ws ds.
Variables (stev : list real -> list real -> list real * list real) (maxit : nat) (size : list nat -> nat) (svd : nat -> cg -> cg * cg * cg) (err : cg -> real).
Hypothesis ET : trunc_gsvd err svd.
Hypothesis Hmax : 2 <= maxit.
Notation chain := (chain N ws ds). Notation sq_norm := (sq_norm N). Notation energy_val := (energy_val N ws). Notation holds := (holds N). Notation mixed_at := (mixed_at N). Notation center_at := (center_at N).
Notation energy_ratio := (energy_ratio N ws). Notation has_energy := (has_energy N ws). Notation overlap := (chain_overlap N ds).
Notation lenv := (left_env (res cg) (res cg) w_triv (w_grow ws)). Notation renv := (right_env (res cg) (res cg) w_triv (w_grow ws) N).
Notation blocks := (blocks G qadd ch N). Notation in_sector := (in_sector G q0 qadd ch ds). Notation labelled4 := (labelled4 G qadd ch). Notation labelled3 := (labelled3 G qadd ch). Notation keeps_labels := (keeps_labels G qadd ch svd).
Notation e4 := (fun v : cvec => (fun a s1 s2 b => v [a; s1; s2; b]) : nat -> nat -> nat -> nat -> cx).

Lemma sector_problem : forall ts l bt q, chain ts -> l + 1 < N -> (forall i, i < l -> cleft (cten_of (ts i))) -> (forall i, l + 1 < i < N -> cright (cten_of (ts i))) -> blocks bt q ts ->
  exists el er x z, lenvs_from cx c0 cadd cmul cconj (trivial_env cx c0 c1 1 1) (sites l ts) (sites l ws) = Ok el /\
  renvs_from cx c0 cadd cmul cconj (trivial_env cx c0 c1 1 1) (map ts (seq (l + 2) (N - (l + 2)))) (map ws (seq (l + 2) (N - (l + 2)))) = Ok er /\
  gcontract cx c0 cadd cmul [2] [0] (ts l) (ts (l + 1)) = Ok x /\ length (cgd x) = 4 /\ mul2 cx c0 cadd cmul el (ws l) (ws (l + 1)) er x = Ok z /\
  let ip := g_ip (cgd x) in let mul := h_two ws l el er (cgd x) in let lab v := labelled4 (bt l) l (bt (l + 2)) (mkG cx (cgd x) v) in
  (forall u v, ip (mul u) v = ip u (mul v)) /\ ip (cge x) (cge x) = sq_norm ts /\ ip (mul (cge x)) (cge x) = energy_val ts /\
  (forall close dim r g, g_lanczos (cgd x) mul stev close maxit dim (cge x) = Ok (r, g) -> lab g) /\
  (forall d far dim r g, g_expmv (cgd x) mul stev d far maxit dim (cge x) = Ok (r, g) -> lab g) /\
  forall (rt : bool) g, ip g g <> c0 -> exists a b ph, split2 cx c0 cadd cmul svd rt (mkG cx (cgd x) g) = Ok (a, b) /\
    let ts' := fset (fset ts l a) (l + 1) b in let d := err (mkG cx (cgd x) g) in
    chain ts' /\ (if rt then cleft (cten_of a) else cright (cten_of b)) /\ (0 <= d < 1)%R /\
    chain ph /\ sq_norm ph = ip g g /\ energy_val ph = ip (mul g) g /\
    sq_norm ts' = cmul (cre (1 - d)) (ip g g) /\ overlap ts' ph = cmul (cre (1 - d)) (ip g g) /\
    (lab g -> in_sector q (amp N ph)) /\ (forall m m', keeps_labels (bt l) l (bt (l + 2)) (mkG cx (cgd x) g) m m' -> blocks (fset bt (l + 1) (if rt then m else m')) q ts').
Proof.
  intros ts l bt q HC Hl HL HR HB. destruct (cut2_at N ws ds ts l HC Hl) as [D0 [p1 [D [p2 [D3 [E1 [E2 [_ [F1 F3]]]]]]]]].
  destruct (pair_ok cx c0 cadd cmul _ _ _ _ _ _ _ E1 E2) as [x [X1 [X2 _]]].
  destruct (two_problem_to N ws ds HH svd ts l HC Hl HL HR) as [el [er [x1 [z [A1 [A2 [A3 [A4 [A5 [A6 [A7 SP]]]]]]]]]]]. rewrite X1 in A3. injection A3 as <-.
  destruct (two_problem_to N ws ds HH y_svd ts l HC Hl HL HR) as [el2 [er2 [x2 [z2 [B1 [B2 [B3 [B4 [_ [_ [_ SE]]]]]]]]]]]. rewrite X1 in B3. injection B3 as <-. rewrite A1 in B1. injection B1 as <-. rewrite A2 in B2. injection B2 as <-.
  pose proof (h_two_within G q0 qadd qopp QG ch N ws ds ts bt q l D0 p1 D p2 D3 HC HB Hl E1 E2 HCons el er) as MW. assert (MW' := fun v => MW v A1 A2). clear MW.
  pose proof (pair_within G qadd ch N ts bt q l D0 p1 D p2 D3 x HB Hl E1 E2 X1) as XW.
  cbv zeta in *. exists el, er, x, z. split; [exact A1|]. split; [exact A2|]. split; [exact X1|]. split; [rewrite X2; reflexivity|]. split; [exact A4|]. split; [exact A5|]. split; [exact A6|]. split; [exact A7|].
  split; [|split].
  { intros close dim r g RUN. rewrite X2 in RUN |- *. apply lab4_within. exact (within_lanczos _ _ _ MW' stev maxit dim Hmax close _ r g XW RUN). }
  { intros d far dim r g RUN. rewrite X2 in RUN |- *. apply lab4_within. exact (within_expmv _ _ _ MW' stev maxit dim Hmax d far _ r g XW RUN). }
  intros rt g NG. destruct (ET (mkG cx (cgd x) g) _ _ _ _ X2 NG) as [y [FA [CA [Y1 [Y2 Y3]]]]]. cbn [gd ge] in *.
  destruct (SP rt g y FA CA) as [a [b [S1 [S2 [S3 [S4 [S5 [S6 S7]]]]]]]].
  destruct (y_svd_ok (mkG cx (cgd x) g) _ _ _ _ X2) as [FE CE]. destruct (SE rt g g FE CE) as [a' [b' [_ [P2 [_ [P4 [P5 [P6 _]]]]]]]].
  rewrite X2 in S6, P6. cbn [nth] in S6, P6.
  exists a, b, (fset (fset ts l a') (l + 1) b'). split; [exact S1|]. split; [exact S2|]. split; [exact S3|]. split; [exact Y3|]. split; [exact P2|]. split; [exact P4|]. split; [exact P5|]. split; [|split; [|split]].
  - rewrite S4. exact Y2.
  - rewrite (overlap_splits N ws ds ts l a b a' b' y g D0 p1 p2 D3 HC Hl HL HR S2 P2); [|rewrite E1; reflexivity|rewrite E1, E2; reflexivity|exact S6|exact P6].
    rewrite X2 in *. rewrite <- Y2, <- (g_conj _ y g), Y1. apply g_conj.
  - rewrite X2. intros LG c Ic HN.
    set (tl := sites l (fun i => cten_of (ts i))) in *. set (tr := map (fun i => cten_of (ts i)) (seq (l + 2) (N - (l + 2)))) in *.
    assert (TS : map cten_of (sites N (fset (fset ts l a') (l + 1) b')) = tl ++ [cten_of a'; cten_of b'] ++ tr).
    { rewrite (sites_set N _ _ _ _ _ Hl), !map_app. cbn [map]. unfold sites. rewrite !map_map. reflexivity. }
    assert (DS : ds = map (@d1 cx) tl ++ [p1; p2] ++ map (@d1 cx) tr).
    { rewrite <- (proj2 P2), TS, !map_app. cbn [map]. rewrite (fa_1 _ _ _ _ _ _ _ _ _ _ _ P6), (fa_2 _ _ _ _ _ _ _ _ _ _ _ P6). reflexivity. }
    rewrite DS in Ic. destruct (configs_split _ _ _ Ic) as [cl [c2 [-> [I1 I2]]]]. destruct (configs_split [p1; p2] _ _ I2) as [cm [cr [-> [I3 I4]]]].
    cbn [configs] in I3. apply in_flat_map in I3. destruct I3 as [s1 [H1 I3]]. apply in_map_iff in I3. destruct I3 as [c3 [<- I3]]. apply in_flat_map in I3. destruct I3 as [s2 [H2 I3]]. apply in_map_iff in I3. destruct I3 as [c4 [<- I3]]. destruct I3 as [<-|[]].
    apply in_seq in H1, H2. unfold amp in HN. rewrite TS in HN.
    rewrite (mid_whole cx c0 c1 cadd cmul csub copp cx_ring tl tr _ _ (e4 g) D0 p1 p2 D3 cl s1 s2 cr F1 P6 I1) in HN by lia.
    apply (whole_sector G q0 qadd qopp QG ch N ws ds ts bt q l D0 p1 D p2 D3 HC HB Hl E1 E2 g cl s1 s2 cr); auto; try lia. apply lab4_within. exact LG.
  - intros m m' HK. assert (X3 : cgd (mkG cx (cgd x) g) = [D0; p1; p2; D3]) by exact X2. destruct (split_labels G qadd ch svd rt _ _ _ _ _ m m' a b D0 p1 p2 D3 X3 FA HK S1) as [L1 L2]. apply (blocks_set G qadd ch); auto.
Qed.

Section Vmps.
Variable close : real -> real -> bool.
Notation upd := (v_update_e ws stev maxit size svd err close).
Notation opt := (opt (res cg) (res cg) (res (real * real)) w_triv (w_grow ws) upd N). Notation opts := (opts (res cg) (res cg) (res (real * real)) w_triv (w_grow ws) upd N).
Notation along_lapack := (along_lapack N ws stev maxit size svd err close). Notation bond_lapack := (bond_lapack N ws stev maxit size close).
Notation along_blocks := (along_blocks G qadd ch N ws svd stev maxit size err close). Notation v_solved := (v_solved ws stev maxit size close).
Notation left_by := (left_by N ws ds).
Lemma sector_update_ok : forall rt l rs ts bt q e0, l + 1 < N -> holds rs ts -> chain ts -> mixed_at l ts -> sq_norm ts <> c0 -> bond_lapack l rs -> blocks bt q ts ->
  exists a b e d ph x, opt (rt, l) (rs, e0) = (fset (fset rs l (Ok a)) (l + 1) (Ok b), Some (Ok (e, d))) /\
  let ts' := fset (fset ts l a) (l + 1) b in
  left_by ts' e d ph /\ (if rt then cleft (cten_of a) else cright (cten_of b)) /\ (e <= energy_ratio ts)%R /\ in_sector q (amp N ph) /\
  v_solved l (lenv rs l) (rs l) (rs (l + 1)) (renv rs (N - (l + 2))) = Ok x /\ live x /\ labelled4 (bt l) l (bt (l + 2)) x /\
  (forall m m', keeps_labels (bt l) l (bt (l + 2)) x m m' -> blocks (fset bt (l + 1) (if rt then m else m')) q ts').
Proof.
  intros rt l rs ts bt q e0 Hl HR HC [ML MR] NZ HLA HB.
  destruct (sector_problem ts l bt q HC Hl) as [el [er [x [z [L1 [R1 [X1 [X4 [Z1 [MH [NV [EV [WL [_ SP]]]]]]]]]]]]]]; [intros; apply ML; lia|intros; apply MR; lia|exact HB|].
  cbv zeta in *. assert (LE : lenv rs l = Ok el) by (rewrite (lenv_lenvs N ws rs ts l) by (auto; lia); exact L1).
  assert (RE : renv rs (N - (l + 2)) = Ok er) by (rewrite (renv_renvs N ws rs ts) by (auto; lia); replace (N - (N - (l + 2))) with (l + 2) by lia; exact R1).
  assert (T1 : rs l = Ok (ts l)) by (apply HR; lia). assert (T2 : rs (l + 1) = Ok (ts (l + 1))) by (apply HR; lia).
  specialize (HLA el (ts l) (ts (l + 1)) er x LE T1 T2 RE X1).
  destruct (g_lanczos_ok (cgd x) (h_two ws l el er (cgd x)) MH stev maxit (size (cgd x)) Hmax close (cge x)) as [r [g [RUN [G1 [G2 G3]]]]]; [rewrite NV; exact NZ|exact HLA|].
  destruct (SP rt g) as [a [b [ph [S1 [S2 [S3 [S4 [S5 [S6 [S7 [S8 [S9 [S10 S11]]]]]]]]]]]]]; [rewrite G1; unfold c0, c1; intros E; injection E as E; lra|].
  pose proof (WL _ _ _ _ RUN) as LG. assert (LV : live (mkG cx (cgd x) g)) by (split; [exact X4|cbn [gd ge]; rewrite G1; unfold c0, c1; intros E; injection E as E; lra]).
  rewrite G1 in *. rewrite cre_one in *.
  exists a, b, (Lanczos.eng real r), (err (mkG cx (cgd x) g)), ph, (mkG cx (cgd x) g). split; [|split; [|split; [exact S3|split; [|split; [exact (S10 LG)|split; [|split; [exact LV|split; [exact LG|exact S11]]]]]]]].
  - unfold SweepSpec.opt. rewrite LE, RE, T1, T2. unfold v_update_e. cbn [bind]. rewrite X1. cbn [bind]. rewrite Z1. cbn [bind]. rewrite RUN. cbn [bind]. rewrite S1. cbn [bind]. reflexivity.
  - split; [exact S2|]. split; [exact S4|]. split; [exact S8|]. split; [exact S5|]. split; [|exact S9]. split; [exact S6|rewrite S7; exact G2].
  - apply (below_ratio N ws); [exact NZ|]. rewrite <- NV, <- EV. exact G3.
  - unfold SectorSpec.v_solved. rewrite LE, RE, T1, T2. cbn [bind]. rewrite X1. cbn [bind]. rewrite RUN. reflexivity.
Qed.
Lemma left_by_same : forall rs ts ts' e d ph, holds rs ts -> holds rs ts' -> left_by ts e d ph -> left_by ts' e d ph /\ amp N ts' = amp N ts.
Proof.
  intros rs ts ts' e d ph HR HR' [A [B [C [D [E F]]]]]. assert (SAME : sites N ts' = sites N ts).
  { unfold sites. apply map_ext_in. intros i Hi. apply in_seq in Hi. specialize (HR i ltac:(lia)). specialize (HR' i ltac:(lia)). congruence. }
  unfold TruncSpec.left_by, ConserveSpec.chain, ConserveSpec.sq_norm, chain_overlap, amp in *. rewrite SAME. auto 10.
Qed.
Lemma sector_opts_ok : forall bs l m rs ts bt q e, path N l bs m -> holds rs ts -> chain ts -> mixed_at l ts -> sq_norm ts <> c0 -> along_lapack bs rs -> blocks bt q ts -> along_blocks bs rs bt ->
  exists ts' bt', holds (fst (opts bs (rs, e))) ts' /\ chain ts' /\ mixed_at m ts' /\ sq_norm ts' <> c0 /\ blocks bt' q ts' /\
  (bs <> [] -> exists x d ph, snd (opts bs (rs, e)) = Some (Ok (x, d)) /\ left_by ts' x d ph /\ in_sector q (amp N ph)).
Proof.
  induction bs as [|[rt l0] bs IH]; intros l m rs ts bt q e HP HR HC HM HZ HLA HB HAB.
  - inversion HP; subst. exists ts, bt. cbn. split; [auto|]. split; [auto|]. split; [auto|]. split; [auto|]. split; [auto|]. congruence.
  - assert (l0 = l) by (inversion HP; auto). subst l0. assert (HP' : l + 1 < N /\ exists l', (l' = l \/ (if rt then l' = l + 1 else l' + 1 = l)) /\ path N l' bs m) by (inversion HP; subst; eauto). clear HP. destruct HP' as [H3 [l' [H4 H5]]].
    destruct HLA as [HA HLA]. cbn [snd] in HA.
    destruct (sector_update_ok rt l rs ts bt q e H3 HR HC HM HZ HA HB) as [a [b [x [d [ph [g [U [O1 [C1 [_ [PS [VS [LV [LG BL]]]]]]]]]]]]]]. cbv zeta in *.
    cbn [SectorSpec.along_blocks] in HAB. destruct (HAB g VS LV LG) as [mm [mm' [KL HAB']]]. clear HAB.
    rewrite (opt_any N ws stev maxit size svd err close _ rs None e), U in HLA, HAB'. cbn [fst] in HLA, HAB'. cbn [SweepSpec.opts fold_left]. change (fold_left (fun (s : (nat -> res cg) * option (res (real * real))) (b0 : bool * nat) => opt b0 s) bs (opt (rt, l) (rs, e))) with (opts bs (opt (rt, l) (rs, e))). rewrite U.
    set (ts1 := fset (fset ts l a) (l + 1) b) in *. set (rs1 := fset (fset rs l (Ok a)) (l + 1) (Ok b)) in *.
    assert (O1' := O1). destruct O1' as [O2 [O3 [O4 _]]].
    destruct (IH l' m rs1 ts1 (fset bt (l + 1) (if rt then mm else mm')) q (Some (Ok (x, d))) H5 (set_holds N rs ts l a b HR) O2) as [ts' [bt' [A0 [A1 [A2 [A3 [A4 A5]]]]]]]; try exact HLA; try exact HAB'; auto.
    { apply (set_mixed_at N maxit Hmax) with (rt := rt); auto. }
    { rewrite O4. apply cre_nz. lra. }
    exists ts', bt'. split; [exact A0|]. split; [exact A1|]. split; [exact A2|]. split; [exact A3|]. split; [exact A4|].
    intros _. destruct bs as [|b0 bs]; [|apply A5; discriminate]. cbn in A0 |- *. exists x, d, ph. split; [reflexivity|]. split; [|exact PS].
    apply (left_by_same rs1 ts1 ts' x d ph (set_holds N rs ts l a b HR) A0 O1).
Qed.
Lemma block_along : block_svd G qadd ch svd -> forall bs rs bt, along_blocks bs rs bt.
Proof.
  intros BS bs. induction bs as [|[rt l] bs IH]; intros rs bt; cbn [SectorSpec.along_blocks]; [exact I|]. intros x VS LV LX.
  destruct (BS _ _ _ x LV LX) as [m [m' K]]. exists m, m'. split; [exact K|]. apply IH.
Qed.
Variables (dT dE : res cg) (canoL canoR : res cg -> res cg -> res cg * res cg) (dbg : bool).
Notation run := (run_two_site (res cg) (res cg) (res (real * real)) dT dE w_triv (w_grow ws) upd canoL canoR dbg).
Notation startable := (startable (res cg) (res cg) (res (real * real)) w_triv (w_grow ws) N).
Lemma sector_disk_ok : forall k rs ts bt q w, 3 <= N -> startable rs w -> holds rs ts -> chain ts -> mixed_at 0 ts -> sq_norm ts <> c0 -> along_lapack (all_bonds 0 (N - 1) (S k)) rs ->
  blocks bt q ts -> along_blocks (all_bonds 0 (N - 1) (S k)) rs bt ->
  exists e d w' rs' ts' bt' ph, run (S k) w = Ok (Ok (e, d), w') /\ startable rs' w' /\ holds rs' ts' /\ mixed_at 0 ts' /\ left_by ts' e d ph /\
  blocks bt' q ts' /\ in_sector q (amp N ts') /\ in_sector q (amp N ph).
Proof.
  intros k rs ts bt q w H3 HS HR HC HM NZ LA HB AB.
  destruct (TwoSiteFacts.run_ok (res cg) (res cg) (res (real * real)) dT dE w_triv (w_grow ws) upd canoL canoR dbg N rs k w H3 HS) as [e [w' [A1 [A2 [A3 _]]]]]. cbv zeta in *.
  assert (SA : forall n s, sweeps_spec (res cg) (res cg) (res (real * real)) w_triv (w_grow ws) upd N 0 (N - 1) n s = opts (all_bonds 0 (N - 1) n) s).
  { clear. intros n. induction n as [|n IH]; intros s; [reflexivity|]. cbn [SweepSpec.sweeps_spec]. rewrite IH. unfold all_bonds. cbn [repeat concat]. unfold SweepSpec.opts. rewrite fold_left_app. reflexivity. }
  rewrite SA in *.
  destruct (sector_opts_ok _ 0 0 rs ts bt q None (path_all N 0 (N - 1) (S k) ltac:(lia) ltac:(lia)) HR HC HM NZ LA HB AB) as [ts' [bt' [B0 [B1 [B2 [B3 [B4 B5]]]]]]].
  assert (NE : all_bonds 0 (N - 1) (S k) <> []) by (unfold all_bonds, bonds; cbn [repeat concat]; destruct (N - 1 - 1 - 0) eqn:E; [lia|cbn; discriminate]).
  destruct (B5 NE) as [x [d [ph [X1 [X2 X3]]]]]. rewrite A2 in X1. injection X1 as ->.
  exists x, d, w', (fst (opts (all_bonds 0 (N - 1) (S k)) (rs, None))), ts', bt', ph.
  split; [exact A1|]. split; [exact A3|]. split; [exact B0|]. split; [exact B2|]. split; [exact X2|]. split; [exact B4|]. split; [|exact X3]. apply (blocks_sector G q0 qadd qopp QG ch N ws ds bt' q ts' B1 B4).
Qed.
Lemma sector_bound_ok : forall k rs ts bt q w e d w' lam, 3 <= N -> startable rs w -> holds rs ts -> chain ts -> mixed_at 0 ts -> sq_norm ts <> c0 -> along_lapack (all_bonds 0 (N - 1) (S k)) rs ->
  blocks bt q ts -> along_blocks (all_bonds 0 (N - 1) (S k)) rs bt -> sector_bounded G q0 qadd ch N ws ds q lam -> run (S k) w = Ok (Ok (e, d), w') -> (lam <= e)%R.
Proof.
  intros k rs ts bt q w e d w' lam H3 HS HR HC HM NZ LA HB AB HL RUN.
  destruct (sector_disk_ok k rs ts bt q w H3 HS HR HC HM NZ LA HB AB) as [e' [d' [w1 [rs' [ts' [bt' [ph [R1 [_ [_ [_ [LB [_ [_ PS]]]]]]]]]]]]]]. rewrite RUN in R1. injection R1 as <- <- <-.
  destruct LB as [_ [_ [_ [PC [[P1 P2] _]]]]]. pose proof (sector_bounded_chain G q0 qadd ch N ws ds q lam ph HL PC PS) as P. rewrite P1, P2 in P. cbn [fst c1 cre] in P. lra.
Qed.
End Vmps.

Section Tdvp.
Variable far : list cx -> list cx -> bool.
Notation evo := (t_evo ws stev maxit size svd far). Notation back := (t_back ws stev maxit size far).
Notation evolve := (evolve (res cg) (res cg) w_triv (w_grow ws) evo back N).
Notation sub_lapack := (sub_lapack N ws stev maxit size far). Notation subs_lapack := (subs_lapack N ws stev maxit size svd far). Notation steps_lapack := (steps_lapack N ws stev maxit size svd far).
Notation along_subs := (along_subs G qadd ch N ws svd stev maxit size far). Notation t_solved := (t_solved ws stev maxit size far).
Lemma sector_two_ok : forall rt l t c rs ts bt q, l + 1 < N -> (c = l \/ c = l + 1) -> holds rs ts -> chain ts -> center_at c ts -> sq_norm ts <> c0 -> sub_lapack (Two rt l t) rs -> blocks bt q ts ->
  exists ts' x, holds (evolve rs (Two rt l t)) ts' /\ chain ts' /\ center_at (if rt then l + 1 else l) ts' /\ sq_norm ts' <> c0 /\
  t_solved l t (lenv rs l) (rs l) (rs (l + 1)) (renv rs (N - (l + 2))) = Ok x /\ live x /\ labelled4 (bt l) l (bt (l + 2)) x /\
  (forall m m', keeps_labels (bt l) l (bt (l + 2)) x m m' -> blocks (fset bt (l + 1) (if rt then m else m')) q ts').
Proof.
  intros rt l t c rs ts bt q Hl HCc HR HC HCen NZ HLA HB. assert (HCen' := HCen). destruct HCen' as [ML MR].
  destruct (sector_problem ts l bt q HC Hl) as [el [er [x [z [L1 [R1 [X1 [X4 [Z1 [MH [NV [EV [_ [WX SP]]]]]]]]]]]]]]; [intros; apply ML; lia|intros; apply MR; lia|exact HB|].
  cbv zeta in *. assert (LE : lenv rs l = Ok el) by (rewrite (lenv_lenvs N ws rs ts l) by (auto; lia); exact L1).
  assert (RE : renv rs (N - (l + 2)) = Ok er) by (rewrite (renv_renvs N ws rs ts) by (auto; lia); replace (N - (N - (l + 2))) with (l + 2) by lia; exact R1).
  assert (T1 : rs l = Ok (ts l)) by (apply HR; lia). assert (T2 : rs (l + 1) = Ok (ts (l + 1))) by (apply HR; lia).
  specialize (HLA el (ts l) (ts (l + 1)) er x LE T1 T2 RE X1).
  destruct (g_expmv_ok (cgd x) (h_two ws l el er (cgd x)) MH stev maxit (size (cgd x)) Hmax (Q2R t) far (cge x)) as [r [g [RUN [G1 G2]]]]; [rewrite NV; exact NZ|exact HLA|].
  destruct (SP rt g) as [a [b [ph [S1 [S2 [S3 [S4 [S5 [S6 [S7 [S8 [S9 [S10 S11]]]]]]]]]]]]]; [rewrite G1, NV; exact NZ|].
  exists (fset (fset ts l a) (l + 1) b), (mkG cx (cgd x) g). split; [|split; [exact S2|split; [exact (set_center N maxit Hmax ts l a b rt c Hl HCen HCc S3)|split; [|split; [|split; [split; [exact X4|cbn [gd ge]; rewrite G1, NV; exact NZ]|split; [exact (WX _ _ _ _ _ RUN)|exact S11]]]]]]].
  - unfold TdvpSpec.evolve. rewrite LE, RE, T1, T2. unfold t_evo. cbn [bind]. rewrite X1. cbn [bind]. rewrite Z1. cbn [bind]. rewrite RUN. cbn [bind]. rewrite S1. cbn [both]. apply (set_holds N). exact HR.
  - apply (scaled_nz N (1 - err (mkG cx (cgd x) g)) (fset (fset ts l a) (l + 1) b) ts); [|exact NZ]. split; [lra|]. rewrite S8, G1, NV. reflexivity.
  - unfold SectorSpec.t_solved. rewrite LE, RE, T1, T2. cbn [bind]. rewrite X1. cbn [bind]. rewrite RUN. reflexivity.
Qed.
Lemma sector_one_ok : forall j t rs ts bt q, j < N -> holds rs ts -> chain ts -> center_at j ts -> sq_norm ts <> c0 -> sub_lapack (One j t) rs -> blocks bt q ts ->
  exists ts', holds (evolve rs (One j t)) ts' /\ chain ts' /\ center_at j ts' /\ sq_norm ts' <> c0 /\ blocks bt q ts'.
Proof.
  intros j t rs ts bt q Hj HR HC HCen NZ HLA HB.
  destruct (one_problem N ws ds HH ts j HC Hj HCen) as [el [er [z [L1 [R1 [Z1 [MH [NV [EV SP]]]]]]]]]. destruct (cut1_at N ws ds ts j HC Hj) as [D0 [p [D2 [E1 _]]]].
  cbv zeta in *. assert (LE : lenv rs j = Ok el) by (rewrite (lenv_lenvs N ws rs ts j) by (auto; lia); exact L1).
  assert (RE : renv rs (N - 1 - j) = Ok er) by (rewrite (renv_renvs N ws rs ts) by (auto; lia); replace (N - (N - 1 - j)) with (j + 1) by lia; exact R1).
  assert (T1 : rs j = Ok (ts j)) by (apply HR; lia).
  specialize (HLA el (ts j) er LE T1 RE).
  destruct (g_expmv_ok (cgd (ts j)) (h_one ws j el er (cgd (ts j))) MH stev maxit (size (cgd (ts j))) Hmax (Q2R t) far (cge (ts j))) as [r [g [RUN [G1 G2]]]]; [rewrite NV; exact NZ|exact HLA|].
  destruct (SP g) as [S2 [S4 S5]].
  exists (fset ts j (mkG cx (cgd (ts j)) g)). split; [|split; [exact S2|split; [|split]]].
  - unfold TdvpSpec.evolve. rewrite LE, RE, T1. unfold t_back. cbn [bind]. rewrite Z1. cbn [bind]. rewrite RUN. cbn [bind]. intros i Hi. unfold fset. destruct (i =? j); [reflexivity|]. apply HR. exact Hi.
  - destruct HCen as [ML MR]. unfold fset. split; intros i Hi; (destruct (Nat.eqb_spec i j) as [->|]; [lia|]); [apply ML|apply MR]; exact Hi.
  - rewrite S4, G1, NV. exact NZ.
  - assert (HB' := HB). destruct HB' as [HB1 HB2]. split; [|exact HB2]. intros i Hi. unfold fset. destruct (Nat.eqb_spec i j) as [->|]; [|apply HB1; exact Hi].
    rewrite E1 in RUN |- *. apply lab3_within. refine (within_expmv _ _ _ _ stev maxit _ Hmax _ far _ r g _ RUN).
    + intros v. apply (h_one_within G q0 qadd qopp QG ch N ws ds ts bt q j D0 p D2 HC HB Hj E1 HCons el er v L1 R1).
    + apply lab3_within. specialize (HB1 j Hj). destruct (ts j) as [xd f]. cbn [gd ge] in *. subst xd. exact HB1.
Qed.
Lemma sector_subs_ok : forall ss c m rs ts bt q, walk N c ss m -> holds rs ts -> chain ts -> center_at c ts -> sq_norm ts <> c0 -> subs_lapack ss rs -> blocks bt q ts -> along_subs ss rs bt ->
  exists ts' bt', holds (fold_left evolve ss rs) ts' /\ chain ts' /\ center_at m ts' /\ sq_norm ts' <> c0 /\ blocks bt' q ts'.
Proof.
  induction ss as [|s ss IH]; intros c m rs ts bt q HW HR HC HCen NZ HLA HB HAS.
  - inversion HW; subst. exists ts, bt. cbn. auto.
  - destruct HLA as [LA HLA]. cbn [fold_left].
    assert (exists c', walk N c' ss m /\ exists ts' bt', holds (evolve rs s) ts' /\ chain ts' /\ center_at c' ts' /\ sq_norm ts' <> c0 /\ blocks bt' q ts' /\ along_subs ss (evolve rs s) bt') as [c' [W' [t1 [b1 [A1 [A2 [A3 [A4 [A5 A6]]]]]]]]].
    { inversion HW; subst.
      - eexists. split; [eassumption|]. destruct (sector_two_ok rt l t c rs ts bt q) as [ts' [x [Q1 [Q2 [Q3 [Q4 [Q5 [Q5' [Q6 Q7]]]]]]]]]; auto. cbn [SectorSpec.along_subs] in HAS. destruct (HAS x Q5 Q5' Q6) as [mm [mm' [K AS]]].
        exists ts'. eexists. split; [exact Q1|]. split; [exact Q2|]. split; [exact Q3|]. split; [exact Q4|]. split; [apply Q7; exact K|exact AS].
      - eexists. split; [eassumption|]. match goal with H : center_at ?i ts |- _ => rename i into cc end. destruct (sector_one_ok cc t rs ts bt q) as [ts' [Q1 [Q2 [Q3 [Q4 Q5]]]]]; auto. exists ts', bt. auto 10. }
    exact (IH c' m (evolve rs s) t1 b1 q W' A1 A2 A3 A4 HLA A5 A6).
Qed.
Lemma block_along_subs : block_svd G qadd ch svd -> forall ss rs bt, along_subs ss rs bt.
Proof.
  intros BS ss. induction ss as [|[rt l t|j t] ss IH]; intros rs bt; cbn [SectorSpec.along_subs]; [exact I| |apply IH]. intros x VS LV LX.
  destruct (BS _ _ _ x LV LX) as [m [m' K]]. exists m, m'. split; [exact K|]. apply IH.
Qed.
Lemma along_subs_firstn : forall ss j rs bt, along_subs ss rs bt -> along_subs (firstn j ss) rs bt.
Proof.
  induction ss as [|[rt l t|i t] ss IH]; intros j rs bt H; destruct j as [|j]; cbn [firstn SectorSpec.along_subs] in *; try exact I.
  - intros x V LV L. destruct (H x V LV L) as [m [m' [K A]]]. exists m, m'. split; [exact K|]. apply IH. exact A.
  - apply IH. exact H.
Qed.
Lemma subs_lapack_firstn : forall ss j rs, subs_lapack ss rs -> subs_lapack (firstn j ss) rs.
Proof. induction ss as [|s ss IH]; intros j rs H; destruct j as [|j]; cbn [firstn]; try exact I. destruct H as [H1 H2]. split; [exact H1|apply IH; exact H2]. Qed.
Lemma subs_lapack_app : forall ss ss' rs, subs_lapack ss rs -> subs_lapack ss' (fold_left evolve ss rs) -> subs_lapack (ss ++ ss') rs.
Proof. induction ss as [|s ss IH]; intros ss' rs H H'; cbn [app fold_left] in *; [exact H'|]. destruct H as [H1 H2]. split; [exact H1|apply IH; auto]. Qed.
Lemma substeps_S : forall tau k, substeps N tau (S k) = substeps N tau k ++ schedule N tau.
Proof.
  intros tau k. unfold substeps. induction k as [|k IH]; [cbn; rewrite app_nil_r; reflexivity|]. cbn [repeat concat] in IH |- *. rewrite <- app_assoc, <- IH. reflexivity.
Qed.
Notation after := (after (res cg) (res cg) w_triv (w_grow ws) evo back N).
Lemma after_substeps : forall tau k rs, after tau k rs = fold_left evolve (substeps N tau k) rs.
Proof.
  intros tau k. induction k as [|k IH]; intros rs; [reflexivity|]. rewrite substeps_S, fold_left_app. cbn [TdvpSpec.after]. rewrite IH. reflexivity.
Qed.
Lemma steps_subs : forall tau k rs, steps_lapack tau k rs -> subs_lapack (substeps N tau k) rs.
Proof.
  intros tau k. induction k as [|k IH]; intros rs H; [exact I|]. destruct H as [H1 H2]. rewrite substeps_S. apply subs_lapack_app; [apply IH; exact H1|]. rewrite <- after_substeps. exact H2.
Qed.
Lemma walk_substeps : forall tau k, 3 <= N -> exists m, m <= 1 /\ walk N 0 (substeps N tau k) m.
Proof.
  intros tau k H3. induction k as [|k [m [Hm W]]]; [exists 0; split; [lia|constructor]|]. exists 1. split; [lia|]. rewrite substeps_S. eapply walk_app; [exact W|]. apply walk_schedule; auto.
Qed.
Lemma sector_steps_ok : forall tau k j rs ts bt q, 3 <= N -> holds rs ts -> chain ts -> center_at 0 ts -> sq_norm ts <> c0 -> steps_lapack tau k rs -> blocks bt q ts -> along_subs (substeps N tau k) rs bt ->
  exists ts' bt', holds (fold_left evolve (firstn j (substeps N tau k)) rs) ts' /\ chain ts' /\ sq_norm ts' <> c0 /\ blocks bt' q ts' /\ in_sector q (amp N ts').
Proof.
  intros tau k j rs ts bt q H3 HR HC HCen NZ LA HB HA. destruct (walk_substeps tau k H3) as [m [_ W]]. destruct (walk_firstn N _ _ _ j W) as [m' W'].
  destruct (sector_subs_ok _ 0 m' rs ts bt q W' HR HC HCen NZ (subs_lapack_firstn _ j _ (steps_subs _ _ _ LA)) HB (along_subs_firstn _ j _ _ HA)) as [ts' [bt' [A1 [A2 [_ [A3 A4]]]]]].
  exists ts', bt'. split; [exact A1|]. split; [exact A2|]. split; [exact A3|]. split; [exact A4|]. apply (blocks_sector G q0 qadd qopp QG ch N ws ds bt' q ts' A2 A4).
Qed.
Variable qr : nat -> cg -> cg * cg.
Hypothesis EQ : exact_qr qr.
Hypothesis BQ : block_qr G qadd ch qr.
Lemma rcano_labels : forall a b bl i m br D0 p1 D p2 D3, cgd a = [D0; p1; D] -> cgd b = [D; p2; D3] -> labelled3 bl i m a -> labelled3 m (i + 1) br b ->
  exists a' b' m', rcano cx c0 cadd cmul qr a b = Ok (a', b') /\ labelled3 bl i m' a' /\ labelled3 m' (i + 1) br b'.
Proof.
  intros a b bl i m br D0 p1 D p2 D3 EA EB HA HB.
  assert (exists bt, gtrans cx [2; 1; 0] b = Ok bt /\ cgd bt = [D3; p2; D] /\ forall i j k, cge bt [i; j; k] = cge b [k; j; i]) as [bt [T1 [T2 T3]]].
  { clear HB. destruct b as [? b]. cbn in EB. subst. eexists. split; [legs; reflexivity|]. split; [reflexivity|]. intros. legs. reflexivity. }
  pose proof (EQ bt D3 p2 D T2) as HQ. destruct (BQ m (i + 1) br bt D p2 D3 T2) as [m' HM].
  { intros x s y Hx Hs Hy HN. rewrite T3 in HN. apply HB; auto; rewrite EB; cbn [nth]; auto. }
  unfold rcano. rewrite T1. cbn [bind]. destruct (qr 2 bt) as [q r]. destruct HQ as [K [Q1 [Q2 _]]]. rewrite Q1 in HM. cbn [nth] in HM. destruct HM as [M1 M2].
  assert (exists b', gtrans cx [2; 1; 0] q = Ok b' /\ cgd b' = [K; p2; D3] /\ forall i j k, cge b' [i; j; k] = cge q [k; j; i]) as [b' [B1 [B2 B3]]].
  { clear M1 M2. destruct q as [? q]. cbn in Q1. subst. eexists. split; [legs; reflexivity|]. split; [reflexivity|]. intros. legs. reflexivity. }
  assert (exists a', gcontract cx c0 cadd cmul [2] [1] a r = Ok a' /\ cgd a' = [D0; p1; K] /\ forall i j k, cge a' [i; j; k] = csum D (fun m => cmul (cge a [i; j; m]) (cge r [k; m]))) as [a' [A1 [A2 A3]]].
  { clear HA M2. destruct a as [? a], r as [? r]. cbn in EA, Q2. subst. eexists. split; [legs; reflexivity|]. split; [reflexivity|]. intros. legs. reflexivity. }
  rewrite B1. cbn [bind]. rewrite A1. cbn [bind]. exists a', b', m'. split; [reflexivity|]. split.
  - intros x s k Hx Hs Hk HN. rewrite A2 in Hx, Hs, Hk. cbn [nth] in Hx, Hs, Hk. rewrite A3 in HN. apply csum_nz in HN. destruct HN as [d [Hd HN]]. apply mul_nz in HN. destruct HN as [N1 N2].
    rewrite <- (M2 k d Hk Hd N2). apply HA; auto; rewrite EA; cbn [nth]; auto.
  - intros k s y Hk Hs Hy HN. rewrite B2 in Hk, Hs, Hy. cbn [nth] in Hk, Hs, Hy. rewrite B3 in HN. apply M1; auto.
Qed.
Lemma sector_center0_ok : forall c rs ts bt q, c < N -> holds rs ts -> chain ts -> (forall i, c < i < N -> cright (cten_of (ts i))) -> blocks bt q ts ->
  exists ts' bt', holds (center0 (res cg) (t_rcano qr) c rs) ts' /\ chain ts' /\ center_at 0 ts' /\ sq_norm ts' = sq_norm ts /\ blocks bt' q ts'.
Proof.
  induction c as [|c IH]; intros rs ts bt q Hc HR HC HRi HB.
  - exists ts, bt. cbn [center0]. split; [exact HR|]. split; [exact HC|]. split; [|auto]. split; intros; [lia|apply HRi; lia].
  - cbn [center0]. assert (Hl : c + 1 < N) by lia. destruct (cut2_at N ws ds ts c HC Hl) as [D0 [p1 [D [p2 [D3 [E1 [E2 _]]]]]]].
    destruct (rcano_ok cx c0 c1 cadd cmul csub copp cx_ring cconj qr EQ _ _ _ _ _ _ _ E1 E2) as [a [b [K [RC [S2 [S3 [SP CB]]]]]]].
    destruct (set_pair N ws ds ts c a b _ _ _ _ _ _ HC Hl E1 E2 S2 S3 SP) as [C' [N' V']]. cbv zeta in *.
    assert (HB' := HB). destruct HB' as [HB1 _]. pose proof (HB1 (c + 1) Hl) as L2. replace (c + 1 + 1) with (c + 2) in L2 by lia.
    destruct (rcano_labels _ _ _ _ _ _ _ _ _ _ _ E1 E2 (HB1 c ltac:(lia)) L2) as [a1 [b1 [mm [RC1 [LA1 LB1]]]]]. rewrite RC in RC1. injection RC1 as <- <-.
    assert (HR' : holds (let (x, y) := t_rcano qr (rs c) (rs (S c)) in fset (fset rs c x) (S c) y) (fset (fset ts c a) (c + 1) b)).
    { rewrite (HR c) by lia. rewrite (HR (S c)) by lia. unfold t_rcano. cbn [bind]. replace (S c) with (c + 1) by lia. unfold rcano in RC. rewrite RC. cbn [both]. apply set_holds. exact HR. }
    destruct (IH _ _ (fset bt (c + 1) mm) q ltac:(lia) HR' C') as [t2 [bt2 [B1 [B2 [B3 [B4 B5]]]]]].
    { intros i Hi. unfold fset. destruct (Nat.eqb_spec i (c + 1)); [exact CB|]. replace (i =? c) with false by (symmetry; apply Nat.eqb_neq; lia). apply HRi. lia. }
    { apply (blocks_set G qadd ch); auto. }
    exists t2, bt2. split; [exact B1|]. split; [exact B2|]. split; [exact B3|]. split; [congruence|exact B5].
Qed.
Variables (M V : Type) (dT dE : res cg) (dM : M) (canoL : res cg -> res cg -> res cg * res cg) (dbg : bool) (actO : res cg -> res cg) (actI : option (res cg -> res cg)).
Variables (mtr mtl : M) (mgr : res cg -> res cg -> M -> M) (mgl : M -> res cg -> res cg -> M) (mval : M -> res cg -> res cg -> M -> V) (phase : Q -> V -> V).
Notation run := (tdvp_run (res cg) (res cg) M V dT dE dM w_triv (w_grow ws) canoL (t_rcano qr) evo back dbg actO actI mtr mtl mgr mgl mval phase).
Notation prepared site rs := (center0 (res cg) (t_rcano qr) site (acted (res cg) actO actI site rs)).
Lemma sector_tdvp_disk_ok : forall site steps tau ini t0 mf rs w ta bt q, 3 <= N -> site < N -> idle (res cg) (res cg) N rs w ->
  (match ini with Some f => forall i, i < N -> f i = Some (t0 i) | None => t0 = rs end) ->
  holds (acted (res cg) actO actI site rs) ta -> chain ta -> (forall i, site < i < N -> cright (cten_of (ta i))) -> sq_norm ta <> c0 -> blocks bt q ta ->
  steps_lapack tau steps (prepared site rs) -> (forall t1 bt1, holds (prepared site rs) t1 -> blocks bt1 q t1 -> along_subs (substeps N tau steps) (prepared site rs) bt1) ->
  exists r w' ts', run true site steps tau ini mf w = Ok (r, w') /\ (forall i, i < N -> dm (res cg) (res cg) unit w' i = Some (Ok (ts' i))) /\
  chain ts' /\ sq_norm ts' <> c0 /\ (exists bt', blocks bt' q ts') /\ in_sector q (amp N ts').
Proof.
  intros site steps tau ini t0 mf rs w ta bt q H3 Hs HI Hini HR HC HRi NZ HB LA HA.
  destruct (TdvpRun.run_ok (res cg) (res cg) M V dT dE dM w_triv (w_grow ws) canoL (t_rcano qr) evo back dbg actO actI mtr mtl mgr mgl mval phase N site steps tau ini t0 mf rs w H3 Hs HI Hini) as [r [w' [R1 [_ [R3 _]]]]].
  destruct (sector_center0_ok site _ ta bt q Hs HR HC HRi HB) as [t1 [bt1 [A1 [A2 [A3 [A4 A5]]]]]].
  destruct (sector_steps_ok tau steps (length (substeps N tau steps)) _ t1 bt1 q H3 A1 A2 A3) as [ts' [bt' [B1 [B2 [B3 [B4 B5]]]]]]; [congruence|exact LA|exact A5|exact (HA t1 bt1 A1 A5)|].
  rewrite firstn_all, <- after_substeps in B1.
  exists r, w', ts'. split; [exact R1|]. split; [|split; [exact B2|split; [exact B3|split; [exists bt'; exact B4|exact B5]]]]. intros i Hi. pose proof (tr_dm _ _ _ _ _ _ _ R3 i Hi) as D. rewrite D. f_equal. apply B1. exact Hi.
Qed.
End Tdvp.
End Run.
