(** DMRG on an eigenstate: the solver stops after one step, every update leaves the state. *)
From Coq Require Import List Arith Bool Lia Reals Lra Ring_theory.
From Verif Require Import Base Disk SweepSpec NoiseSpec Dmrg DmrgSpec DmrgFacts DmrgMore VmpsInitFacts FiniteMps FmpsSpec FmpsFacts EffHam EffHamSpec EffHamFacts ChainSpec ChainFacts Lanczos LanczosSpec Krylov KrylovSpec Cx KrylovInst DmrgUpdate DmrgStep DmrgVarSpec DmrgVar DmrgVarRun DmrgTruncSpec VmpsState GVecEigen EigenFacts DmrgEigenSpec.
Import ListNotations.
Local Open Scope nat_scope.

Section Vec.
Variables D0 p1 p2 D3 : nat.
Notation ip := (v_ip D0 p1 p2 D3). Notation dot := (v_dot D0 p1 p2 D3). Notation normalize := (v_normalize D0 p1 p2 D3).
Variable mul : cten4 -> cten4.
Hypothesis mul_h : forall x y, ip (mul x) y = ip x (mul y).
Variables (stev : list real -> list real -> list real * list real) (close : real -> real -> bool) (maxit dim : nat).
Hypothesis Hmax : 2 <= maxit.
(** equal up to elements that do not exist *)
Definition same4 (x y : cten4) : Prop := forall a s1 s2 b, a < D0 -> s1 < p1 -> s2 < p2 -> b < D3 -> x a s1 s2 b = y a s1 s2 b.
Lemma same4_ip : forall x y, (forall w, ip x w = ip y w) -> same4 x y.
Proof.
  intros x y H a s1 s2 b Ha H1 H2 Hb. set (z := v_lc1 1 y x). assert (Z : dot z z = 0%R).
  { unfold v_dot, z. rewrite ip_lc1, H. transitivity (fst c0); [f_equal; change (cre 1) with c1; ring|reflexivity]. }
  pose proof (proj2 (dot_pos D0 p1 p2 D3 z) Z a s1 s2 b Ha H1 H2 Hb) as E. unfold z, v_lc1 in E. change (cre 1) with c1 in E. transitivity (cadd (csub (x a s1 s2 b) (cmul c1 (y a s1 s2 b))) (y a s1 s2 b)); [ring|]. rewrite E. ring.
Qed.
Lemma unit_scale : forall v, ip v v <> c0 -> exists n, (0 < n)%R /\ cre (n * n) = ip v v /\ normalize v = (v_scale (/ n) v, n).
Proof.
  intros v NZ. pose proof (norm_nz D0 p1 p2 D3 v NZ) as E. pose proof (norm_sq D0 p1 p2 D3 v) as Q. unfold v_normalize in *. destruct (is_zero (sqrt (dot v v))) eqn:Z; cbn [fst snd] in *.
  - rewrite zero_0 in E. discriminate.
  - apply zero_false in Z. exists (sqrt (dot v v)). split; [pose proof (sqrt_pos (dot v v)); lra|]. split; [|reflexivity]. rewrite <- Q. unfold cre, cmul. cbn [fst snd]. f_equal; ring.
Qed.
Lemma null_norm : forall v, same4 v (fun _ _ _ _ => c0) -> normalize v = (v, 0%R).
Proof.
  intros v H. unfold v_normalize. assert (Z : dot v v = 0%R).
  { unfold v_dot. rewrite (ip_ext D0 p1 p2 D3 v (v_scale 0 v) v); [rewrite ip_scale; transitivity (fst c0); [f_equal; change (cre 0) with c0; ring|reflexivity]|]. intros. rewrite H by auto. unfold v_scale. rewrite H by auto. ring. }
  rewrite Z, sqrt_0, zero_0. reflexivity.
Qed.
Variables (v : cten4) (lam : real).
Hypothesis NZ : ip v v <> c0.
Hypothesis EV : same4 (mul v) (v_scale lam v).
Lemma first4 : forall n, (n <> 0)%R -> cre (n * n) = ip v v -> let q := v_scale (/ n) v in dot (mul q) q = lam /\ same4 (v_lc1 (dot (mul q) q) q (mul q)) (fun _ _ _ _ => c0).
Proof.
  intros n Hn Q q. assert (MQ : same4 (mul q) (v_scale lam q)).
  { apply same4_ip. intros w. rewrite mul_h. unfold q. rewrite !ip_scale, <- mul_h, (ip_ext D0 p1 p2 D3 _ _ w EV), ip_scale. ring. }
  assert (QQ : ip q q = c1).
  { unfold q. rewrite ip_scale, <- (ip_conj D0 p1 p2 D3 (v_scale _ v) v), ip_scale, cconj_mul, ip_conj, <- Q. unfold cmul, cconj, cre, c1. cbn [fst snd]. f_equal; field; exact Hn. }
  assert (A : dot (mul q) q = lam).
  { unfold v_dot. rewrite (ip_ext D0 p1 p2 D3 _ _ q MQ), ip_scale, QQ. unfold cmul, cre, c1. cbn [fst snd]. ring. }
  split; [exact A|]. rewrite A. intros a s1 s2 b Ha H1 H2 Hb. unfold v_lc1. rewrite (MQ a s1 s2 b Ha H1 H2 Hb). unfold v_scale. ring.
Qed.
Lemma v_lanczos_eigen : exists r n, v_lanczos D0 p1 p2 D3 mul stev close maxit dim v = Ok (r, v_scale (/ n) v) /\ eng real r = lam /\ (0 < n)%R /\ cre (n * n) = ip v v.
Proof.
  destruct (unit_scale v NZ) as [n [Hp [Q NV]]]. assert (Hn : (n <> 0)%R) by lra. destruct (first4 n Hn Q) as [A Z]. set (q := v_scale (/ n) v) in *.
  destruct maxit as [|[|mi]]; try lia.
  eexists. exists n. split; [|split; [|split; [exact Hp|exact Q]]].
  - unfold v_lanczos, eig_solver. cbn [rd nth_error cells bind]. rewrite NV. cbn [fst]. cbn [wr upd vset vget base rd bind nth_error cells arrs new length app repeat Nat.ltb Nat.leb].
    cbn. fold q. rewrite (null_norm _ Z). cbn. rewrite zero_0. cbn. rewrite free_none. cbn. reflexivity.
  - cbn. exact A.
Qed.
End Vec.

Section Run.
Variable N : nat.
Variable ws : nat -> DmrgUpdate.cmpo.
Variable ds : list nat.
Variables (stev : list real -> list real -> list real * list real) (close : real -> real -> bool) (maxit : nat) (size : nat -> nat -> nat -> nat -> nat).
Variable split : bool -> nat -> nat -> nat -> nat -> cten4 -> cten * cten.
Hypothesis PM : proper_mpo N ws ds.
Hypothesis ES : exact_split cx c0 c1 cadd cmul cconj split.
Hypothesis Hmax : 2 <= maxit.
Variable E : real.
Notation trivs := (fun s : side => triv_group cx c1).
Notation upd := (d_update ws stev close maxit size split).
Notation lenv := (left_env cten (list cop) trivs (d_grow ws)). Notation renv := (right_env cten (list cop) trivs (d_grow ws) N).
Notation opt := (opt cten (list cop) (res real) trivs (d_grow ws) upd N). Notation opts := (opts cten (list cop) (res real) trivs (d_grow ws) upd N).
Notation sweeps_spec := (sweeps_spec cten (list cop) (res real) trivs (d_grow ws) upd N).
Notation on_sites := (on_sites N ds). Notation nonzero := (nonzero N). Notation normalized := (normalized N). Notation coef := (coef N).
Notation eigen ts := (d_eigenstate N ws ds (coef ts) E). Notation d_unit := (d_unit N ds).
Notation W := (sites N ws). Notation S ts := (sites N ts).

Lemma eigen_one : forall rt l ts, l + 1 < N -> on_sites ts -> cmixed N ts l -> nonzero ts -> eigen ts ->
  exists a b, upd rt l (lenv ts l) (ts l) (ts (l + 1)) (renv ts (N - (l + 2))) = (a, b, Ok E) /\
  let ts' := fset (fset ts l a) (l + 1) b in on_sites ts' /\ (if rt then cleft a else cright b) /\ normalized ts' /\ d_unit ts' ts.
Proof.
  intros rt l ts Hl HO HM HZ HE. destruct (cut_at N ws ds PM ts l HO Hl) as [HC H12]. destruct (sites_bases N ws ds maxit PM Hmax ts l HO Hl HM) as [LB RB].
  set (tl := sites l ts) in *. set (tr := map ts (seq (l + 2) (N - (l + 2)))) in *. set (wl := sites l ws) in *. set (wr := map ws (seq (l + 2) (N - (l + 2)))) in *.
  assert (TS : S ts = tl ++ [ts l; ts (l + 1)] ++ tr) by (apply sites_mid; exact Hl).
  set (t1 := ts l) in *. set (t2 := ts (l + 1)) in *.
  destruct (eff_ham_ok cx c0 c1 cadd cmul csub copp cx_ring cconj cconj0 cconj1 cconj_add cconj_mul tl tr wl (ws l) (ws (l + 1)) wr _ _ HC) as [gl [gr [GL [GR GM]]]].
  rewrite (left_env_ops ws ts l gl GL) in *.
  assert (RE : renv ts (N - (l + 2)) = gr) by (apply right_env_ops; [lia|]; replace (N - (N - (l + 2))) with (l + 2) by lia; exact GR).
  rewrite RE in *. clear RE.
  set (D0 := d0 t1) in *. set (p1 := d1 t1) in *. set (p2 := d1 t2) in *. set (D3 := d2 t2) in *.
  set (mul := fun x => match d_mul ws l gl gr t1 t2 x with Ok y => y | _ => x end) in *.
  assert (MUL : forall x a s1 s2 b, a < D0 -> s1 < p1 -> s2 < p2 -> b < D3 -> mul x a s1 s2 b = projected cx c0 c1 cadd cmul cconj tl tr wl (ws l) (ws (l + 1)) wr D0 p1 p2 D3 x a s1 s2 b).
  { intros x a s1 s2 b Ha _ _ Hb. unfold mul, d_mul. fold D0 p1 p2 D3. destruct (GM p1 p2 x) as [y [z [Y [_ X]]]]. rewrite Y. destruct (X a s1 s2 b Ha Hb) as [X1 _]. exact X1. }
  assert (WS : W = wl ++ [ws l; ws (l + 1)] ++ wr) by (apply sites_mid; exact Hl).
  assert (DS : ds = map (@d1 cx) tl ++ [p1; p2] ++ map (@d1 cx) tr) by (destruct HO as [_ HD]; rewrite <- HD, TS, !map_app; reflexivity).
  assert (HMUL : forall x y, v_ip D0 p1 p2 D3 (mul x) y = v_ip D0 p1 p2 D3 x (mul y)).
  { intros x y. rewrite (ip_ext _ _ _ _ _ _ y (MUL x)). rewrite <- (ip_conj _ _ _ _ (mul y) x), (ip_ext _ _ _ _ _ _ x (MUL y)). rewrite !ip_dot4.
    apply (projected_hermitian cx c0 c1 cadd cmul csub copp cx_ring cconj cconj0 cconj_add cconj_mul cconj_conj). rewrite <- WS, <- DS. apply (pm_herm _ _ _ PM). }
  pose proof (splits_self cx c0 cadd cmul t1 t2 H12) as SS. fold D0 p1 p2 D3 in SS. pose proof (cut_l _ _ _ _ _ _ _ _ _ HC) as CL.
  assert (NV : v_ip D0 p1 p2 D3 (d_init t1 t2) (d_init t1 t2) = cnorm2 (S ts)).
  { rewrite ip_dot4, TS. symmetry. apply (norm2_splits cx c0 c1 cadd cmul csub copp cx_ring cconj cconj0 cconj_add cconj_mul); auto. }
  assert (AM : forall cl s1 s2 cr, In cl (configs (map (@d1 cx) tl)) -> s1 < p1 -> s2 < p2 -> coef ts (cl ++ [s1; s2] ++ cr) = whole cx c0 c1 cadd cmul tl tr D0 D3 (d_init t1 t2) cl s1 s2 cr).
  { intros. unfold DmrgTruncSpec.coef. rewrite TS. apply (mid_whole cx c0 c1 cadd cmul csub copp cx_ring) with (p1 := p1) (p2 := p2); auto. }
  assert (EV : same4 D0 p1 p2 D3 (mul (d_init t1 t2)) (v_scale E (d_init t1 t2))).
  { apply same4_ip. intros w. rewrite ip_scale, (ip_ext _ _ _ _ _ _ w (MUL (d_init t1 t2))), !ip_dot4. apply eigen_projected; [exact LB|exact RB|]. intros cl' s1' s2' cr' I1 I2 I3 I4.
    rewrite <- AM by auto. rewrite <- HE.
    2:{ rewrite DS. apply (in_over cx tl tr p1 p2); auto. }
    rewrite WS, <- (proj2 HO), TS, (configs_mid cx c0 c1 cadd cmul csub copp cx_ring). apply (over_ext cx c0 cadd). intros cl s1 s2 cr J1 J2 J3 J4. rewrite AM by auto. reflexivity. }
  destruct (v_lanczos_eigen D0 p1 p2 D3 mul HMUL stev close maxit (size D0 p1 p2 D3) Hmax (d_init t1 t2) E ltac:(rewrite NV; exact HZ) EV) as [r [n [RUN [RE [Hn NN]]]]].
  set (g := v_scale (/ n) (d_init t1 t2)) in *.
  pose proof (ES rt D0 p1 p2 D3 g) as SP. destruct (split rt D0 p1 p2 D3 g) as [a b] eqn:ESP. destruct SP as [SP CA].
  assert (TS' : S (fset (fset ts l a) (l + 1) b) = tl ++ [a; b] ++ tr) by (apply sites_set; exact Hl).
  exists a, b. split; [|cbv zeta; split; [exact (set_on N ds ts l a b g HO Hl SP)|split; [exact CA|split]]].
  - unfold d_update. rewrite H12, Nat.eqb_refl. cbn [negb]. unfold d_mul at 1. fold D0 p1 p2 D3. destruct (GM p1 p2 (d_init t1 t2)) as [y [z [Y _]]]. rewrite Y. fold mul. rewrite RUN, ESP, RE. reflexivity.
  - unfold DmrgVarSpec.normalized. rewrite TS', (norm2_splits cx c0 c1 cadd cmul csub copp cx_ring cconj cconj0 cconj_add cconj_mul tl tr a b g D0 p1 p2 D3 CL SP LB RB), <- ip_dot4.
    unfold g. rewrite ip_scale, <- (ip_conj D0 p1 p2 D3 (v_scale _ _) (d_init t1 t2)), ip_scale, cconj_mul, ip_conj, <- NN. unfold cmul, cconj, cre, c1. cbn [fst snd]. f_equal; field; lra.
  - exists n. split; [exact Hn|]. split; [rewrite <- NV; symmetry; exact NN|]. intros c Ic. rewrite DS in Ic.
    destruct (configs_in_app _ _ _ Ic) as [cl [c2 [-> [J1 J2]]]]. destruct (configs_in_app _ _ _ J2) as [cm [cr [-> [J3 J4]]]].
    destruct cm as [|s1 [|s2 [|? ?]]]; try (apply configs_len in J3; discriminate).
    assert (s1 < p1 /\ s2 < p2) as [Q1 Q2].
    { cbn [configs] in J3. apply in_flat_map in J3. destruct J3 as [u [U1 U2]]. apply in_map_iff in U2. destruct U2 as [k [U2 U3]]. apply in_flat_map in U3. destruct U3 as [v [V1 V2]]. apply in_map_iff in V2. destruct V2 as [k' [V2 V3]]. injection U2 as -> ->. injection V2 as -> _. apply in_seq in U1, V1. lia. }
    rewrite AM by auto. unfold DmrgTruncSpec.coef. rewrite TS', (mid_whole cx c0 c1 cadd cmul csub copp cx_ring tl tr _ _ g D0 p1 p2 D3) by auto.
    unfold whole, g. rewrite csum_mul. apply csum_ext. intros i Hi. rewrite csum_mul. apply csum_ext. intros k Hk. unfold v_scale. ring.
Qed.

Lemma unit_trans : forall t0 t1 t2, normalized t1 -> d_unit t1 t0 -> d_unit t2 t1 -> d_unit t2 t0.
Proof.
  intros t0 t1 t2 N1 [n [P [Q T]]] [m [Pm [Qm Tm]]]. exists n. split; [exact P|]. split; [exact Q|]. rewrite N1 in Qm. unfold c1, cre in Qm. injection Qm as Qm. assert (m = 1%R) by nra. subst m.
  intros c Ic. rewrite (Tm c Ic), Rinv_1, (T c Ic). change (cre 1) with c1. ring.
Qed.
Lemma unit_eigen : forall ts ts', d_unit ts' ts -> eigen ts -> eigen ts'.
Proof.
  intros ts ts' [n [_ [_ T]]] HE c' Ic. rewrite (T c' Ic). transitivity (cmul (cre (/ n)) (cmul (cre E) (coef ts c'))); [|ring]. rewrite <- (HE c' Ic), (lsum_mul_l cx c0 c1 cadd cmul csub copp cx_ring).
  apply (lsum_ext cx c0 cadd). intros c J. rewrite (T c J). ring.
Qed.
Lemma eigen_opts : forall bs l m ts e, path N l bs m -> on_sites ts -> cmixed N ts l -> nonzero ts -> eigen ts ->
  let s := opts bs (ts, e) in on_sites (fst s) /\ cmixed N (fst s) m /\ eigen (fst s) /\ (bs <> [] -> snd s = Some (Ok E) /\ normalized (fst s) /\ d_unit (fst s) ts).
Proof.
  induction bs as [|[rt l0] bs IH]; intros l m ts e HP HO HM HZ HE; cbv zeta.
  - inversion HP; subst. cbn. split; [auto|]. split; [auto|]. split; [auto|]. congruence.
  - assert (l0 = l) by (inversion HP; auto). subst l0. assert (HP' : l + 1 < N /\ exists l', (l' = l \/ (if rt then l' = l + 1 else l' + 1 = l)) /\ path N l' bs m) by (inversion HP; subst; eauto). clear HP. destruct HP' as [H3 [l' [H4 H5]]].
    destruct (eigen_one rt l ts H3 HO HM HZ HE) as [a [b [U [O1 [C1 [N1 U1]]]]]].
    assert (OP : opt (rt, l) (ts, e) = (fset (fset ts l a) (l + 1) b, Some (Ok E))) by (unfold SweepSpec.opt; rewrite U; reflexivity).
    cbn [SweepSpec.opts fold_left]. change (fold_left (fun (s : (nat -> cten) * option (res real)) (b0 : bool * nat) => opt b0 s) bs (opt (rt, l) (ts, e))) with (opts bs (opt (rt, l) (ts, e))). rewrite OP.
    set (ts' := fset (fset ts l a) (l + 1) b) in *.
    destruct (IH l' m ts' (Some (Ok E)) H5 O1) as [A1 [A2 [A3 A4]]].
    { apply (set_mixed N maxit Hmax) with (rt := rt); auto. }
    { apply normalized_nz. exact N1. }
    { apply (unit_eigen ts); auto. }
    split; [exact A1|]. split; [exact A2|]. split; [exact A3|]. intros _. destruct bs as [|b0 bs]; [cbn; auto|]. destruct (A4 ltac:(discriminate)) as [B1 [B2 B3]].
    split; [exact B1|]. split; [exact B2|]. apply (unit_trans ts ts'); auto.
Qed.
Lemma eigen_each : forall bs l m ts e, path N l bs m -> on_sites ts -> cmixed N ts l -> nonzero ts -> eigen ts ->
  forall j, 1 <= j -> j <= length bs -> let s := opts (firstn j bs) (ts, e) in snd s = Some (Ok E) /\ on_sites (fst s) /\ eigen (fst s) /\ d_unit (fst s) ts.
Proof.
  intros bs l m ts e HP HO HM NZ HE j H1 Hj. cbv zeta. rewrite <- (firstn_skipn j bs) in HP. destruct (path_split _ _ _ _ _ HP) as [m' [P1 _]].
  destruct (eigen_opts _ _ _ ts e P1 HO HM NZ HE) as [A1 [_ [A3 A4]]]. destruct A4 as [A4 [_ A5]]; [intros X; apply (f_equal (@length _)) in X; rewrite firstn_length in X; cbn in X; lia|]. auto.
Qed.

Variables (canoL canoR : cten -> cten -> cten * cten) (bigL smallL bigR smallR : cten -> bool) (combL combR : cten -> cten -> cten * cten).
Hypothesis HcL : moves_right cx c0 c1 cadd cmul cconj canoL.
Hypothesis HcR : moves_left cx c0 c1 cadd cmul cconj canoR.
Hypothesis HbL : moves_right cx c0 c1 cadd cmul cconj combL.
Hypothesis HbR : moves_left cx c0 c1 cadd cmul cconj combR.
Variables (dT : cten) (dbg : bool).
Notation trivc := (fun s : side => (fun _ _ : nat => c1) : cop).
Notation rows := (fun i => mrows (ws i)). Notation cols := (fun i => mcols (ws i)).
Notation execute := (execute cten cop (res real) dT rows cols trivc (d_grow ws) upd canoL canoR bigL smallL bigR smallR combL combR dbg).
Notation ready := (ready cten cop (res real) N cols trivc (d_grow ws) canoL canoR bigL smallL bigR smallR combL combR).
Notation centered := (centered N).
Notation DW := (Dmrg.W cten cop (res real)). Notation eng := (Disk.eng cten unit (res real)).
Notation complete := (complete cten cop (res real) N). Notation no_emergency := (no_emergency cten cop (res real)).
Notation stp := (Dmrg.stp cten cop (res real)). Notation emg := (Dmrg.emg cten cop (res real)). Notation clk := (Dmrg.clk cten cop (res real)).
Notation sweep_start := (sweep_start cten cop (res real)).

Lemma same_coef : forall ts ts', on_sites ts -> csame (S ts) (S ts') -> forall c, In c (configs ds) -> coef ts' c = coef ts c.
Proof. intros ts ts' HO [H1 H2] c Ic. unfold DmrgTruncSpec.coef. apply H2. rewrite (proj2 HO). exact Ic. Qed.
Lemma same_eigen : forall ts ts', on_sites ts -> csame (S ts) (S ts') -> eigen ts -> eigen ts'.
Proof.
  intros ts ts' HO HS HE c' Ic. rewrite (same_coef ts ts' HO HS c' Ic), <- (HE c' Ic). apply (lsum_ext cx c0 cadd). intros c J. rewrite (same_coef ts ts' HO HS c J). reflexivity.
Qed.
Lemma same_unit : forall a b a' b', on_sites a -> on_sites b -> csame (S a) (S a') -> csame (S b) (S b') -> d_unit b a' -> d_unit b' a.
Proof.
  intros a b a' b' Ha Hb SA SB [n [P [Q T]]]. exists n. split; [exact P|]. split; [rewrite <- (same_norm2 cx c0 c1 cadd cmul cconj _ _ SA); exact Q|].
  intros c Ic. rewrite (same_coef b b' Hb SB c Ic), (T c Ic), (same_coef a a' Ha SA c Ic). reflexivity.
Qed.
Lemma eigen_run : forall arr n ts ts0 lb rb d, ready ts ts0 lb rb d -> no_emergency arr d -> 1 <= n ->
  on_sites ts -> centered 0 ts -> nonzero ts -> eigen ts ->
  exists d' ts', execute arr n d = Ok d' /\ complete ts' d' /\ eng (DW d') = Some (Ok E) /\ on_sites ts' /\ centered 0 ts' /\ normalized ts' /\ d_unit ts' ts.
Proof.
  intros arr n ts ts0 lb rb d HR HEm Hn HO HC HZ HE. assert (H3 : 3 <= N) by apply HR.
  assert (RG : lb + 2 <= rb < N) by exact (ready_range cten cop (res real) rows cols trivc (d_grow ws) canoL canoR bigL smallL bigR smallR combL combR N (rows0 N ws ds maxit size PM Hmax bigL smallL bigR smallR dT ltac:(lia)) (colsN N ws ds maxit size PM Hmax bigL smallL bigR smallR dT ltac:(lia)) ts ts0 lb rb d HR).
  destruct (no_emg_run cten cop (res real) dT rows cols trivc (d_grow ws) upd canoL canoR bigL smallL bigR smallR combL combR dbg N (rows0 N ws ds maxit size PM Hmax bigL smallL bigR smallR dT ltac:(lia)) (colsN N ws ds maxit size PM Hmax bigL smallL bigR smallR dT ltac:(lia)) (wlink N ws ds PM)
    (fun i g t => grow_len_l ws i g t (pm_cols _ _ _ PM i)) (fun i g t => grow_len_r ws i g t (pm_rows _ _ _ PM i)) arr n ts ts0 lb rb d HR HEm) as [m [d' [A1 [A2 [A3 [A4 [A5 _]]]]]]].
  specialize (A5 ltac:(lia)). specialize (A3 ltac:(lia)).
  destruct (prep_ok N ds canoL canoR bigL smallL bigR smallR combL combR HcL HcR HbL HbR ts ts0 lb rb H3 HO HC (proj1 (proj2 HR))) as [P1 [P2 P3]].
  destruct (state_expect N ws _ _ P2) as [_ [X2 _]].
  destruct (eigen_opts (all_bonds lb rb m) lb lb ts0 None (path_all N lb rb m ltac:(lia) ltac:(lia)) P1 (centered_mixed N maxit Hmax _ _ P3) (X2 HZ) (same_eigen ts ts0 HO P2 HE)) as [Q1 [Q2 [_ Q4]]].
  destruct (Q4 (all_bonds_nil maxit Hmax lb rb m ltac:(lia) A5)) as [E1 [E2 E3]].
  rewrite <- sweeps_all in *. set (s := sweeps_spec lb rb m (ts0, None)) in *.
  destruct (center_ok N ds canoR HcR (lb + 1) (fst s) ltac:(lia) Q1) as [C1 [C2 C3]]; [intros; apply Q2; lia|intros; apply Q2; lia|].
  exists d', (center_to_0 cten canoR (lb + 1) (fst s)). split; [exact A1|]. split; [exact A2|]. split; [rewrite A3; exact E1|]. split; [exact C1|]. split; [exact C3|].
  split; [unfold DmrgVarSpec.normalized; rewrite (same_norm2 cx c0 c1 cadd cmul cconj _ _ C2); exact E2|]. exact (same_unit ts (fst s) ts0 _ HO Q1 P2 C2 E3).
Qed.
Lemma eigen_emg : forall arr n ts ts0 lb rb d m j, ready ts ts0 lb rb d -> stp d = false -> emg d = false -> m < n -> 1 <= j <= updates lb rb ->
  (forall u, clk d <= u < sweep_start lb rb d m + j - 1 -> arr u = (false, false)) -> snd (arr (sweep_start lb rb d m + j - 1)) = true ->
  on_sites ts -> centered 0 ts -> nonzero ts -> eigen ts ->
  exists d' ts', execute arr n d = Ok d' /\ on_disk cten unit (res real) N ts' (DW d') /\ eng (DW d') = Some (Ok E) /\ on_sites ts' /\ normalized ts' /\ d_unit ts' ts.
Proof.
  intros arr n ts ts0 lb rb d m j HR PS PE Hm Hj HQ HA HO HC HZ HE. assert (H3 : 3 <= N) by apply HR.
  assert (RG : lb + 2 <= rb < N) by exact (ready_range cten cop (res real) rows cols trivc (d_grow ws) canoL canoR bigL smallL bigR smallR combL combR N (rows0 N ws ds maxit size PM Hmax bigL smallL bigR smallR dT ltac:(lia)) (colsN N ws ds maxit size PM Hmax bigL smallL bigR smallR dT ltac:(lia)) ts ts0 lb rb d HR).
  destruct (emergency_at cten cop (res real) dT rows cols trivc (d_grow ws) upd canoL canoR bigL smallL bigR smallR combL combR dbg N (rows0 N ws ds maxit size PM Hmax bigL smallL bigR smallR dT ltac:(lia)) (colsN N ws ds maxit size PM Hmax bigL smallL bigR smallR dT ltac:(lia)) (wlink N ws ds PM)
    (fun i g t => grow_len_l ws i g t (pm_cols _ _ _ PM i)) (fun i g t => grow_len_r ws i g t (pm_rows _ _ _ PM i)) arr n ts ts0 lb rb d m j HR PS PE Hm Hj HQ HA) as [d' [A1 [_ [A2 A3]]]].
  destruct (prep_ok N ds canoL canoR bigL smallL bigR smallR combL combR HcL HcR HbL HbR ts ts0 lb rb H3 HO HC (proj1 (proj2 HR))) as [P1 [P2 P3]].
  destruct (state_expect N ws _ _ P2) as [_ [X2 _]].
  set (bs := all_bonds lb rb m ++ firstn j (bonds lb rb)).
  assert (BS : all_bonds lb rb n = bs ++ skipn j (bonds lb rb) ++ all_bonds lb rb (n - m - 1)).
  { unfold bs. rewrite (all_bonds_split maxit Hmax lb rb m n ltac:(lia)), <- app_assoc. f_equal. rewrite app_assoc, firstn_skipn. assert (En : n - m = Datatypes.S (n - m - 1)) by lia. rewrite En at 1. reflexivity. }
  pose proof (path_all N lb rb n ltac:(lia) ltac:(lia)) as PA. rewrite BS in PA. destruct (path_split _ _ _ _ _ PA) as [l' [PA' _]].
  destruct (eigen_opts bs lb l' ts0 None PA' P1 (centered_mixed N maxit Hmax _ _ P3) (X2 HZ) (same_eigen ts ts0 HO P2 HE)) as [Q1 [_ [_ Q4]]].
  assert (OB : opts bs (ts0, None) = opts (firstn j (bonds lb rb)) (sweeps_spec lb rb m (ts0, None))) by (rewrite sweeps_all; unfold bs, SweepSpec.opts; apply fold_left_app).
  rewrite OB in *. destruct Q4 as [E1 [E2 E3]].
  { unfold bs. intros C. apply app_eq_nil in C. destruct C as [_ C]. apply (f_equal (@length _)) in C. rewrite firstn_length in C. unfold updates in Hj. cbn in C. lia. }
  exists d', (fst (opts (firstn j (bonds lb rb)) (sweeps_spec lb rb m (ts0, None)))). split; [exact A1|]. split; [exact A2|]. split; [rewrite A3; exact E1|]. split; [exact Q1|]. split; [exact E2|].
  exact (same_unit ts _ ts0 _ HO Q1 P2 (same_refl _ _ _ _ _ _) E3).
Qed.
End Run.
