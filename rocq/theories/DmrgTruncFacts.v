(** DMRG updates with truncation: what one update and a sequence of updates leave. *)
From Coq Require Import List Arith Bool Lia Reals Lra Ring_theory.
From Verif Require Import Base Disk SweepSpec NoiseSpec DmrgSpec VmpsInitFacts FiniteMps FmpsSpec FmpsFacts EffHam EffHamSpec EffHamFacts ChainSpec ChainFacts Lanczos LanczosSpec KrylovSpec Cx KrylovInst DmrgUpdate DmrgStep DmrgVarSpec DmrgVar DmrgVarRun DmrgVarInst DmrgTrunc DmrgTruncSpec.
Import ListNotations.
Local Open Scope nat_scope.

Lemma trunc_same : forall ws stev close maxit size svd err rt l gl t1 t2 gr,
  d_update ws stev close maxit size (d_split svd) rt l gl t1 t2 gr = let '(a, b, e) := d_update_e ws stev close maxit size svd err rt l gl t1 t2 gr in (a, b, let! e := e in Ok (fst e)).
Proof.
  intros. unfold d_update, d_update_e. destruct (negb _); [reflexivity|]. destruct (d_mul _ _ _ _ _ _ _) as [z| |]; try reflexivity. cbv zeta.
  destruct (v_lanczos _ _ _ _ _ _ _ _ _ _) as [[r g]| |]; try reflexivity. destruct (d_split svd rt _ _ _ _ g) as [a b]. reflexivity.
Qed.
Lemma exact_truncated : forall svd, exact_svd cx c0 c1 cadd cmul cconj svd -> trunc_svd (fun _ _ _ _ _ => 0%R) svd.
Proof.
  intros svd H D0 p1 p2 D3 g. cbv zeta. intros _. specialize (H D0 p1 p2 D3 g). destruct (svd D0 p1 p2 D3 g) as [[u s] vt]. destruct H as [E0 [E1 [E2 [E3 [CU [CV E]]]]]].
  do 6 (split; [assumption|]). set (y := fun _ _ _ _ => _).
  assert (Y : forall x, v_ip D0 p1 p2 D3 y x = v_ip D0 p1 p2 D3 g x) by (intros x; apply ip_ext; intros; apply E; auto).
  assert (YY : v_ip D0 p1 p2 D3 y y = v_ip D0 p1 p2 D3 g g) by (rewrite Y, <- ip_conj, Y; apply ip_conj).
  split; [rewrite Y, YY; reflexivity|]. split; [|lra]. rewrite YY. replace (1 - 0)%R with 1%R by ring. change (cre 1) with c1. ring.
Qed.

Section Facts.
Variable N : nat.
Variable ws : nat -> cmpo.
Variable ds : list nat.
Notation on_sites := (on_sites N ds). Notation energy_of := (energy_of N ws). Notation nonzero := (nonzero N). Notation expect := (expect N ws).
Notation braket := (braket N ds). Notation coef := (coef N). Notation truncated := (truncated N ws ds).

Lemma norm_braket : forall ts, on_sites ts -> braket ts ts = cnorm2 (sites N ts).
Proof. intros ts [_ HD]. unfold DmrgTruncSpec.braket, norm2. rewrite HD. reflexivity. Qed.
Lemma sum_zero : forall (l : list (list nat)) (f : list nat -> cx), fst (lsum cx c0 cadd l (fun c => cmul (cconj (f c)) (f c))) = 0%R -> forall c, In c l -> f c = c0.
Proof.
  assert (P : forall (l : list (list nat)) (f : list nat -> cx), (0 <= fst (lsum cx c0 cadd l (fun c => cmul (cconj (f c)) (f c))))%R).
  { induction l as [|a l IH]; intros f; [cbn; lra|]. cbn [lsum fold_right]. specialize (IH f). unfold lsum in IH. destruct (f a) as [x y]. unfold cmul, cconj, cadd in *. cbn [fst snd] in *. nra. }
  induction l as [|a l IH]; intros f H c Ic; [destruct Ic|]. pose proof (P l f) as Q.
  change (fst (cmul (cconj (f a)) (f a)) + fst (lsum cx c0 cadd l (fun c => cmul (cconj (f c)) (f c))) = 0)%R in H.
  pose proof (sq_pos (f a)) as [S1 S2]. replace (cmul (f a) (cconj (f a))) with (cmul (cconj (f a)) (f a)) in S1, S2 by ring. destruct Ic as [<-|Ic]; [apply S2; lra|]. apply IH; [lra|exact Ic].
Qed.
(** without truncation the chain that is left is the one that was found *)
Lemma no_loss : forall ts' e ph, truncated ts' e 0 ph -> csame (sites N ph) (sites N ts') /\ energy_of ts' e.
Proof.
  intros ts' e ph [O1 [_ [N1 [O2 [[N2 E2] B]]]]].
  assert (S : csame (sites N ph) (sites N ts')).
  { split; [rewrite (proj2 O1), (proj2 O2); reflexivity|]. rewrite (proj2 O2). intros c Ic.
    set (f := fun c => csub (coef ts' c) (coef ph c)). assert (Z : f c = c0).
    { apply (sum_zero (configs ds)); [|exact Ic].
      assert (X : lsum cx c0 cadd (configs ds) (fun c => cmul (cconj (f c)) (f c)) = csub (cadd (braket ts' ts') (braket ph ph)) (cadd (braket ts' ph) (cconj (braket ts' ph)))).
      { unfold DmrgTruncSpec.braket, f. generalize (configs ds). intros l. induction l as [|a l IH]; cbn [lsum fold_right]; [rewrite cconj0; ring|]. unfold lsum in IH. rewrite IH, !cconj_add, !cconj_mul, cconj_conj.
        replace (cconj (csub (coef ts' a) (coef ph a))) with (csub (cconj (coef ts' a)) (cconj (coef ph a))) by (destruct (coef ts' a), (coef ph a); unfold cconj, csub; cbn [fst snd]; f_equal; ring). ring. }
      rewrite X, !norm_braket, N1, N2, B by auto. unfold csub, cadd, cconj, cre, c1. cbn [fst snd]. ring. }
    unfold f in Z. unfold DmrgTruncSpec.coef in Z. transitivity (cadd (csub (mps_mat cx c0 c1 cadd cmul (sites N ts') c 0 0) (mps_mat cx c0 c1 cadd cmul (sites N ph) c 0 0)) (mps_mat cx c0 c1 cadd cmul (sites N ph) c 0 0)); [ring|]. rewrite Z. ring. }
  split; [exact S|]. destruct (same_norm2 cx c0 c1 cadd cmul cconj _ _ S). split.
  - unfold normalized. rewrite (same_norm2 cx c0 c1 cadd cmul cconj _ _ S). exact N2.
  - rewrite (same_energy cx c0 c1 cadd cmul cconj _ _ _ S). exact E2.
Qed.
Lemma above_energy : forall lam ts e, spectrum_above N ws ds lam -> on_sites ts -> energy_of ts e -> (lam <= e)%R.
Proof.
  intros lam ts e HB [_ HD] [H1 H2]. specialize (HB (coef ts)). unfold normalized, norm2 in H1. unfold EffHamSpec.energy in H2. rewrite HD in H1, H2.
  change (lsum cx c0 cadd (configs ds) (fun c => cmul (cconj (coef ts c)) (coef ts c)) = c1) in H1.
  change (lsum cx c0 cadd (configs ds) (fun c' => lsum cx c0 cadd (configs ds) (fun c => cmul (cmul (cconj (coef ts c')) (mpo_mat cx c0 c1 cadd cmul (sites N ws) c c' 0 0)) (coef ts c))) = cre e) in H2.
  rewrite H1, H2 in HB. unfold c1, cre in HB. cbn [fst] in HB. lra.
Qed.

Variables (stev : list real -> list real -> list real * list real) (close : real -> real -> bool) (maxit : nat) (size : nat -> nat -> nat -> nat -> nat).
Variables (svd : nat -> nat -> nat -> nat -> cten4 -> cten * (nat -> nat -> cx) * cten) (err : nat -> nat -> nat -> nat -> cten4 -> real).
Hypothesis PM : proper_mpo N ws ds.
Hypothesis ET : trunc_svd err svd.
Hypothesis Hmax : 2 <= maxit.
Notation trivs := (fun s : side => triv_group cx c1).
Notation upd := (d_update_e ws stev close maxit size svd err).
Notation lenv := (left_env cten (list cop) trivs (d_grow ws)). Notation renv := (right_env cten (list cop) trivs (d_grow ws) N).
Notation opt := (opt cten (list cop) (res (real * real)) trivs (d_grow ws) upd N). Notation opts := (opts cten (list cop) (res (real * real)) trivs (d_grow ws) upd N).
Notation sweeps_spec := (sweeps_spec cten (list cop) (res (real * real)) trivs (d_grow ws) upd N).
Notation lapack_at := (lapack_at ws stev close maxit size). Notation lapack_trunc := (lapack_trunc N ws stev close maxit size svd err).
Notation W := (sites N ws). Notation S ts := (sites N ts).

(** the two factors that an update leaves *)
Lemma split_kept : forall rt D0 p1 p2 D3 g, v_ip D0 p1 p2 D3 g g <> c0 -> exists a b y, d_split svd rt D0 p1 p2 D3 g = (a, b) /\ csplits D0 p1 p2 D3 y a b /\ (if rt then cleft a else cright b) /\
  v_ip D0 p1 p2 D3 y g = v_ip D0 p1 p2 D3 y y /\ v_ip D0 p1 p2 D3 y y = cmul (cre (1 - err D0 p1 p2 D3 g)) (v_ip D0 p1 p2 D3 g g) /\ (0 <= err D0 p1 p2 D3 g < 1)%R /\
  (forall D, capped_svd D svd -> d2 a <= D).
Proof.
  intros rt D0 p1 p2 D3 g NZ. pose proof (ET D0 p1 p2 D3 g) as H. cbv zeta in H. specialize (H NZ). unfold d_split. destruct (svd D0 p1 p2 D3 g) as [[u s] vt] eqn:SV. destruct H as [E0 [E1 [E2 [E3 [CU [CV [Y1 [Y2 Y3]]]]]]]].
  set (y := fun a s1 s2 b => csum (d2 u) (fun k => csum (d0 vt) (fun m => cmul (cmul (el u a s1 k) (s k m)) (el vt m s2 b)))) in *.
  assert (CAP : forall D, capped_svd D svd -> d2 u <= D /\ d0 vt <= D) by (intros D HD; specialize (HD D0 p1 p2 D3 g); rewrite SV in HD; exact HD).
  destruct rt; (eexists; eexists; exists y; split; [reflexivity|]; split; [|split; [assumption|split; [exact Y1|split; [exact Y2|split; [exact Y3|intros D HD; destruct (CAP D HD); assumption]]]]]); split; auto; intros x s1 s2 z Hx H1 H2 Hz; unfold two_site, y; cbn [d2 el].
  - apply (FmpsFacts.sumn_ext cx c0 cadd). intros k _. rewrite (FmpsFacts.sumn_mul_l cx c0 c1 cadd cmul csub copp cx_ring). apply (FmpsFacts.sumn_ext cx c0 cadd). intros m _. ring.
  - rewrite (FmpsFacts.sumn_swap cx c0 c1 cadd cmul csub copp cx_ring (d2 u)). apply (FmpsFacts.sumn_ext cx c0 cadd). intros k _. apply (FmpsFacts.sumn_mul_r cx c0 c1 cadd cmul csub copp cx_ring).
Qed.
(** two chains that differ in two neighbouring tensors, with orthonormal bases on both sides *)
Lemma braket_splits : forall ts l a b a' b' y y', on_sites ts -> l + 1 < N -> cmixed N ts l ->
  let D0 := d0 (ts l) in let p1 := d1 (ts l) in let p2 := d1 (ts (l + 1)) in let D3 := d2 (ts (l + 1)) in
  csplits D0 p1 p2 D3 y a b -> csplits D0 p1 p2 D3 y' a' b' ->
  braket (fset (fset ts l a) (l + 1) b) (fset (fset ts l a') (l + 1) b') = v_ip D0 p1 p2 D3 y' y.
Proof.
  intros ts l a b a' b' y y' HO Hl HM D0 p1 p2 D3 SP SP'. destruct (cut_at N ws ds PM ts l HO Hl) as [HC H12]. destruct (sites_bases N ws ds maxit PM Hmax ts l HO Hl HM) as [LB RB].
  set (tl := sites l ts) in *. set (tr := map ts (seq (l + 2) (N - (l + 2)))) in *.
  pose proof (set_on N ds ts l a b y HO Hl SP) as [_ HD]. unfold DmrgTruncSpec.braket, DmrgTruncSpec.coef. rewrite <- HD, !(sites_set N _ _ _ _ _ Hl). fold tl tr.
  rewrite (configs_mid cx c0 c1 cadd cmul csub copp cx_ring), ip_dot4. rewrite <- (whole_dot cx c0 c1 cadd cmul csub copp cx_ring cconj cconj0 cconj_add cconj_mul tl tr D0 p1 p2 D3 LB RB).
  rewrite (fa_1 _ _ _ _ _ _ _ _ _ _ _ SP), (fa_2 _ _ _ _ _ _ _ _ _ _ _ SP). apply (over_ext cx c0 cadd). intros cl s1 s2 cr I1 I2 I3 I4.
  rewrite (mid_whole cx c0 c1 cadd cmul csub copp cx_ring tl tr _ _ y D0 p1 p2 D3 cl s1 s2 cr (cut_l _ _ _ _ _ _ _ _ _ HC) SP I1 I2 I3).
  rewrite (mid_whole cx c0 c1 cadd cmul csub copp cx_ring tl tr _ _ y' D0 p1 p2 D3 cl s1 s2 cr (cut_l _ _ _ _ _ _ _ _ _ HC) SP' I1 I2 I3). reflexivity.
Qed.
Lemma bond_kept : forall ts l a b g j, on_sites ts -> l + 1 < N -> csplits (d0 (ts l)) (d1 (ts l)) (d1 (ts (l + 1))) (d2 (ts (l + 1))) g a b -> j <> l -> d2 (fset (fset ts l a) (l + 1) b j) = d2 (ts j).
Proof.
  intros ts l a b g j HO Hl SP NE. unfold fset. destruct (Nat.eqb_spec j (l + 1)) as [->|]; [exact (fa_3 _ _ _ _ _ _ _ _ _ _ _ SP)|]. destruct (Nat.eqb_spec j l); [lia|reflexivity].
Qed.
Lemma cre_c1 : forall a, cmul (cre a) c1 = cre a. Proof. intros. ring. Qed.
Lemma cre_pos : forall a, (0 < a)%R -> cre a <> c0. Proof. intros a H E. injection E as E. lra. Qed.

Lemma trunc_one : forall rt l ts, l + 1 < N -> on_sites ts -> cmixed N ts l -> nonzero ts -> lapack_at l (lenv ts l) (renv ts (N - (l + 2))) (ts l) (ts (l + 1)) ->
  exists a b e d ph, upd rt l (lenv ts l) (ts l) (ts (l + 1)) (renv ts (N - (l + 2))) = (a, b, Ok (e, d)) /\
  let ts' := fset (fset ts l a) (l + 1) b in
  truncated ts' e d ph /\ (if rt then cleft a else cright b) /\ (e <= expect ts)%R /\
  (forall j, j <> l -> d2 (ts' j) = d2 (ts j)) /\ (forall D, capped_svd D svd -> d2 (ts' l) <= D).
Proof.
  intros rt l ts Hl HO HM HZ HLA. destruct (cut_at N ws ds PM ts l HO Hl) as [HC H12]. destruct (sites_bases N ws ds maxit PM Hmax ts l HO Hl HM) as [LB RB].
  destruct (update_ok N ws ds stev close maxit size xsplit PM xsplit_ok Hmax rt l ts Hl HO HM HZ HLA) as [a' [b' [e [U [O1 [C1 [E1 L1]]]]]]]. cbv zeta in *.
  unfold d_update in U. rewrite H12, Nat.eqb_refl in U. cbn [negb] in U.
  destruct (d_mul ws l (lenv ts l) (renv ts (N - (l + 2))) (ts l) (ts (l + 1)) (d_init (ts l) (ts (l + 1)))) as [z| |] eqn:MU; try discriminate.
  destruct (v_lanczos _ _ _ _ _ _ _ _ _ _) as [[r g]| |] eqn:RUN; try discriminate.
  pose proof (xsplit_ok rt (d0 (ts l)) (d1 (ts l)) (d1 (ts (l + 1))) (d2 (ts (l + 1))) g) as SP'. destruct (xsplit rt _ _ _ _ g) as [a1 b1]. injection U as -> -> <-. destruct SP' as [SP' _].
  pose proof (cut_l _ _ _ _ _ _ _ _ _ HC) as CL.
  assert (GG : v_ip (d0 (ts l)) (d1 (ts l)) (d1 (ts (l + 1))) (d2 (ts (l + 1))) g g = c1).
  { destruct E1 as [E1 _]. unfold normalized in E1. rewrite (sites_set N _ _ _ _ _ Hl) in E1. rewrite (norm2_splits cx c0 c1 cadd cmul csub copp cx_ring cconj cconj0 cconj_add cconj_mul _ _ a' b' g _ _ _ _ CL SP' LB RB), <- ip_dot4 in E1. exact E1. }
  destruct (split_kept rt (d0 (ts l)) (d1 (ts l)) (d1 (ts (l + 1))) (d2 (ts (l + 1))) g) as [a [b [y [S1 [S2 [S3 [S4 [S5 [S6 S7]]]]]]]]]; [rewrite GG; unfold c0, c1; intros E; injection E as E; lra|].
  rewrite GG, cre_c1 in S5. set (d := err _ _ _ _ g) in *.
  exists a, b, (eng real r), d, (fset (fset ts l a') (l + 1) b'). split; [|split; [|split; [exact S3|split; [|split]]]].
  - unfold d_update_e. rewrite H12, Nat.eqb_refl. cbn [negb]. rewrite MU. rewrite RUN, S1. reflexivity.
  - split; [exact (set_on N ds ts l a b y HO Hl S2)|]. split; [exact S6|]. split; [|split; [exact O1|split; [exact E1|]]].
    + rewrite (sites_set N _ _ _ _ _ Hl), (norm2_splits cx c0 c1 cadd cmul csub copp cx_ring cconj cconj0 cconj_add cconj_mul _ _ a b y _ _ _ _ CL S2 LB RB), <- ip_dot4. exact S5.
    + rewrite (braket_splits ts l a b a' b' y g HO Hl HM S2 SP'), <- ip_conj, S4, S5. unfold cconj, cre. cbn [fst snd]. f_equal. ring.
  - apply (below_expect N ws); auto.
  - intros j Hj. exact (bond_kept ts l a b y j HO Hl S2 Hj).
  - intros D HD. unfold fset. replace (l =? l + 1) with false by (symmetry; apply Nat.eqb_neq; lia). rewrite Nat.eqb_refl. apply S7. exact HD.
Qed.
Lemma truncated_nz : forall ts e d ph, truncated ts e d ph -> nonzero ts.
Proof. intros ts e d ph [_ [H [E _]]]. unfold DmrgVarSpec.nonzero. rewrite E. apply cre_pos. lra. Qed.
Lemma sweeps_opts : forall lb rb n s, sweeps_spec lb rb n s = opts (all_bonds lb rb n) s.
Proof. intros lb rb n. induction n as [|n IH]; intros s; [reflexivity|]. cbn [SweepSpec.sweeps_spec]. rewrite IH. unfold all_bonds. cbn [repeat concat]. unfold SweepSpec.opts. rewrite fold_left_app. reflexivity. Qed.
Lemma trunc_app : forall bs bs' s, lapack_trunc (bs ++ bs') s <-> lapack_trunc bs s /\ lapack_trunc bs' (opts bs s).
Proof.
  induction bs as [|b bs IH]; intros bs' s; cbn [app DmrgTruncSpec.lapack_trunc]; [cbn; tauto|]. rewrite IH. cbn [SweepSpec.opts fold_left]. change (fold_left (fun (s : (nat -> cten) * option (res (real * real))) (b0 : bool * nat) => opt b0 s) bs (opt b s)) with (opts bs (opt b s)). tauto.
Qed.
Lemma trunc_opts : forall bs l m ts e, path N l bs m -> on_sites ts -> cmixed N ts l -> nonzero ts -> lapack_trunc bs (ts, e) ->
  let s := opts bs (ts, e) in on_sites (fst s) /\ cmixed N (fst s) m /\ nonzero (fst s) /\
  (bs <> [] -> exists x d ph, snd s = Some (Ok (x, d)) /\ truncated (fst s) x d ph) /\
  (forall D j, capped_svd D svd -> d2 (ts j) <= D \/ (exists rt, In (rt, j) bs) -> d2 (fst s j) <= D).
Proof.
  induction bs as [|[rt l0] bs IH]; intros l m ts e HP HO HM HZ HLA; cbv zeta.
  - inversion HP; subst. cbn. split; [auto|]. split; [auto|]. split; [auto|]. split; [congruence|]. intros D j _ [H|[? []]]. exact H.
  - assert (l0 = l) by (inversion HP; auto). subst l0. assert (HP' : l + 1 < N /\ exists l', (l' = l \/ (if rt then l' = l + 1 else l' + 1 = l)) /\ path N l' bs m) by (inversion HP; subst; eauto). clear HP. destruct HP' as [H3 [l' [H4 H5]]].
    destruct HLA as [HA HLA]. cbn [fst snd] in HA.
    destruct (trunc_one rt l ts H3 HO HM HZ HA) as [a [b [x [d [ph [U [O1 [C1 [_ [B1 B2]]]]]]]]]]. cbv zeta in *.
    assert (OP : opt (rt, l) (ts, e) = (fset (fset ts l a) (l + 1) b, Some (Ok (x, d)))) by (unfold SweepSpec.opt; rewrite U; reflexivity).
    rewrite OP in HLA. cbn [SweepSpec.opts fold_left]. change (fold_left (fun (s : (nat -> cten) * option (res (real * real))) (b0 : bool * nat) => opt b0 s) bs (opt (rt, l) (ts, e))) with (opts bs (opt (rt, l) (ts, e))). rewrite OP.
    set (ts' := fset (fset ts l a) (l + 1) b) in *.
    destruct (IH l' m ts' (Some (Ok (x, d))) H5 (proj1 O1)) as [A1 [A2 [A3 [A4 A5]]]]; auto.
    { apply (set_mixed N maxit Hmax) with (rt := rt); auto. }
    { exact (truncated_nz _ _ _ _ O1). }
    split; [exact A1|]. split; [exact A2|]. split; [exact A3|]. split.
    + intros _. destruct bs as [|b0 bs]; [|apply A4; discriminate]. cbn. exists x, d, ph. auto.
    + intros D j HD HJ. apply (A5 D j HD). destruct (Nat.eq_dec j l) as [->|NE]; [left; apply B2; exact HD|]. destruct HJ as [HJ|[rt' [HJ|HJ]]].
      * left. rewrite B1 by auto. exact HJ.
      * injection HJ as _ HJ. congruence.
      * right. eauto.
Qed.
(** update number i of a sequence *)
Lemma trunc_each : forall bs l m ts e, path N l bs m -> on_sites ts -> cmixed N ts l -> nonzero ts -> lapack_trunc bs (ts, e) ->
  forall i, i < length bs -> let si := opts (firstn i bs) (ts, e) in let sj := opts (firstn (Datatypes.S i) bs) (ts, e) in
  exists x d ph, snd sj = Some (Ok (x, d)) /\ truncated (fst sj) x d ph /\ (x <= expect (fst si))%R.
Proof.
  intros bs l m ts e HP HO HM HZ HLA i Hi. cbv zeta.
  assert (E : exists q rest, bs = firstn i bs ++ q :: rest /\ firstn (Datatypes.S i) bs = firstn i bs ++ [q]).
  { clear - Hi. revert bs Hi. induction i as [|i IH]; intros [|q bs] Hi; cbn in Hi; try lia; [exists q, bs; split; reflexivity|]. destruct (IH bs ltac:(lia)) as [q' [rest [A B]]]. exists q', rest.
    split; [cbn [firstn app]; f_equal; exact A|]. change (firstn (Datatypes.S (Datatypes.S i)) (q :: bs)) with (q :: firstn (Datatypes.S i) bs). rewrite B. reflexivity. }
  destruct E as [[rt l1] [rest [E1 E2]]]. rewrite E1 in HP, HLA. destruct (path_split _ _ _ _ _ HP) as [mi [Pi Pr]]. apply trunc_app in HLA. destruct HLA as [Li Lr].
  destruct (trunc_opts _ _ _ ts e Pi HO HM HZ Li) as [B1 [B2 [B3 _]]].
  rewrite E2. unfold SweepSpec.opts at 1 2. rewrite fold_left_app. cbn [fold_left]. change (fold_left (fun (s : (nat -> cten) * option (res (real * real))) (b0 : bool * nat) => opt b0 s) (firstn i bs) (ts, e)) with (opts (firstn i bs) (ts, e)).
  destruct (opts (firstn i bs) (ts, e)) as [ti ei]. cbn [fst snd] in *. destruct Lr as [Lr _]. cbn [fst snd] in Lr.
  assert (l1 = mi /\ mi + 1 < N) as [-> Hm] by (inversion Pr; auto).
  destruct (trunc_one rt mi ti Hm B1 B2 B3 Lr) as [a [b [x [d [ph [U [O1 [_ [LE _]]]]]]]]]. cbv zeta in *.
  assert (OP : opt (rt, mi) (ti, ei) = (fset (fset ti mi a) (mi + 1) b, Some (Ok (x, d)))) by (unfold SweepSpec.opt; rewrite U; reflexivity).
  rewrite OP. cbn [fst snd]. exists x, d, ph. split; [reflexivity|]. split; [exact O1|exact LE].
Qed.
End Facts.
