(** Updates with a truncated decomposition: what is kept, the energy of the update, bond dimensions. *)
From Coq Require Import List Arith Bool Lia QArith Qreals Reals Lra Ring_theory.
From Verif Require Import Base Disk SweepSpec Tdvp TdvpSpec TdvpFacts FiniteMps FmpsSpec FmpsFacts EffHam EffHamSpec EffHamFacts ChainSpec ChainFacts Legs VmpsLocal VmpsSpec VmpsEnv VmpsHeff Lanczos LanczosSpec KrylovSpec Cx KrylovInst GVec GVecFacts DmrgStep ChainOne ChainPair ChainUpdate DmrgVarSpec DmrgVar ConserveSpec ConserveFacts ConserveRun ConserveVmps ConserveInst CorrSpec CorrRun TruncUpdate TruncSpec.
Import ListNotations.
Local Open Scope nat_scope.

Lemma exact_trunc : forall svd, exact_gsvd svd -> trunc_gsvd (fun _ => 0%R) svd.
Proof.
  intros svd ES [xd x] D0 p1 p2 D3 E. cbv zeta. intros _. destruct (ES (mkG cx xd x) _ _ _ _ E) as [A B]. exists x. split; [exact A|]. split; [exact B|]. split; [reflexivity|]. split; [|lra].
  cbn [gd ge]. destruct (g_ip xd x x) as [a b]. unfold cmul, cre. cbn [fst snd]. f_equal; ring.
Qed.
Lemma update_same : forall ws stev maxit size svd err close rt l el a b er,
  v_update ws stev maxit size svd close rt l el a b er = let '(x, y, e) := v_update_e ws stev maxit size svd err close rt l el a b er in (x, y, let! e := e in Ok (fst e)).
Proof.
  intros. unfold v_update, v_update_e. destruct el as [el| |]; try reflexivity. destruct a as [a| |]; try reflexivity. destruct b as [b| |]; try reflexivity. destruct er as [er| |]; try reflexivity. cbn [bind].
  destruct (gcontract cx c0 cadd cmul [2] [0] a b) as [x| |]; try reflexivity. cbn [bind]. destruct (mul2 cx c0 cadd cmul el (ws l) (ws (l + 1)) er x); try reflexivity. cbn [bind].
  destruct (g_lanczos _ _ _ _ _ _ _) as [[r g]| |]; try reflexivity. cbn [bind]. destruct (split2 _ _ _ _ _ _ _) as [[u v]| |]; reflexivity.
Qed.

Section Facts.
Variable N : nat.
Variable ws : nat -> cg.
Variable ds : list nat.
Notation chain := (chain N ws ds). Notation sq_norm := (sq_norm N). Notation energy_val := (energy_val N ws). Notation holds := (holds N). Notation mixed_at := (mixed_at N).
Notation energy_ratio := (energy_ratio N ws). Notation has_energy := (has_energy N ws). Notation overlap := (chain_overlap N ds).
Notation e4 := (fun v : cvec => (fun a s1 s2 b => v [a; s1; s2; b]) : nat -> nat -> nat -> nat -> cx).
Notation lenv := (left_env (res cg) (res cg) w_triv (w_grow ws)). Notation renv := (right_env (res cg) (res cg) w_triv (w_grow ws) N).

Lemma bounded_chain : forall lam ts, bounded_below N ws ds lam -> chain ts -> (lam * fst (sq_norm ts) <= fst (energy_val ts))%R.
Proof.
  intros lam ts HB HC. rewrite <- (weight_norm N ws ds ts HC). eapply Rle_trans; [apply HB|]. right. f_equal. unfold ConserveSpec.energy_val, EffHamSpec.energy. destruct HC as [_ HD]. rewrite HD. reflexivity.
Qed.
Lemma bounded_has : forall lam ts e, bounded_below N ws ds lam -> chain ts -> has_energy ts e -> (lam <= e)%R.
Proof. intros lam ts e HB HC [H1 H2]. pose proof (bounded_chain lam ts HB HC) as P. rewrite H1, H2 in P. cbn [fst c1 cre] in P. lra. Qed.

(** two chains that differ in two neighbouring tensors, with orthonormal bases on both sides *)
Lemma overlap_splits : forall ts l a b a' b' y y' D0 p1 p2 D3, chain ts -> l + 1 < N -> (forall i, i < l -> cleft (cten_of (ts i))) -> (forall i, l + 1 < i < N -> cright (cten_of (ts i))) ->
  chain (fset (fset ts l a) (l + 1) b) -> chain (fset (fset ts l a') (l + 1) b') -> cgd (ts l) = [D0; p1; nth 2 (cgd (ts l)) 0] -> cgd (ts (l + 1)) = [nth 2 (cgd (ts l)) 0; p2; D3] ->
  csplits D0 p1 p2 D3 (e4 y) (cten_of a) (cten_of b) -> csplits D0 p1 p2 D3 (e4 y') (cten_of a') (cten_of b') ->
  overlap (fset (fset ts l a) (l + 1) b) (fset (fset ts l a') (l + 1) b') = g_ip [D0; p1; p2; D3] y' y.
Proof.
  intros ts l a b a' b' y y' D0 p1 p2 D3 HC Hl HL HR HC1 HC2 E1 E2 SP SP'. destruct (cut2_at N ws ds ts l HC Hl) as [D0' [q1 [D [q2 [D3' [G1 [G2 [_ [F1 F3]]]]]]]]].
  rewrite E1 in G1. injection G1 as <- <- _. rewrite E2 in G2. injection G2 as _ <- <-.
  destruct (bases ts 0 l (l + 2) (N - (l + 2)) D0 D3 F1 F3) as [LB RB]; [intros; apply HL; lia|intros; apply HR; lia|].
  set (tl := sites l (fun i => cten_of (ts i))) in *. set (tr := map (fun i => cten_of (ts i)) (seq (l + 2) (N - (l + 2)))) in *.
  assert (TS : forall a b, map cten_of (sites N (fset (fset ts l a) (l + 1) b)) = tl ++ [cten_of a; cten_of b] ++ tr).
  { intros u v. rewrite (sites_set N _ _ _ _ _ Hl), !map_app. cbn [map]. unfold sites. rewrite !map_map. reflexivity. }
  unfold chain_overlap. rewrite <- (proj2 HC1), TS. unfold amp. rewrite !TS.
  rewrite (configs_mid cx c0 c1 cadd cmul csub copp cx_ring), ip4. rewrite <- (whole_dot cx c0 c1 cadd cmul csub copp cx_ring cconj cconj0 cconj_add cconj_mul tl tr D0 p1 p2 D3 LB RB).
  rewrite (fa_1 _ _ _ _ _ _ _ _ _ _ _ SP), (fa_2 _ _ _ _ _ _ _ _ _ _ _ SP). apply (over_ext cx c0 cadd). intros cl s1 s2 cr I1 I2 I3 I4.
  rewrite (mid_whole cx c0 c1 cadd cmul csub copp cx_ring tl tr _ _ (e4 y) D0 p1 p2 D3 cl s1 s2 cr F1 SP I1 I2 I3).
  rewrite (mid_whole cx c0 c1 cadd cmul csub copp cx_ring tl tr _ _ (e4 y') D0 p1 p2 D3 cl s1 s2 cr F1 SP' I1 I2 I3). reflexivity.
Qed.

(** bonds other than l keep their dimensions *)
Lemma bond_set : forall ts l a b j, l + 1 < N -> chain ts -> chain (fset (fset ts l a) (l + 1) b) -> j + 1 < N -> j <> l -> bond_dim (fset (fset ts l a) (l + 1) b) j = bond_dim ts j.
Proof.
  intros ts l a b j Hl HC HC' Hj NE. unfold bond_dim. destruct (Nat.eq_dec j (l + 1)) as [->|N1].
  - destruct (cut2_at N ws ds _ (l + 1) HC ltac:(lia)) as [? [? [D [? [? [G1 [G2 _]]]]]]]. destruct (cut2_at N ws ds _ (l + 1) HC' ltac:(lia)) as [? [? [D' [? [? [K1 [K2 _]]]]]]].
    rewrite G1, K1. cbn [nth]. unfold fset in K2. replace (l + 1 + 1 =? l + 1) with false in K2 by (symmetry; apply Nat.eqb_neq; lia). replace (l + 1 + 1 =? l) with false in K2 by (symmetry; apply Nat.eqb_neq; lia). rewrite G2 in K2. injection K2. auto.
  - unfold fset. replace (j =? l + 1) with false by (symmetry; apply Nat.eqb_neq; lia). replace (j =? l) with false by (symmetry; apply Nat.eqb_neq; lia). reflexivity.
Qed.

Section Trunc.
Hypothesis HH : hermitian_chain N ws ds.
Variables (svd : nat -> cg -> cg * cg * cg) (err : cg -> real).
Hypothesis ET : trunc_gsvd err svd.
(** the local problem; [g] is split, [ph] is the chain that [g] stands for *)
Lemma trunc_problem : forall ts l, chain ts -> l + 1 < N -> (forall i, i < l -> cleft (cten_of (ts i))) -> (forall i, l + 1 < i < N -> cright (cten_of (ts i))) ->
  exists el er x z, lenvs_from cx c0 cadd cmul cconj (trivial_env cx c0 c1 1 1) (sites l ts) (sites l ws) = Ok el /\
  renvs_from cx c0 cadd cmul cconj (trivial_env cx c0 c1 1 1) (map ts (seq (l + 2) (N - (l + 2)))) (map ws (seq (l + 2) (N - (l + 2)))) = Ok er /\
  gcontract cx c0 cadd cmul [2] [0] (ts l) (ts (l + 1)) = Ok x /\ mul2 cx c0 cadd cmul el (ws l) (ws (l + 1)) er x = Ok z /\
  let ip := g_ip (cgd x) in let mul := h_two ws l el er (cgd x) in
  (forall u v, ip (mul u) v = ip u (mul v)) /\ ip (cge x) (cge x) = sq_norm ts /\ ip (mul (cge x)) (cge x) = energy_val ts /\
  forall (rt : bool) g, ip g g <> c0 -> exists a b ph, split2 cx c0 cadd cmul svd rt (mkG cx (cgd x) g) = Ok (a, b) /\
    let ts' := fset (fset ts l a) (l + 1) b in let d := err (mkG cx (cgd x) g) in
    chain ts' /\ (if rt then cleft (cten_of a) else cright (cten_of b)) /\ (0 <= d < 1)%R /\
    chain ph /\ sq_norm ph = ip g g /\ energy_val ph = ip (mul g) g /\
    sq_norm ts' = cmul (cre (1 - d)) (ip g g) /\ overlap ts' ph = cmul (cre (1 - d)) (ip g g) /\
    (forall j, j + 1 < N -> j <> l -> bond_dim ts' j = bond_dim ts j) /\
    (forall D, capped_gsvd D svd -> bond_dim ts' l <= D).
Proof.
  intros ts l HC Hl HL HR. destruct (cut2_at N ws ds ts l HC Hl) as [D0 [p1 [D [p2 [D3 [E1 [E2 _]]]]]]].
  destruct (pair_ok cx c0 cadd cmul _ _ _ _ _ _ _ E1 E2) as [x [X1 [X2 _]]].
  destruct (two_problem_to N ws ds HH svd ts l HC Hl HL HR) as [el [er [x1 [z [A1 [A2 [A3 [A4 [A5 [A6 [A7 SP]]]]]]]]]]]. rewrite X1 in A3. injection A3 as <-.
  destruct (two_problem_to N ws ds HH y_svd ts l HC Hl HL HR) as [el2 [er2 [x2 [z2 [B1 [B2 [B3 [B4 [_ [_ [_ SE]]]]]]]]]]]. rewrite X1 in B3. injection B3 as <-. rewrite A1 in B1. injection B1 as <-. rewrite A2 in B2. injection B2 as <-.
  cbv zeta in *. exists el, er, x, z. split; [exact A1|]. split; [exact A2|]. split; [exact X1|]. split; [exact A4|]. split; [exact A5|]. split; [exact A6|]. split; [exact A7|].
  intros rt g NG. destruct (ET (mkG cx (cgd x) g) _ _ _ _ X2 NG) as [y [FA [CA [Y1 [Y2 Y3]]]]]. cbn [gd ge] in *.
  destruct (SP rt g y FA CA) as [a [b [S1 [S2 [S3 [S4 [S5 [S6 S7]]]]]]]].
  destruct (y_svd_ok (mkG cx (cgd x) g) _ _ _ _ X2) as [FE CE]. destruct (SE rt g g FE CE) as [a' [b' [_ [P2 [_ [P4 [P5 [P6 _]]]]]]]].
  rewrite X2 in S6, P6. cbn [nth] in S6, P6.
  exists a, b, (fset (fset ts l a') (l + 1) b'). split; [exact S1|]. split; [exact S2|]. split; [exact S3|]. split; [exact Y3|]. split; [exact P2|]. split; [exact P4|]. split; [exact P5|]. split; [|split; [|split]].
  - rewrite S4. exact Y2.
  - rewrite (overlap_splits ts l a b a' b' y g D0 p1 p2 D3 HC Hl HL HR S2 P2); [|rewrite E1; reflexivity|rewrite E1, E2; reflexivity|exact S6|exact P6].
    rewrite X2 in *. rewrite <- Y2, <- (g_conj _ y g), Y1. apply g_conj.
  - intros j Hj NE. apply (bond_set ts l a b j Hl HC S2 Hj NE).
  - intros Dm HCap. specialize (HCap (mkG cx (cgd x) g) _ _ _ _ X2). destruct (svd 2 (mkG cx (cgd x) g)) as [[u s] vt]. cbn [fst snd] in S7. destruct HCap as [Q1 Q2].
    unfold bond_dim, fset. replace (l =? l + 1) with false by (symmetry; apply Nat.eqb_neq; lia). rewrite Nat.eqb_refl. destruct rt.
    + subst a. exact Q1.
    + subst b. pose proof (fa_m _ _ _ _ _ _ _ _ _ _ _ S6) as M. cbn [Legs.ten_of d2 d0] in M. rewrite M. exact Q2.
Qed.
End Trunc.
End Facts.
