(** An eigenstate of the whole chain is an eigenvector of the local problems. *)
From Coq Require Import List Arith Bool Lia QArith Qreals Reals Lra Ring_theory.
From Verif Require Import Base Disk SweepSpec Tdvp TdvpSpec TdvpFacts FiniteMps FmpsSpec FmpsFacts EffHam EffHamSpec EffHamFacts ChainSpec ChainFacts Legs VmpsLocal VmpsSpec VmpsEnv VmpsHeff Lanczos LanczosSpec KrylovSpec Cx KrylovInst GVec GVecFacts GVecEigen DmrgStep VmpsState ChainOne ChainPair ChainUpdate DmrgVarSpec DmrgVar ConserveSpec ConserveFacts CorrSpec EigenSpec.
Import ListNotations.
Local Open Scope nat_scope.
Notation cmps := (mps_mat cx c0 c1 cadd cmul). Notation cmpo := (mpo_mat cx c0 c1 cadd cmul).
Notation e4 := (fun v : cvec => (fun a s1 s2 b => v [a; s1; s2; b]) : nat -> nat -> nat -> nat -> cx).
Notation e3 := (fun v : cvec => (fun a s b => v [a; s; b]) : nat -> nat -> nat -> cx).

Lemma eigen_projected : forall tl tr wl w1 w2 wr D0 p1 p2 D3 x lam,
  left_basis cx c0 c1 cadd cmul cconj tl D0 -> right_basis cx c0 c1 cadd cmul cconj tr D3 ->
  (forall cl' s1' s2' cr', In cl' (configs (map (@d1 cx) tl)) -> s1' < p1 -> s2' < p2 -> In cr' (configs (map (@d1 cx) tr)) ->
     over cx c0 cadd tl tr p1 p2 (fun cl s1 s2 cr => cmul (cmpo (wl ++ [w1; w2] ++ wr) (cl ++ [s1; s2] ++ cr) (cl' ++ [s1'; s2'] ++ cr') 0 0) (whole cx c0 c1 cadd cmul tl tr D0 D3 x cl s1 s2 cr))
     = cmul lam (whole cx c0 c1 cadd cmul tl tr D0 D3 x cl' s1' s2' cr')) ->
  forall y, cdot4 D0 p1 p2 D3 y (projected cx c0 c1 cadd cmul cconj tl tr wl w1 w2 wr D0 p1 p2 D3 x) = cmul lam (cdot4 D0 p1 p2 D3 y x).
Proof.
  intros tl tr wl w1 w2 wr D0 p1 p2 D3 x lam LB RB HE y.
  rewrite (projected_form cx c0 c1 cadd cmul csub copp cx_ring cconj cconj0 cconj_add cconj_mul), <- (whole_dot cx c0 c1 cadd cmul csub copp cx_ring cconj cconj0 cconj_add cconj_mul tl tr D0 p1 p2 D3 LB RB), (over_mul cx c0 c1 cadd cmul csub copp cx_ring).
  apply (over_ext cx c0 cadd). intros cl' s1' s2' cr' I1 I2 I3 I4.
  transitivity (cmul (cconj (whole cx c0 c1 cadd cmul tl tr D0 D3 y cl' s1' s2' cr')) (cmul lam (whole cx c0 c1 cadd cmul tl tr D0 D3 x cl' s1' s2' cr'))); [|ring].
  rewrite <- HE by auto. rewrite (over_mul cx c0 c1 cadd cmul csub copp cx_ring). apply (over_ext cx c0 cadd). intros. ring.
Qed.
Lemma eigen_projected1 : forall tl tr wl w wr D0 p D2 x lam,
  left_basis cx c0 c1 cadd cmul cconj tl D0 -> right_basis cx c0 c1 cadd cmul cconj tr D2 ->
  (forall cl' s' cr', In cl' (configs (map (@d1 cx) tl)) -> s' < p -> In cr' (configs (map (@d1 cx) tr)) ->
     over1 cx c0 cadd tl tr p (fun cl s cr => cmul (cmpo (wl ++ [w] ++ wr) (cl ++ [s] ++ cr) (cl' ++ [s'] ++ cr') 0 0) (whole1 cx c0 c1 cadd cmul tl tr D0 D2 x cl s cr))
     = cmul lam (whole1 cx c0 c1 cadd cmul tl tr D0 D2 x cl' s' cr')) ->
  forall y, dot3 cx c0 cadd cmul cconj D0 p D2 y (projected1 cx c0 c1 cadd cmul cconj tl tr wl w wr D0 p D2 x) = cmul lam (dot3 cx c0 cadd cmul cconj D0 p D2 y x).
Proof.
  intros tl tr wl w wr D0 p D2 x lam LB RB HE y.
  rewrite (projected1_form cx c0 c1 cadd cmul csub copp cx_ring cconj cconj0 cconj_add cconj_mul), <- (whole1_dot cx c0 c1 cadd cmul csub copp cx_ring cconj cconj0 cconj_add cconj_mul tl tr D0 p D2 LB RB), (over1_mul cx c0 c1 cadd cmul csub copp cx_ring).
  apply (over1_ext cx c0 cadd). intros cl' s' cr' I1 I2 I3.
  transitivity (cmul (cconj (whole1 cx c0 c1 cadd cmul tl tr D0 D2 y cl' s' cr')) (cmul lam (whole1 cx c0 c1 cadd cmul tl tr D0 D2 x cl' s' cr'))); [|ring].
  rewrite <- HE by auto. rewrite (over1_mul cx c0 c1 cadd cmul csub copp cx_ring). apply (over1_ext cx c0 cadd). intros. ring.
Qed.
Lemma csum_mul : forall n k f, cmul k (csum n f) = csum n (fun i => cmul k (f i)).
Proof. induction n as [|n IH]; intros k f; cbn; [ring|]. rewrite <- IH. ring. Qed.

Section Local.
Variable N : nat.
Variable ws : nat -> cg.
Variable ds : list nat.
Notation chain := (chain N ws ds). Notation eigenstate := (eigenstate N ws ds).
Notation lenvs := (lenvs_from cx c0 cadd cmul cconj (trivial_env cx c0 c1 1 1)). Notation renvs := (renvs_from cx c0 cadd cmul cconj (trivial_env cx c0 c1 1 1)).
Lemma two_eigen : forall ts l el er x E, chain ts -> l + 1 < N -> (forall i, i < l -> cleft (cten_of (ts i))) -> (forall i, l + 1 < i < N -> cright (cten_of (ts i))) ->
  lenvs (sites l ts) (sites l ws) = Ok el -> renvs (map ts (seq (l + 2) (N - (l + 2)))) (map ws (seq (l + 2) (N - (l + 2)))) = Ok er -> gcontract cx c0 cadd cmul [2] [0] (ts l) (ts (l + 1)) = Ok x ->
  eigenstate (amp N ts) E -> same_vec (cgd x) (h_two ws l el er (cgd x) (cge x)) (g_scale (cre E) (cge x)).
Proof.
  intros ts l el er x E HC Hl HL HR LE RE X1 HE. destruct (cut2_at N ws ds ts l HC Hl) as [D0 [p1 [D [p2 [D3 [E1 [E2 [HCut [F1 F3]]]]]]]]].
  destruct (bases ts 0 l (l + 2) (N - (l + 2)) D0 D3 F1 F3) as [LB RB]; [intros; apply HL; lia|intros; apply HR; lia|].
  destruct (mul2_projected cx c0 c1 cadd cmul csub copp cx_ring cconj cconj0 cconj1 cconj_add cconj_mul _ _ _ _ _ _ _ _ _ _ HCut) as [el' [er' [L1 [R1 MP]]]]. rewrite LE in L1. injection L1 as <-. rewrite RE in R1. injection R1 as <-.
  destruct (pair_ok cx c0 cadd cmul _ _ _ _ _ _ _ E1 E2) as [x' [X1' [X2 X3]]]. rewrite X1 in X1'. injection X1' as <-. rewrite X2.
  set (tl := sites l (fun i => cten_of (ts i))) in *. set (tr := map (fun i => cten_of (ts i)) (seq (l + 2) (N - (l + 2)))) in *.
  set (wl := sites l (fun i => csite_of (ws i))). set (wr := map (fun i => csite_of (ws i)) (seq (l + 2) (N - (l + 2)))). set (w1 := csite_of (ws l)). set (w2 := csite_of (ws (l + 1))).
  set (mul := h_two ws l el er [D0; p1; p2; D3]).
  assert (WS : map csite_of (sites N ws) = wl ++ [w1; w2] ++ wr) by (unfold sites at 1; rewrite map_map; apply (sites_mid N _ (fun i => csite_of (ws i)) l Hl)).
  assert (TS : map cten_of (sites N ts) = tl ++ [cten_of (ts l); cten_of (ts (l + 1))] ++ tr) by (unfold sites at 1; rewrite map_map; apply (sites_mid N _ (fun i => cten_of (ts i)) l Hl)).
  destruct (ten_dims cx _ _ _ _ E1) as [A0 [A1 A2]]. destruct (ten_dims cx _ _ _ _ E2) as [B0 [B1 B2]].
  assert (SS : csplits D0 p1 p2 D3 (e4 (cge x)) (cten_of (ts l)) (cten_of (ts (l + 1)))).
  { split; try congruence. intros. symmetry. apply X3. }
  assert (DS : ds = map (@d1 cx) tl ++ [p1; p2] ++ map (@d1 cx) tr).
  { destruct HC as [_ HD]. rewrite <- HD, TS, !map_app. cbn [map]. rewrite A1, B1. reflexivity. }
  assert (AM : forall cl s1 s2 cr, In cl (configs (map (@d1 cx) tl)) -> s1 < p1 -> s2 < p2 -> amp N ts (cl ++ [s1; s2] ++ cr) = whole cx c0 c1 cadd cmul tl tr D0 D3 (e4 (cge x)) cl s1 s2 cr).
  { intros. unfold amp. rewrite TS. apply (mid_whole cx c0 c1 cadd cmul csub copp cx_ring) with (p1 := p1) (p2 := p2); auto. }
  apply same_ip. intros w. rewrite ip_scale'.
  transitivity (cdot4 D0 p1 p2 D3 (e4 w) (projected cx c0 c1 cadd cmul cconj tl tr wl w1 w2 wr D0 p1 p2 D3 (e4 (cge x)))).
  { rewrite ip4. unfold dot4. do 4 (apply csum_ext; intros). f_equal. unfold mul, h_two. destruct (MP (mkG cx [D0; p1; p2; D3] (cge x)) eq_refl) as [y [Y1 [_ Y2]]]. rewrite Y1, Y2 by auto. unfold sites. rewrite !map_map. reflexivity. }
  rewrite ip4. apply eigen_projected; [exact LB|exact RB|]. intros cl' s1' s2' cr' I1 I2 I3 I4.
  rewrite <- AM by auto. rewrite <- HE.
  2:{ rewrite DS. apply (in_over cx tl tr p1 p2); auto. }
  rewrite WS, <- (proj2 HC), TS, (configs_mid cx c0 c1 cadd cmul csub copp cx_ring), A1, B1. apply (over_ext cx c0 cadd). intros cl s1 s2 cr J1 J2 J3 J4. rewrite AM by auto. reflexivity.
Qed.
Lemma one_eigen : forall ts j el er E, chain ts -> j < N -> center_at N j ts ->
  lenvs (sites j ts) (sites j ws) = Ok el -> renvs (map ts (seq (j + 1) (N - 1 - j))) (map ws (seq (j + 1) (N - 1 - j))) = Ok er ->
  eigenstate (amp N ts) E -> same_vec (cgd (ts j)) (h_one ws j el er (cgd (ts j)) (cge (ts j))) (g_scale (cre E) (cge (ts j))).
Proof.
  intros ts j el er E HC Hj [HL HR] LE RE HE. destruct (cut1_at N ws ds ts j HC Hj) as [D0 [p [D2 [E1 [HCut [F1 F3]]]]]].
  destruct (bases ts 0 j (j + 1) (N - 1 - j) D0 D2 F1 F3) as [LB RB]; [intros; apply HL; lia|intros; apply HR; lia|].
  destruct (mul1_projected cx c0 c1 cadd cmul csub copp cx_ring cconj cconj0 cconj1 cconj_add cconj_mul _ _ _ _ _ _ _ _ HCut) as [el' [er' [L1 [R1 MP]]]]. rewrite LE in L1. injection L1 as <-. rewrite RE in R1. injection R1 as <-.
  rewrite E1. set (tl := sites j (fun i => cten_of (ts i))) in *. set (tr := map (fun i => cten_of (ts i)) (seq (j + 1) (N - 1 - j))) in *.
  set (wl := sites j (fun i => csite_of (ws i))). set (wr := map (fun i => csite_of (ws i)) (seq (j + 1) (N - 1 - j))). set (w := csite_of (ws j)).
  assert (WS : map csite_of (sites N ws) = wl ++ [w] ++ wr) by (unfold sites at 1; rewrite map_map; apply (sites_one N _ (fun i => csite_of (ws i)) j Hj)).
  assert (TS : map cten_of (sites N ts) = tl ++ [cten_of (ts j)] ++ tr) by (unfold sites at 1; rewrite map_map; apply (sites_one N _ (fun i => cten_of (ts i)) j Hj)).
  destruct (ten_dims cx _ _ _ _ E1) as [A0 [A1 A2]].
  assert (DS : ds = map (@d1 cx) tl ++ [p] ++ map (@d1 cx) tr).
  { destruct HC as [_ HD]. rewrite <- HD, TS, !map_app. cbn [map]. rewrite A1. reflexivity. }
  assert (AM : forall cl s cr, In cl (configs (map (@d1 cx) tl)) -> amp N ts (cl ++ [s] ++ cr) = whole1 cx c0 c1 cadd cmul tl tr D0 D2 (e3 (cge (ts j))) cl s cr).
  { intros cl s cr I1. unfold amp. rewrite TS, <- A0, <- A2. symmetry. apply (whole1_mps cx c0 c1 cadd cmul csub copp cx_ring); [rewrite A0; exact F1|]. apply configs_len in I1. rewrite map_length in I1. exact I1. }
  apply same_ip. intros u. rewrite ip_scale'.
  transitivity (dot3 cx c0 cadd cmul cconj D0 p D2 (e3 u) (projected1 cx c0 c1 cadd cmul cconj tl tr wl w wr D0 p D2 (e3 (cge (ts j))))).
  { rewrite ip3. unfold dot3. do 3 (apply csum_ext; intros). f_equal. unfold h_one. destruct (MP (mkG cx [D0; p; D2] (cge (ts j))) eq_refl) as [y [Y1 [_ Y2]]]. rewrite Y1, Y2 by auto. unfold sites. rewrite !map_map. reflexivity. }
  rewrite ip3. apply eigen_projected1; [exact LB|exact RB|]. intros cl' s' cr' I1 I2 I3.
  rewrite <- AM by auto. rewrite <- HE.
  2:{ rewrite DS. apply (in_over1 cx tl tr p); auto. }
  rewrite WS, DS, (configs_mid1 cx c0 c1 cadd cmul csub copp cx_ring). apply (over1_ext cx c0 cadd). intros cl s cr J1 J2 J3. rewrite AM by auto. reflexivity.
Qed.
(** amplitudes after a local vector has been multiplied by a number *)
Lemma two_times : forall ts l x a b y z, chain ts -> l + 1 < N -> gcontract cx c0 cadd cmul [2] [0] (ts l) (ts (l + 1)) = Ok x -> same_vec (cgd x) y (g_scale z (cge x)) ->
  csplits (nth 0 (cgd x) 0) (nth 1 (cgd x) 0) (nth 2 (cgd x) 0) (nth 3 (cgd x) 0) (e4 y) (cten_of a) (cten_of b) -> times N ds z (fset (fset ts l a) (l + 1) b) ts.
Proof.
  intros ts l x a b y z HC Hl X1 SV SP c Ic. destruct (cut2_at N ws ds ts l HC Hl) as [D0 [p1 [D [p2 [D3 [E1 [E2 [HCut [F1 F3]]]]]]]]].
  destruct (pair_ok cx c0 cadd cmul _ _ _ _ _ _ _ E1 E2) as [x' [X1' [X2 X3]]]. rewrite X1 in X1'. injection X1' as <-. rewrite X2 in SP, SV. cbn [nth] in SP.
  set (tl := sites l (fun i => cten_of (ts i))) in *. set (tr := map (fun i => cten_of (ts i)) (seq (l + 2) (N - (l + 2)))) in *.
  assert (TS : map cten_of (sites N ts) = tl ++ [cten_of (ts l); cten_of (ts (l + 1))] ++ tr) by (unfold sites at 1; rewrite map_map; apply (sites_mid N _ (fun i => cten_of (ts i)) l Hl)).
  assert (TS' : map cten_of (sites N (fset (fset ts l a) (l + 1) b)) = tl ++ [cten_of a; cten_of b] ++ tr).
  { rewrite (sites_set N _ _ _ _ _ Hl), !map_app. cbn [map]. unfold sites. rewrite !map_map. reflexivity. }
  destruct (ten_dims cx _ _ _ _ E1) as [A0 [A1 A2]]. destruct (ten_dims cx _ _ _ _ E2) as [B0 [B1 B2]].
  assert (SS : csplits D0 p1 p2 D3 (e4 (cge x)) (cten_of (ts l)) (cten_of (ts (l + 1)))).
  { split; try congruence. intros. symmetry. apply X3. }
  assert (DS : ds = map (@d1 cx) tl ++ [p1; p2] ++ map (@d1 cx) tr).
  { destruct HC as [_ HD]. rewrite <- HD, TS, !map_app. cbn [map]. rewrite A1, B1. reflexivity. }
  rewrite DS in Ic. destruct (configs_in_app _ _ _ Ic) as [cl [c2 [-> [J1 J2]]]]. destruct (configs_in_app _ _ _ J2) as [cm [cr [-> [J3 J4]]]].
  destruct cm as [|s1 [|s2 [|? ?]]]; try (apply configs_len in J3; discriminate).
  assert (s1 < p1 /\ s2 < p2) as [Q1 Q2].
  { cbn [configs] in J3. apply in_flat_map in J3. destruct J3 as [u [U1 U2]]. apply in_map_iff in U2. destruct U2 as [k [U2 U3]]. apply in_flat_map in U3. destruct U3 as [v [V1 V2]]. apply in_map_iff in V2. destruct V2 as [k' [V2 V3]]. injection U2 as -> ->. injection V2 as -> _. apply in_seq in U1, V1. lia. }
  unfold amp. rewrite TS, TS'.
  rewrite (mid_whole cx c0 c1 cadd cmul csub copp cx_ring tl tr _ _ (e4 y) D0 p1 p2 D3) by auto. rewrite (mid_whole cx c0 c1 cadd cmul csub copp cx_ring tl tr _ _ (e4 (cge x)) D0 p1 p2 D3) by auto.
  unfold whole. rewrite csum_mul. apply csum_ext. intros i Hi. rewrite csum_mul. apply csum_ext. intros k Hk. rewrite (SV [i; s1; s2; k]); [unfold g_scale; ring|].
  cbn [configs]. repeat (apply in_flat_map; eexists; split; [apply in_seq; split; [apply Nat.le_0_l|cbn; eassumption]|]; apply in_map). left. reflexivity.
Qed.
Lemma one_times : forall ts j g z, chain ts -> j < N -> same_vec (cgd (ts j)) g (g_scale z (cge (ts j))) -> times N ds z (fset ts j (mkG cx (cgd (ts j)) g)) ts.
Proof.
  intros ts j g z HC Hj SV c Ic. destruct (cut1_at N ws ds ts j HC Hj) as [D0 [p [D2 [E1 [HCut [F1 F3]]]]]]. rewrite E1 in *.
  set (tl := sites j (fun i => cten_of (ts i))) in *. set (tr := map (fun i => cten_of (ts i)) (seq (j + 1) (N - 1 - j))) in *.
  assert (TS : map cten_of (sites N ts) = tl ++ [cten_of (ts j)] ++ tr) by (unfold sites at 1; rewrite map_map; apply (sites_one N _ (fun i => cten_of (ts i)) j Hj)).
  assert (TS' : map cten_of (sites N (fset ts j (mkG cx [D0; p; D2] g))) = tl ++ [cten_of (mkG cx [D0; p; D2] g)] ++ tr).
  { rewrite (sites_set1 N _ _ _ _ Hj), !map_app. cbn [map]. unfold sites. rewrite !map_map. reflexivity. }
  destruct (ten_dims cx _ _ _ _ E1) as [A0 [A1 A2]].
  assert (DS : ds = map (@d1 cx) tl ++ [p] ++ map (@d1 cx) tr).
  { destruct HC as [_ HD]. rewrite <- HD, TS, !map_app. cbn [map]. rewrite A1. reflexivity. }
  rewrite DS in Ic. destruct (configs_in_app _ _ _ Ic) as [cl [c2 [-> [J1 J2]]]]. destruct (configs_in_app _ _ _ J2) as [cm [cr [-> [J3 J4]]]].
  destruct cm as [|s [|? ?]]; try (apply configs_len in J3; discriminate).
  assert (s < p) as Q1.
  { cbn [configs] in J3. apply in_flat_map in J3. destruct J3 as [u [U1 U2]]. apply in_map_iff in U2. destruct U2 as [k [U2 U3]]. injection U2 as -> _. apply in_seq in U1. lia. }
  apply configs_len in J1. rewrite map_length in J1.
  unfold amp. rewrite TS, TS'.
  rewrite <- (whole1_mps cx c0 c1 cadd cmul csub copp cx_ring tl (cten_of (mkG cx [D0; p; D2] g)) tr cl s cr) by (try exact F1; exact J1).
  rewrite <- (whole1_mps cx c0 c1 cadd cmul csub copp cx_ring tl (cten_of (ts j)) tr cl s cr) by (try (rewrite A0; exact F1); exact J1). rewrite A0, A2.
  unfold whole1. cbn [d0 d2 el Legs.ten_of gd ge nth]. rewrite csum_mul. apply csum_ext. intros i Hi. rewrite csum_mul. apply csum_ext. intros k Hk. rewrite (SV [i; s; k]); [unfold g_scale; ring|].
  cbn [configs]. repeat (apply in_flat_map; eexists; split; [apply in_seq; split; [apply Nat.le_0_l|cbn; eassumption]|]; apply in_map). left. reflexivity.
Qed.
(** an eigenstate times a number *)
Lemma times_eigen : forall z ts ts' E, times N ds z ts' ts -> eigenstate (amp N ts) E -> eigenstate (amp N ts') E.
Proof.
  intros z ts ts' E HT HE c' Ic. rewrite (HT c' Ic). transitivity (cmul z (cmul (cre E) (amp N ts c'))); [|ring]. rewrite <- (HE c' Ic). rewrite (lsum_mul_l cx c0 c1 cadd cmul csub copp cx_ring).
  apply (lsum_ext cx c0 cadd). intros c J. rewrite (HT c J). ring.
Qed.
Lemma times_trans : forall z1 z2 t0 t1 t2, times N ds z1 t1 t0 -> times N ds z2 t2 t1 -> times N ds (cmul z2 z1) t2 t0.
Proof. intros z1 z2 t0 t1 t2 H1 H2 c Ic. rewrite (H2 c Ic), (H1 c Ic). ring. Qed.
End Local.
