(** Noised two-site VMPS without truncation: what an update does to chain, energy and noise. *)
From Coq Require Import List Arith Bool Lia QArith Qreals Reals Lra Ring_theory.
From Verif Require Import Base Disk SweepSpec NoiseSpec FiniteMps FmpsSpec FmpsFacts EffHam EffHamSpec EffHamFacts ChainSpec ChainFacts Legs VmpsLocal VmpsSpec VmpsEnv VmpsHeff VmpsState Lanczos LanczosSpec KrylovSpec Cx KrylovInst GVec GVecFacts DmrgStep ChainOne ChainPair ChainSplit ChainUpdate DmrgVarSpec DmrgVar ConserveSpec ConserveFacts ConserveRun ConserveVmps SingleUpdate SingleVarSpec SingleVar NoiseUpdate NoiseChain NoiseVarSpec.
Import ListNotations.
Local Open Scope nat_scope.

Section Sites.
Variable N : nat.
Lemma sites_three : forall A (f : nat -> A) l, l + 2 < N -> sites N f = sites l f ++ [f l; f (l + 1); f (l + 2)] ++ map f (seq (l + 3) (N - (l + 3))).
Proof.
  intros A f l H. unfold sites. replace N with (l + (3 + (N - (l + 3)))) at 1 by lia. rewrite seq_app, map_app, Nat.add_0_l. f_equal.
  cbn [Nat.add seq map app]. replace (S (S (S l))) with (l + 3) by lia. replace (S (S l)) with (l + 2) by lia. replace (S l) with (l + 1) by lia. reflexivity.
Qed.
End Sites.
Lemma fset_in : forall A (f : nat -> A) i x, fset f i x i = x.
Proof. intros. unfold fset. rewrite Nat.eqb_refl. reflexivity. Qed.
Lemma fset_out : forall A (f : nat -> A) i x j, j <> i -> fset f i x j = f j.
Proof. intros A f i x j H. unfold fset. apply Nat.eqb_neq in H. rewrite H. reflexivity. Qed.

Section Triple.
Variable N : nat.
Variable ws : nat -> cg.
Variable ds : list nat.
Notation chain := (chain N ws ds). Notation sq_norm := (sq_norm N). Notation energy_val := (energy_val N ws).
Notation mat := (mps_mat cx c0 c1 cadd cmul).
(** three neighbours replaced by tensors with the same product *)
Lemma set_triple : forall ts ts' l D0 p0 D1 p1 D2 p2 D3 K1 K2, chain ts -> l + 2 < N ->
  cgd (ts l) = [D0; p0; D1] -> cgd (ts (l + 1)) = [D1; p1; D2] -> cgd (ts (l + 2)) = [D2; p2; D3] ->
  cgd (ts' l) = [D0; p0; K1] -> cgd (ts' (l + 1)) = [K1; p1; K2] -> cgd (ts' (l + 2)) = [K2; p2; D3] ->
  (forall i, i < N -> i <> l -> i <> l + 1 -> i <> l + 2 -> ts' i = ts i) ->
  (forall s0 s1 s2 x y, s0 < p0 -> s1 < p1 -> s2 < p2 -> x < D0 -> y < D3 ->
    mat [cten_of (ts' l); cten_of (ts' (l + 1)); cten_of (ts' (l + 2))] [s0; s1; s2] x y = mat [cten_of (ts l); cten_of (ts (l + 1)); cten_of (ts (l + 2))] [s0; s1; s2] x y) ->
  chain ts' /\ sq_norm ts' = sq_norm ts /\ energy_val ts' = energy_val ts.
Proof.
  intros ts ts' l D0 p0 D1 p1 D2 p2 D3 K1 K2 HC Hl E1 E2 E3 S1 S2 S3 HO HE.
  destruct (ten_dims cx _ _ _ _ E1) as [A0 [A1 A2]]. destruct (ten_dims cx _ _ _ _ E2) as [B0 [B1 B2]]. destruct (ten_dims cx _ _ _ _ E3) as [C0 [C1 C2]].
  destruct (ten_dims cx _ _ _ _ S1) as [P0 [P1 P2]]. destruct (ten_dims cx _ _ _ _ S2) as [Q0 [Q1 Q2]]. destruct (ten_dims cx _ _ _ _ S3) as [U0 [U1 U2]].
  assert (HC' := HC). apply chain_iff in HC'. destruct HC' as [HS [HF [HW HD]]].
  rewrite (sites_three N _ _ l Hl) in HF. destruct (fit_inv _ _ _ _ _ HF) as [X [F1 FX]]. cbn [app fit] in FX. destruct FX as [FX [_ [_ F3]]]. rewrite A0 in FX. subst X. rewrite C2 in F3.
  set (tl := sites l (fun i => cten_of (ts i))) in *. set (tr := map (fun i => cten_of (ts i)) (seq (l + 3) (N - (l + 3)))) in *.
  assert (TS : map cten_of (sites N ts) = tl ++ [cten_of (ts l); cten_of (ts (l + 1)); cten_of (ts (l + 2))] ++ tr) by (unfold sites at 1; rewrite map_map; apply (sites_three N _ (fun i => cten_of (ts i)) l Hl)).
  assert (TS' : map cten_of (sites N ts') = tl ++ [cten_of (ts' l); cten_of (ts' (l + 1)); cten_of (ts' (l + 2))] ++ tr).
  { unfold sites at 1. rewrite map_map. transitivity (sites l (fun i => cten_of (ts' i)) ++ [cten_of (ts' l); cten_of (ts' (l + 1)); cten_of (ts' (l + 2))] ++ map (fun i => cten_of (ts' i)) (seq (l + 3) (N - (l + 3)))).
    - apply (sites_three N _ (fun i => cten_of (ts' i)) l Hl).
    - f_equal; [|apply (f_equal (fun z => [cten_of (ts' l); cten_of (ts' (l + 1)); cten_of (ts' (l + 2))] ++ z))]; apply map_ext_in; intros i Hi; apply in_seq in Hi; rewrite HO by lia; reflexivity. }
  assert (FM : fit cx D0 [cten_of (ts l); cten_of (ts (l + 1)); cten_of (ts (l + 2))] D3) by (cbn [fit]; rewrite A0, A2, B0, B2, C0, C2; auto).
  assert (FM' : fit cx D0 [cten_of (ts' l); cten_of (ts' (l + 1)); cten_of (ts' (l + 2))] D3) by (cbn [fit]; rewrite P0, P2, Q0, Q2, U0, U2; auto).
  assert (SM : csame (map cten_of (sites N ts)) (map cten_of (sites N ts'))).
  { rewrite TS, TS'. apply (mid_same cx c0 c1 cadd cmul csub copp cx_ring _ _ _ _ D0 D3 F1 FM FM'); [cbn [map]; congruence|].
    intros c x y Hc Hx Hy. cbn [map] in Hc. rewrite A1, B1, C1 in Hc. destruct (cfg3 _ _ _ _ Hc) as [s0 [s1 [s2 [-> [H0 [H1 H2]]]]]]. apply HE; auto. }
  split; [|unfold ConserveSpec.sq_norm, ConserveSpec.energy_val; split; [apply (same_norm2 cx c0 c1 cadd cmul cconj); exact SM|apply (same_energy cx c0 c1 cadd cmul cconj); exact SM]].
  unfold ConserveSpec.chain, part. rewrite TS'. split; [split; [|split]|].
  - unfold sites. apply Forall2_map, Forall_forall. intros i Hi. apply in_seq in Hi.
    destruct (Nat.eq_dec i l) as [->|N0]; [|destruct (Nat.eq_dec i (l + 1)) as [->|N1]; [|destruct (Nat.eq_dec i (l + 2)) as [->|N2]]].
    + destruct (HS l ltac:(lia)) as [? [? [? [m [n [U V]]]]]]. rewrite E1 in U. injection U as <- <- <-. exists D0, p0, K1, m, n. auto.
    + destruct (HS (l + 1) ltac:(lia)) as [? [? [? [m [n [U V]]]]]]. rewrite E2 in U. injection U as <- <- <-. exists K1, p1, K2, m, n. auto.
    + destruct (HS (l + 2) ltac:(lia)) as [? [? [? [m [n [U V]]]]]]. rewrite E3 in U. injection U as <- <- <-. exists K2, p2, D3, m, n. auto.
    + rewrite HO by lia. apply HS. lia.
  - apply (fit_app cx) with (D := D0); [exact F1|]. apply (fit_app cx) with (D := D3); [exact FM'|exact F3].
  - unfold sites. rewrite map_map. exact HW.
  - destruct HC as [_ HD']. rewrite <- HD', TS, !map_app. cbn [map]. congruence.
Qed.
End Triple.

Section Hand.
Variable svd : nat -> cg -> cg * cg * cg.
Hypothesis ES : exact_gsvd svd.
Variables (normal : cg -> bool) (mock : cg -> cg).
Hypothesis HM : mock_legs mock.
Notation mat := (mps_mat cx c0 c1 cadd cmul). Notation e4 := (elems4 cx).
Lemma hand3_r : forall need el w1 w2 er g c n D0 M0 p1 M1 p2 M2 D3 q D4, cgd el = [D0; M0; D0] -> cgd w1 = [M0; p1; p1; M1] -> cgd w2 = [M1; p2; p2; M2] -> cgd g = [D0; p1; p2; D3] -> cgd c = [D3; q; D4] ->
  exists a b z K L, n_hand svd normal mock true need el w1 w2 er g c n = Ok (a, b, z) /\ cgd a = [D0; p1; K] /\ cgd b = [K; p2; L] /\ cgd z = [L; q; D4] /\ cleft (cten_of a) /\
  forall u v, csplits D0 p1 p2 D3 (e4 g) u v -> forall s1 s2 s3 x y, s1 < p1 -> s2 < p2 -> s3 < q -> x < D0 -> y < D4 ->
    mat [cten_of a; cten_of b; cten_of z] [s1; s2; s3] x y = mat [u; v; cten_of c] [s1; s2; s3] x y.
Proof.
  intros need el w1 w2 er g c n D0 M0 p1 M1 p2 M2 D3 q D4 E0 E1 E2 E3 E4.
  assert (exists x z L, (if need then expand2_r cx c0 cadd cmul mock (normal g) el w1 w2 g c (cre n) else Ok (g, c)) = Ok (x, z) /\ cgd x = [D0; p1; p2; L] /\ cgd z = [L; q; D4] /\
    forall a s1 s2 s3 y, sumn cx c0 cadd L (fun k => cmul (e4 x a s1 s2 k) (cge z [k; s3; y])) = sumn cx c0 cadd D3 (fun k => cmul (e4 g a s1 s2 k) (cge c [k; s3; y]))) as [x [z [L [X1 [X2 [X3 X4]]]]]].
  { destruct need; [|exists g, c, D3; auto].
    destruct (expand2_r_three cx c0 c1 cadd cmul csub copp cx_ring mock (normal g) el w1 w2 g c (cre n) _ _ _ _ _ _ _ _ _ E0 E1 E2 E3 E4) as [L [x [z H]]]; [|exists x, z, L; exact H].
    intros _ t Ht. apply (HM t _ _ _ _ Ht). }
  unfold n_hand. rewrite X1. cbn [bind]. destruct (ES x _ _ _ _ X2) as [F CL].
  destruct (split2_pair cx c0 c1 cadd cmul csub copp cx_ring svd true x _ _ _ _ X2 F) as [a [b [K [S1 [S2 [S3 [S4 S5]]]]]]]. rewrite S1. cbn [bind].
  exists a, b, z, K, L. split; [reflexivity|]. split; [exact S2|]. split; [exact S3|]. split; [exact X3|]. split; [destruct (svd 2 x) as [[? ?] ?]; cbn [fst] in S5; subst; tauto|].
  intros u v SP s1 s2 s3 i y H1 H2 H3 Hi Hy. destruct (ten_dims cx _ _ _ _ X3) as [_ [_ Z]]. destruct (ten_dims cx _ _ _ _ E4) as [_ [_ C]].
  rewrite (three_r cx c0 c1 cadd cmul csub copp cx_ring _ _ _ (e4 x) D0 p1 p2 L) by (rewrite ?Z; auto). rewrite (three_r cx c0 c1 cadd cmul csub copp cx_ring _ _ _ (e4 g) D0 p1 p2 D3) by (rewrite ?C; auto).
  apply X4.
Qed.
Lemma hand3_l : forall need el w1 w2 er g c n D0 M0 p1 M1 p2 M2 D3 q D, cgd er = [D3; M2; D3] -> cgd w1 = [M0; p1; p1; M1] -> cgd w2 = [M1; p2; p2; M2] -> cgd g = [D0; p1; p2; D3] -> cgd c = [D; q; D0] ->
  exists a b z K L, n_hand svd normal mock false need el w1 w2 er g c n = Ok (a, b, z) /\ cgd z = [D; q; L] /\ cgd a = [L; p1; K] /\ cgd b = [K; p2; D3] /\ cright (cten_of b) /\
  forall u v, csplits D0 p1 p2 D3 (e4 g) u v -> forall s0 s1 s2 x y, s0 < q -> s1 < p1 -> s2 < p2 -> x < D -> y < D3 ->
    mat [cten_of z; cten_of a; cten_of b] [s0; s1; s2] x y = mat [cten_of c; u; v] [s0; s1; s2] x y.
Proof.
  intros need el w1 w2 er g c n D0 M0 p1 M1 p2 M2 D3 q D E0 E1 E2 E3 E4.
  assert (exists x z L, (if need then expand2_l cx c0 cadd cmul w1 w2 er g c (cre n) else Ok (g, c)) = Ok (x, z) /\ cgd x = [L; p1; p2; D3] /\ cgd z = [D; q; L] /\
    forall a s0 s1 s2 y, sumn cx c0 cadd L (fun k => cmul (cge z [a; s0; k]) (e4 x k s1 s2 y)) = sumn cx c0 cadd D0 (fun k => cmul (cge c [a; s0; k]) (e4 g k s1 s2 y))) as [x [z [L [X1 [X2 [X3 X4]]]]]].
  { destruct need; [|exists g, c, D0; auto].
    destruct (expand2_l_three cx c0 c1 cadd cmul csub copp cx_ring w1 w2 er g c (cre n) _ _ _ _ _ _ _ _ _ E1 E2 E0 E3 E4) as [L [x [z H]]]. exists x, z, L. exact H. }
  unfold n_hand. rewrite X1. cbn [bind]. destruct (ES x _ _ _ _ X2) as [F CL].
  destruct (split2_pair cx c0 c1 cadd cmul csub copp cx_ring svd false x _ _ _ _ X2 F) as [a [b [K [S1 [S2 [S3 [S4 S5]]]]]]]. rewrite S1. cbn [bind].
  exists a, b, z, K, L. split; [reflexivity|]. split; [exact X3|]. split; [exact S2|]. split; [exact S3|]. split; [destruct (svd 2 x) as [[? ?] ?]; cbn [snd] in S5; subst; tauto|].
  intros u v SP s0 s1 s2 i y H0 H1 H2 Hi Hy. destruct (ten_dims cx _ _ _ _ X3) as [_ [_ Z]]. destruct (ten_dims cx _ _ _ _ E4) as [_ [_ C]].
  rewrite (three_l cx c0 c1 cadd cmul csub copp cx_ring _ _ _ (e4 x) L p1 p2 D3) by auto. rewrite (three_l cx c0 c1 cadd cmul csub copp cx_ring _ _ _ (e4 g) D0 p1 p2 D3) by auto.
  apply X4.
Qed.
End Hand.

Section Noise.
Variables alpha dec inc mx : real.
Variable N : nat.
Variable ws : nat -> cg.
Variable ds : list nat.
Hypothesis HH : hermitian_chain N ws ds.
Variables (stev : list real -> list real -> list real * list real) (maxit : nat) (size : list nat -> nat) (svd : nat -> cg -> cg * cg * cg) (close : real -> real -> bool).
Variables (covered : bool -> cg -> cg -> bool) (normal : cg -> bool) (mock : cg -> cg).
Hypothesis ES : exact_gsvd svd.
Hypothesis HM : mock_legs mock.
Hypothesis Hmax : 2 <= maxit.
Notation chain := (chain N ws ds). Notation sq_norm := (sq_norm N). Notation energy_val := (energy_val N ws). Notation holds := (holds N). Notation mixed_at := (mixed_at N).
Notation energy_ratio := (energy_ratio N ws). Notation has_energy := (has_energy N ws).
Notation lenv := (left_env (res cg) (res cg) w_triv (w_grow ws)). Notation renv := (right_env (res cg) (res cg) w_triv (w_grow ws) N).
Notation upd := (n_update alpha dec inc mx ws stev maxit size svd close covered normal mock).
Notation opt3 := (opt3 (res cg) (res cg) (res s1st) w_triv (w_grow ws) upd N).
Notation at_lapack3 := (at_lapack3 N ws stev maxit size close).
Notation s_rule := (s_rule alpha dec inc mx).
Notation nn_of rt l := (if (rt : bool) then l + 2 else l - 1).

Lemma env_legs2 : forall tl tr wl wr w1 w2 D0 p1 p2 D3 el er, cut2 cx tl tr wl wr w1 w2 D0 p1 p2 D3 ->
  lenvs_from cx c0 cadd cmul cconj (trivial_env cx c0 c1 1 1) tl wl = Ok el -> renvs_from cx c0 cadd cmul cconj (trivial_env cx c0 c1 1 1) tr wr = Ok er ->
  exists M0 M1 M2, cgd w1 = [M0; p1; p1; M1] /\ cgd w2 = [M1; p2; p2; M2] /\ cgd el = [D0; M0; D0] /\ cgd er = [D3; M2; D3].
Proof.
  intros tl tr wl wr w1 w2 D0 p1 p2 D3 el er [[M0 [M1 [M2 [W1 [W2 [P1 P2]]]]]]] HL HR. exists M0, M1, M2. split; [exact W1|]. split; [exact W2|].
  destruct (lenvs_from_ok cx c0 c1 cadd cmul csub copp cx_ring cconj cconj0 cconj_add cconj_mul tl wl [] [] (trivial_env cx c0 c1 1 1) 1 1 D0 M0) as [e1 [A1 [A2 _]]]; try reflexivity; [apply (trivial_l cx c0 c1 cadd cmul csub copp cx_ring cconj cconj1)|exact P1|].
  destruct (right_env_ok cx c0 c1 cadd cmul csub copp cx_ring cconj cconj0 cconj1 cconj_add cconj_mul tr wr D3 M2 P2) as [e2 [B1 [B2 _]]].
  rewrite A1 in HL. injection HL as <-. rewrite B1 in HR. injection HR as <-. auto.
Qed.

Lemma noise_step_ok : forall (rt : bool) l rs ts s, l + 1 < N -> (if rt then l + 2 < N else 1 <= l) -> holds rs ts -> chain ts -> mixed_at l ts -> sq_norm ts <> c0 -> at_lapack3 l rs ->
  exists x y z s', opt3 (rt, l) (rs, Ok s) = (fset (fset (fset rs (nn_of rt l) (Ok z)) l (Ok x)) (l + 1) (Ok y), Ok s') /\
  let ts' := fset (fset (fset ts (nn_of rt l) z) l x) (l + 1) y in
  chain ts' /\ mixed_at (if rt then l + 1 else l - 1) ts' /\ has_energy ts' (s_e0 s') /\ (s_e0 s' <= energy_ratio ts)%R /\ s_last s' = fst (energy_val ts) /\ s_nz s' = s_rule s (fst (energy_val ts)).
Proof.
  intros rt l rs ts s Hl Hn HR HC HMx NZ HLA. assert (HMx' := HMx). destruct HMx' as [ML MR].
  destruct (two_problem N ws ds HH svd ES ts l HC Hl) as [el [er [x [zz [L1 [R1 [X1 [Z1 [MH [NV [EV SP]]]]]]]]]]]; [intros; apply ML; lia|intros; apply MR; lia|]. cbv zeta in *.
  destruct (cut2_at N ws ds ts l HC Hl) as [D0 [p1 [D [p2 [D3 [E1 [E2 [CUT [F1 F2]]]]]]]]].
  destruct (env_legs2 _ _ _ _ _ _ _ _ _ _ _ _ CUT L1 R1) as [M0 [M1 [M2 [W1 [W2 [W3 W4]]]]]].
  assert (LE : lenv rs l = Ok el) by (rewrite (lenv_lenvs N ws rs ts l) by (auto; lia); exact L1).
  assert (RE : renv rs (N - (l + 2)) = Ok er) by (rewrite (renv_renvs N ws rs ts) by (auto; lia); replace (N - (N - (l + 2))) with (l + 2) by lia; exact R1).
  assert (T1 : rs l = Ok (ts l)) by (apply HR; lia). assert (T2 : rs (l + 1) = Ok (ts (l + 1))) by (apply HR; lia). assert (T3 : rs (nn_of rt l) = Ok (ts (nn_of rt l))) by (apply HR; destruct rt; lia).
  specialize (HLA el (ts l) (ts (l + 1)) er x LE T1 T2 RE X1).
  destruct (energy2_ok cx c0 c1 cadd cmul csub copp cx_ring cconj cconj0 cconj1 cconj_add cconj_mul _ (ts l) (ts (l + 1)) _ _ _ _ _ _ _ _ _ _ CUT E1 E2) as [el' [er' [L1' [R1' EE]]]].
  rewrite L1 in L1'. injection L1' as <-. rewrite R1 in R1'. injection R1' as <-.
  assert (EE' : energy2 cx c0 cadd cmul cconj el (ws l) (ws (l + 1)) er (ts l) (ts (l + 1)) = Ok (energy_val ts)).
  { rewrite EE. unfold ConserveSpec.energy_val. f_equal. f_equal; f_equal; symmetry; apply sites_mid; exact Hl. }
  destruct (pair_ok cx c0 cadd cmul _ _ _ _ _ _ _ E1 E2) as [x' [X1' [X2 _]]]. rewrite X1 in X1'. injection X1' as <-.
  destruct (g_lanczos_ok (cgd x) (h_two ws l el er (cgd x)) MH stev maxit (size (cgd x)) Hmax close (cge x)) as [r [g [RUN [G1 [G2 G3]]]]]; [rewrite NV; exact NZ|exact HLA|].
  destruct (SP rt g) as [a0 [b0 [S0 [C0 [_ [N0 V0]]]]]].
  assert (SG : exists K0, cgd a0 = [D0; p1; K0] /\ cgd b0 = [K0; p2; D3] /\ csplits D0 p1 p2 D3 (elems4 cx (mkG cx (cgd x) g)) (cten_of a0) (cten_of b0)).
  { destruct (ES (mkG cx (cgd x) g) _ _ _ _ X2) as [F _]. destruct (split2_pair cx c0 c1 cadd cmul csub copp cx_ring svd rt (mkG cx (cgd x) g) _ _ _ _ X2 F) as [a [b [K [S1 [S2 [S3 [S4 _]]]]]]]. rewrite S0 in S1. injection S1 as <- <-. exists K. auto. }
  destruct SG as [K0 [A0 [B0 SPL]]].
  set (n := s_rule s (fst (energy_val ts))). set (need := n_expand covered rt n (ts l) (ts (l + 1))).
  set (t0 := fset (fset ts l a0) (l + 1) b0) in *.
  assert (HAND : exists a b z, n_hand svd normal mock rt need el (ws l) (ws (l + 1)) er (mkG cx (cgd x) g) (ts (nn_of rt l)) n = Ok (a, b, z) /\
    let ts' := fset (fset (fset ts (nn_of rt l) z) l a) (l + 1) b in chain ts' /\ sq_norm ts' = sq_norm t0 /\ energy_val ts' = energy_val t0 /\ (if rt then cleft (cten_of a) else cright (cten_of b))).
  { clearbody need n. assert (X0 : t0 l = a0) by (unfold t0; rewrite fset_out, fset_in by lia; reflexivity). assert (Y0 : t0 (l + 1) = b0) by (unfold t0; apply fset_in). destruct rt.
    - assert (Hl2 : l + 1 + 1 < N) by lia. destruct (cut2_at N ws ds ts (l + 1) HC Hl2) as [D' [p' [D3' [q [D4 [Eb [Ec _]]]]]]]. replace (l + 1 + 1) with (l + 2) in Ec by lia.
      assert (D3' = D3) as -> by (rewrite E2 in Eb; injection Eb; auto).
      destruct (hand3_r svd ES normal mock HM need el (ws l) (ws (l + 1)) er (mkG cx (cgd x) g) (ts (l + 2)) n _ _ _ _ _ _ _ _ _ W3 W1 W2 X2 Ec) as [a [b [z [K [L [H1 [H2 [H3 [H4 [H5 H6]]]]]]]]]].
      exists a, b, z. split; [exact H1|]. cbv zeta. set (ts' := fset (fset (fset ts (l + 2) z) l a) (l + 1) b).
      assert (P1 : ts' l = a) by (unfold ts'; rewrite fset_out, fset_in by lia; reflexivity). assert (P2 : ts' (l + 1) = b) by (unfold ts'; apply fset_in).
      assert (P3 : ts' (l + 2) = z) by (unfold ts'; rewrite 2 fset_out, fset_in by lia; reflexivity). assert (Z0 : t0 (l + 2) = ts (l + 2)) by (unfold t0; rewrite 2 fset_out by lia; reflexivity).
      destruct (set_triple N ws ds t0 ts' l D0 p1 K0 p2 D3 q D4 K L C0 Hn) as [Q1 [Q2 Q3]]; try (rewrite ?X0, ?Y0, ?Z0, ?P1, ?P2, ?P3; assumption).
      + intros i Hi I1 I2 I3. unfold ts', t0. rewrite !fset_out by auto. reflexivity.
      + intros. rewrite X0, Y0, Z0, P1, P2, P3. apply H6; auto.
      + auto.
    - assert (Hl2 : l - 1 + 1 < N) by lia. destruct (cut2_at N ws ds ts (l - 1) HC Hl2) as [D4 [q [D0' [p' [D' [Ec [Ea _]]]]]]]. replace (l - 1 + 1) with l in Ea by lia.
      assert (D0' = D0) as -> by (rewrite E1 in Ea; injection Ea; auto).
      destruct (hand3_l svd ES normal mock need el (ws l) (ws (l + 1)) er (mkG cx (cgd x) g) (ts (l - 1)) n _ _ _ _ _ _ _ _ _ W4 W1 W2 X2 Ec) as [a [b [z [K [L [H1 [H2 [H3 [H4 [H5 H6]]]]]]]]]].
      exists a, b, z. split; [exact H1|]. cbv zeta. set (ts' := fset (fset (fset ts (l - 1) z) l a) (l + 1) b).
      assert (P1 : ts' l = a) by (unfold ts'; rewrite fset_out, fset_in by lia; reflexivity). assert (P2 : ts' (l + 1) = b) by (unfold ts'; apply fset_in).
      assert (P3 : ts' (l - 1) = z) by (unfold ts'; rewrite 2 fset_out, fset_in by lia; reflexivity). assert (Z0 : t0 (l - 1) = ts (l - 1)) by (unfold t0; rewrite 2 fset_out by lia; reflexivity).
      assert (J1 : l - 1 + 1 = l) by lia. assert (J2 : l - 1 + 2 = l + 1) by lia.
      destruct (set_triple N ws ds t0 ts' (l - 1) D4 q D0 p1 K0 p2 D3 L K C0) as [Q1 [Q2 Q3]]; try (rewrite ?J1, ?J2, ?X0, ?Y0, ?Z0, ?P1, ?P2, ?P3; assumption).
      + intros i Hi I1 I2 I3. unfold ts', t0. rewrite !fset_out by lia. reflexivity.
      + intros. rewrite J1, J2, X0, Y0, Z0, P1, P2, P3. apply H6; auto.
      + auto. }
  destruct HAND as [a [b [z [S1 [Q1 [Q2 [Q3 Q4]]]]]]]. cbv zeta in *.
  exists a, b, z, (mkS1 n (eng real r) (fst (energy_val ts))). split; [|split; [exact Q1|split; [|split; [|split; [|split; [reflexivity|reflexivity]]]]]].
  - unfold NoiseSpec.opt3. rewrite LE, RE, T1, T2, T3. unfold n_update. cbn [bind]. rewrite EE'. cbn [bind]. fold n. rewrite X1. cbn [bind]. rewrite Z1. cbn [bind]. rewrite RUN. cbn [bind]. fold need. rewrite S1. cbn [bind]. reflexivity.
  - split; intros k Hk; destruct (Nat.eq_dec k (l + 1)) as [->|I1]; rewrite ?fset_in; try (destruct rt; auto; lia); rewrite (fset_out _ _ (l + 1)) by auto;
      (destruct (Nat.eq_dec k l) as [->|I2]; rewrite ?fset_in; try (destruct rt; auto; lia)); rewrite (fset_out _ _ l) by auto;
      rewrite fset_out by (destruct rt; lia); [apply ML|apply MR]; destruct rt; lia.
  - cbn [s_e0]. split; [rewrite Q2, N0; exact G1|rewrite Q3, V0; exact G2].
  - cbn [s_e0]. apply below_ratio; [exact NZ|]. rewrite <- NV, <- EV. exact G3.
Qed.
End Noise.
