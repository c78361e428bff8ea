(** Single-site VMPS without truncation never raises the energy, with noise or without; the noise follows from the energy at the start of a sweep. *)
From Coq Require Import List Arith Bool Lia QArith Qreals Reals Lra Ring_theory.
From Verif Require Import Base Disk SweepSpec SingleSpec FiniteMps FmpsSpec FmpsFacts EffHam EffHamSpec EffHamFacts ChainSpec ChainFacts Legs VmpsLocal VmpsSpec VmpsEnv VmpsHeff Lanczos LanczosSpec KrylovSpec Cx KrylovInst GVec GVecFacts DmrgStep ChainOne ChainPair ChainSplit ChainUpdate DmrgVarSpec DmrgVar ConserveSpec ConserveFacts ConserveRun ConserveVmps SingleUpdate SingleVarSpec.
Import ListNotations.
Local Open Scope nat_scope.

Lemma splits_trans : forall D0 p1 p2 D3 x a b u v, csplits D0 p1 p2 D3 x a b -> csplits D0 p1 p2 D3 (ctwo a b) u v -> csplits D0 p1 p2 D3 x u v.
Proof. intros D0 p1 p2 D3 x a b u v [A1 A2 A3 A4 A5 A6] [B1 B2 B3 B4 B5 B6]. split; auto. intros. rewrite B6, A6 by auto. reflexivity. Qed.

Section Hand.
Variable svd : nat -> cg -> cg * cg * cg.
Hypothesis ES : exact_gsvd1 svd.
Lemma hand_r : forall need el w er g b n D0 M0 p D M1 q D3, cgd el = [D0; M0; D0] -> cgd w = [M0; p; p; M1] -> cgd g = [D0; p; D] -> cgd b = [D; q; D3] ->
  exists u v K, s_hand svd true need el w er g b n = Ok (u, v) /\ cgd u = [D0; p; K] /\ cgd v = [K; q; D3] /\ csplits D0 p q D3 (ctwo (cten_of g) (cten_of b)) (cten_of u) (cten_of v) /\ cleft (cten_of u).
Proof.
  intros need el w er g b n D0 M0 p D M1 q D3 E1 E2 E3 E4.
  assert (exists x y L, (if need then expand1_r cx c0 cadd cmul el w g b (cre n) else Ok (g, b)) = Ok (x, y) /\ cgd x = [D0; p; L] /\ cgd y = [L; q; D3] /\
    csplits D0 p q D3 (ctwo (cten_of g) (cten_of b)) (cten_of x) (cten_of y)) as [x [y [L [X1 [X2 [X3 X4]]]]]].
  { destruct need.
    - apply (expand1_r_pair cx c0 c1 cadd cmul csub copp cx_ring el w g b (cre n) D0 M0 p D M1 q D3); auto.
    - exists g, b, D. repeat split; auto; destruct (ten_dims cx _ _ _ _ E3) as [? [? ?]]; destruct (ten_dims cx _ _ _ _ E4) as [? [? ?]]; congruence. }
  unfold s_hand. rewrite X1. cbn [bind]. destruct (ES x _ _ _ X2) as [[F CL] _].
  destruct (split1_r_pair cx c0 c1 cadd cmul csub copp cx_ring svd x y _ _ _ _ _ X2 X3 F) as [v [K [S1 [S2 [S3 S4]]]]].
  exists (fst (fst (svd 2 x))), v, K. repeat split; auto; apply (splits_trans _ _ _ _ _ _ _ _ _ X4 S4).
Qed.
Lemma hand_l : forall need el w er g b n D0 M0 p D M1 q D3, cgd er = [D; M1; D] -> cgd w = [M0; p; p; M1] -> cgd g = [D0; p; D] -> cgd b = [D3; q; D0] ->
  exists u v K, s_hand svd false need el w er g b n = Ok (u, v) /\ cgd u = [K; p; D] /\ cgd v = [D3; q; K] /\ csplits D3 q p D (ctwo (cten_of b) (cten_of g)) (cten_of v) (cten_of u) /\ cright (cten_of u).
Proof.
  intros need el w er g b n D0 M0 p D M1 q D3 E1 E2 E3 E4.
  assert (exists x y L, (if need then expand1_l cx c0 cadd cmul w er g b (cre n) else Ok (g, b)) = Ok (x, y) /\ cgd x = [L; p; D] /\ cgd y = [D3; q; L] /\
    csplits D3 q p D (ctwo (cten_of b) (cten_of g)) (cten_of y) (cten_of x)) as [x [y [L [X1 [X2 [X3 X4]]]]]].
  { destruct need.
    - apply (expand1_l_pair cx c0 c1 cadd cmul csub copp cx_ring w er g b (cre n) D3 M0 q D0 p M1 D); auto.
    - exists g, b, D0. repeat split; auto; destruct (ten_dims cx _ _ _ _ E3) as [? [? ?]]; destruct (ten_dims cx _ _ _ _ E4) as [? [? ?]]; congruence. }
  unfold s_hand. rewrite X1. cbn [bind]. destruct (ES x _ _ _ X2) as [_ [F CL]].
  destruct (split1_l_pair cx c0 c1 cadd cmul csub copp cx_ring svd x y _ _ _ _ _ X2 X3 F) as [v [K [S1 [S2 [S3 S4]]]]].
  exists (snd (svd 1 x)), v, K. repeat split; auto; apply (splits_trans _ _ _ _ _ _ _ _ _ X4 S4).
Qed.
End Hand.

Section Single.
Variables alpha dec inc mx : real.
Variable N : nat.
Variable ws : nat -> cg.
Variable ds : list nat.
Hypothesis HH : hermitian_chain N ws ds.
Variables (stev : list real -> list real -> list real * list real) (maxit : nat) (size : list nat -> nat) (svd : nat -> cg -> cg * cg * cg) (close : real -> real -> bool).
Hypothesis ES : exact_gsvd1 svd.
Hypothesis Hmax : 2 <= maxit.
Notation chain := (chain N ws ds). Notation sq_norm := (sq_norm N). Notation energy_val := (energy_val N ws). Notation holds := (holds N). Notation center_at := (center_at N).
Notation energy_ratio := (energy_ratio N ws). Notation has_energy := (has_energy N ws).
Notation lenv := (left_env (res cg) (res cg) w_triv (w_grow ws)). Notation renv := (right_env (res cg) (res cg) w_triv (w_grow ws) N).
Notation upd := (s_update alpha dec inc mx N ws stev maxit size svd close).
Notation opt1 := (opt1 (res cg) (res cg) (res s1st) w_triv (w_grow ws) upd N). Notation opts1 := (opts1 (res cg) (res cg) (res s1st) w_triv (w_grow ws) upd N).
Notation opts1_lapack := (opts1_lapack alpha dec inc mx N ws stev maxit size svd close). Notation at_lapack1 := (at_lapack1 N ws stev maxit size close).
Notation s_rule := (s_rule alpha dec inc mx).

Lemma same_sites : forall ts ts' : nat -> cg, (forall i, i < N -> ts i = ts' i) -> sites N ts = sites N ts'.
Proof. intros ts ts' H. unfold sites. apply map_ext_in. intros i Hi. apply in_seq in Hi. apply H. lia. Qed.
Lemma env_legs : forall tl tr wl wr w D0 p D2 el er, cut1 cx tl tr wl wr w D0 p D2 ->
  lenvs_from cx c0 cadd cmul cconj (trivial_env cx c0 c1 1 1) tl wl = Ok el -> renvs_from cx c0 cadd cmul cconj (trivial_env cx c0 c1 1 1) tr wr = Ok er ->
  exists M0 M1, cgd w = [M0; p; p; M1] /\ cgd el = [D0; M0; D0] /\ cgd er = [D2; M1; D2].
Proof.
  intros tl tr wl wr w D0 p D2 el er [[M0 [M1 [W [P1 P2]]]]] HL HR. exists M0, M1. split; [exact W|].
  destruct (lenvs_from_ok cx c0 c1 cadd cmul csub copp cx_ring cconj cconj0 cconj_add cconj_mul tl wl [] [] (trivial_env cx c0 c1 1 1) 1 1 D0 M0) as [e1 [A1 [A2 _]]]; try reflexivity; [apply (trivial_l cx c0 c1 cadd cmul csub copp cx_ring cconj cconj1)|exact P1|].
  destruct (right_env_ok cx c0 c1 cadd cmul csub copp cx_ring cconj cconj0 cconj1 cconj_add cconj_mul tr wr D2 M1 P2) as [e2 [B1 [B2 _]]].
  rewrite A1 in HL. injection HL as <-. rewrite B1 in HR. injection HR as <-. auto.
Qed.
Notation nn_of rt i := (if (rt : bool) then i + 1 else i - 1).

Lemma step_ok : forall (rt : bool) i rs ts s, i < N -> (if rt then i + 1 < N else 1 <= i) -> holds rs ts -> chain ts -> center_at i ts -> sq_norm ts <> c0 -> at_lapack1 i rs ->
  exists x y s', opt1 (rt, i) (rs, Ok s) = (fset (fset rs i (Ok x)) (nn_of rt i) (Ok y), Ok s') /\
  let ts' := fset (fset ts i x) (nn_of rt i) y in
  chain ts' /\ center_at (nn_of rt i) ts' /\ has_energy ts' (s_e0 s') /\ (s_e0 s' <= energy_ratio ts)%R /\ s_last s' = fst (energy_val ts) /\ s_nz s' = s_rule s (fst (energy_val ts)).
Proof.
  intros rt i rs ts s Hi Hn HR HC HM NZ HLA.
  destruct (one_problem N ws ds HH ts i HC Hi HM) as [el [er [z [L1 [R1 [Z1 [MH [NV [EV SP]]]]]]]]]. cbv zeta in *.
  destruct (cut1_at N ws ds ts i HC Hi) as [D0 [p [D2 [E1 [CUT [F1 F2]]]]]].
  destruct (env_legs _ _ _ _ _ _ _ _ _ _ CUT L1 R1) as [M0 [M1 [W1 [W2 W3]]]].
  assert (LE : lenv rs i = Ok el) by (rewrite (lenv_lenvs N ws rs ts i) by (auto; lia); exact L1).
  assert (RE : renv rs (N - 1 - i) = Ok er). { rewrite (renv_renvs N ws rs ts) by (auto; lia). replace (N - (N - 1 - i)) with (i + 1) by lia. exact R1. }
  assert (T1 : rs i = Ok (ts i)) by (apply HR; lia). assert (T2 : rs (nn_of rt i) = Ok (ts (nn_of rt i))) by (apply HR; destruct rt; lia).
  specialize (HLA el (ts i) er LE T1 RE).
  destruct (energy1_ok cx c0 c1 cadd cmul csub copp cx_ring cconj cconj0 cconj1 cconj_add cconj_mul _ (ts i) _ _ _ _ _ _ _ CUT E1) as [el' [er' [L1' [R1' EE]]]].
  rewrite L1 in L1'. injection L1' as <-. rewrite R1 in R1'. injection R1' as <-.
  assert (EE' : energy1 cx c0 cadd cmul cconj el (ws i) er (ts i) = Ok (energy_val ts)).
  { rewrite EE. unfold ConserveSpec.energy_val. f_equal. f_equal; f_equal; symmetry; apply sites_one; exact Hi. }
  destruct (g_lanczos_ok (cgd (ts i)) (h_one ws i el er (cgd (ts i))) MH stev maxit (size (cgd (ts i))) Hmax close (cge (ts i))) as [r [g [RUN [G1 [G2 G3]]]]]; [rewrite NV; exact NZ|exact HLA|].
  destruct (SP g) as [C1 [N1 V1]]. set (n := s_rule s (fst (energy_val ts))). set (need := s_expand N i n (cgd (ts i))).
  set (t1 := fset ts i (mkG cx (cgd (ts i)) g)) in *.
  assert (HAND : exists u v, s_hand svd rt need el (ws i) er (mkG cx (cgd (ts i)) g) (ts (nn_of rt i)) n = Ok (u, v) /\
    let ts' := fset (fset ts i u) (nn_of rt i) v in chain ts' /\ sq_norm ts' = sq_norm t1 /\ energy_val ts' = energy_val t1 /\ (if rt then cleft (cten_of u) else cright (cten_of u))).
  { clearbody need n. destruct rt.
    - destruct (cut2_at N ws ds t1 i C1 Hn) as [D0' [p' [D' [q [D3 [Ea [Eb _]]]]]]].
      assert (X1 : t1 i = mkG cx (cgd (ts i)) g) by (unfold t1, fset; rewrite Nat.eqb_refl; reflexivity).
      assert (X2 : t1 (i + 1) = ts (i + 1)) by (unfold t1, fset; replace (i + 1 =? i) with false by (symmetry; apply Nat.eqb_neq; lia); reflexivity).
      assert (D0' = D0 /\ p' = p /\ D' = D2) as [-> [-> ->]] by (rewrite X1 in Ea; cbn [gd] in Ea; rewrite E1 in Ea; injection Ea; auto). rewrite X2 in Eb.
      destruct (hand_r svd ES need el (ws i) er (mkG cx (cgd (ts i)) g) (ts (i + 1)) n D0 M0 p D2 M1 q D3 W2 W1 E1 Eb) as [u [v [K [S1 [S2 [S3 [S4 S5]]]]]]].
      exists u, v. split; [exact S1|]. cbv zeta.
      destruct (set_pair N ws ds t1 i u v D0 p D2 q D3 K C1 Hn Ea) as [Q1 [Q2 Q3]]; auto; [rewrite X2; exact Eb|rewrite X1, X2; exact S4|]. cbv zeta in *.
      assert (SS : sites N (fset (fset t1 i u) (i + 1) v) = sites N (fset (fset ts i u) (i + 1) v)).
      { apply same_sites. intros k Hk. unfold t1, fset. destruct (k =? i + 1); [reflexivity|]. destruct (k =? i); reflexivity. }
      unfold ConserveSpec.chain, ConserveSpec.sq_norm, ConserveSpec.energy_val in *. rewrite SS in *. auto.
    - assert (Hl : i - 1 + 1 < N) by lia. destruct (cut2_at N ws ds t1 (i - 1) C1 Hl) as [D3 [q [D0' [p' [D' [Eb [Ea _]]]]]]]. replace (i - 1 + 1) with i in * by lia.
      assert (X1 : t1 i = mkG cx (cgd (ts i)) g) by (unfold t1, fset; rewrite Nat.eqb_refl; reflexivity).
      assert (X2 : t1 (i - 1) = ts (i - 1)) by (unfold t1, fset; replace (i - 1 =? i) with false by (symmetry; apply Nat.eqb_neq; lia); reflexivity).
      assert (D0' = D0 /\ p' = p /\ D' = D2) as [-> [-> ->]] by (rewrite X1 in Ea; cbn [gd] in Ea; rewrite E1 in Ea; injection Ea; auto). rewrite X2 in Eb.
      destruct (hand_l svd ES need el (ws i) er (mkG cx (cgd (ts i)) g) (ts (i - 1)) n D0 M0 p D2 M1 q D3 W3 W1 E1 Eb) as [u [v [K [S1 [S2 [S3 [S4 S5]]]]]]].
      exists u, v. split; [exact S1|]. cbv zeta.
      destruct (set_pair N ws ds t1 (i - 1) v u D3 q D0 p D2 K C1) as [Q1 [Q2 Q3]]; auto; replace (i - 1 + 1) with i in * by lia; auto; [rewrite X2; exact Eb|rewrite X1, X2; exact S4|]. cbv zeta in *.
      assert (SS : sites N (fset (fset t1 (i - 1) v) i u) = sites N (fset (fset ts i u) (i - 1) v)).
      { apply same_sites. intros k Hk. unfold t1, fset. destruct (Nat.eqb_spec k i) as [->|N2]; [|destruct (k =? i - 1); reflexivity]. replace (i =? i - 1) with false by (symmetry; apply Nat.eqb_neq; lia). reflexivity. }
      unfold ConserveSpec.chain, ConserveSpec.sq_norm, ConserveSpec.energy_val in *. rewrite SS in *. auto. }
  destruct HAND as [u [v [S1 [Q1 [Q2 [Q3 Q4]]]]]]. cbv zeta in *.
  exists u, v, (mkS1 n (eng real r) (fst (energy_val ts))). split; [|split; [exact Q1|split; [|split; [|split; [|split; [reflexivity|reflexivity]]]]]].
  - unfold SingleSpec.opt1. rewrite LE, RE, T1, T2. unfold s_update. cbn [bind]. rewrite EE'. cbn [bind]. fold n. rewrite RUN. cbn [bind]. fold need. rewrite S1. cbn [bind]. reflexivity.
  - destruct HM as [ML MR]. unfold fset. split; intros k Hk; (destruct (Nat.eqb_spec k (nn_of rt i)) as [E|E]; [|destruct (Nat.eqb_spec k i) as [->|E']]); try (destruct rt; auto; lia); try (apply ML; destruct rt; lia); apply MR; destruct rt; lia.
  - cbn [s_e0]. split; [rewrite Q2, N1; exact G1|rewrite Q3, V1; exact G2].
  - cbn [s_e0]. apply below_ratio; [exact NZ|]. rewrite <- NV, <- EV. exact G3.
Qed.
End Single.
