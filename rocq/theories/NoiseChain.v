(** Three neighbouring tensors of a chain: two-site noise and hand-over. *)
From Coq Require Import List Arith Lia Bool Ring.
From Verif Require Import Base FiniteMps FmpsSpec FmpsFacts EffHam EffHamSpec EffHamFacts ChainSpec ChainFacts Legs VmpsLocal VmpsSpec VmpsEnv VmpsHeff VmpsShift VmpsState ChainPair.
Import ListNotations.

Section Facts.
Variables (R : Type) (r0 r1 : R) (radd rmul rsub : R -> R -> R) (ropp : R -> R).
Variable Rth : ring_theory r0 r1 radd rmul rsub ropp (@eq R).
Add Ring Rring : Rth.
Infix "*r" := rmul (at level 40, left associativity).
Notation gten := (gten R). Notation ge := (ge R). Notation gd := (gd R). Notation ten := (ten R).
Notation sumn := (sumn R r0 radd). Notation lsum := (lsum R r0 radd). Notation ten_of := (ten_of R). Notation elems4 := (elems4 R).
Notation mps_mat := (mps_mat R r0 r1 radd rmul).
Notation two_site := (two_site R r0 radd rmul). Notation splits := (splits R r0 radd rmul).
Notation s_ext := (sumn_ext R r0 radd). Notation s_mul_l := (sumn_mul_l R r0 r1 radd rmul rsub ropp Rth). Notation s_mul_r := (sumn_mul_r R r0 r1 radd rmul rsub ropp Rth). Notation s_swap := (sumn_swap R r0 r1 radd rmul rsub ropp Rth).
Notation mps_mat_app := (mps_mat_app R r0 r1 radd rmul rsub ropp Rth). Notation sumn_lsum := (sumn_lsum R r0 r1 radd rmul rsub ropp Rth).
Variable mock : gten -> gten.

(** any stretch of a chain replaced by one with the same matrices *)
Lemma mid_same : forall (tl m m' tr : list ten) D0 D3, fit R 1 tl D0 -> fit R D0 m D3 -> fit R D0 m' D3 -> map (@d1 R) m' = map (@d1 R) m ->
  (forall c x y, In c (configs (map (@d1 R) m)) -> x < D0 -> y < D3 -> mps_mat m' c x y = mps_mat m c x y) ->
  same_state R r0 r1 radd rmul (tl ++ m ++ tr) (tl ++ m' ++ tr).
Proof.
  intros tl m m' tr D0 D3 F1 F2 F2' HD HE. split; [rewrite !map_app, HD; reflexivity|]. intros c Hc. rewrite !map_app in Hc.
  apply configs_in_app in Hc. destruct Hc as [cl [c2 [-> [Hl Hc]]]]. apply configs_in_app in Hc. destruct Hc as [cm [cr [-> [Hm Hr]]]].
  apply configs_len in Hl. rewrite map_length in Hl. assert (Hm' := Hm). apply configs_len in Hm. rewrite map_length in Hm.
  assert (LM : length m' = length m) by (apply (f_equal (@length nat)) in HD; rewrite !map_length in HD; exact HD).
  rewrite (mps_mat_app tl _ cl _ 1 D0 0 0 F1) by (auto; lia). rewrite (mps_mat_app tl _ cl _ 1 D0 0 0 F1) by (auto; lia).
  apply (lsum_ext R r0 radd). intros x Hx. apply in_seq in Hx. f_equal.
  rewrite (mps_mat_app m' _ cm _ D0 D3 x 0 F2') by lia. rewrite (mps_mat_app m _ cm _ D0 D3 x 0 F2) by lia.
  apply (lsum_ext R r0 radd). intros y Hy. apply in_seq in Hy. rewrite (HE cm x y) by (auto; lia). reflexivity.
Qed.
Lemma mps_pair : forall a b c cs s1 s2 x y, mps_mat (a :: b :: c) (s1 :: s2 :: cs) x y = sumn (d2 b) (fun k => two_site a b x s1 s2 k *r mps_mat c cs k y).
Proof.
  intros. cbn [EffHamSpec.mps_mat]. unfold EffHamSpec.two_site.
  rewrite (s_ext (d2 b) (fun k => sumn (d2 a) (fun m => el a x s1 m *r el b m s2 k) *r mps_mat c cs k y) (fun k => sumn (d2 a) (fun m => el a x s1 m *r (el b m s2 k *r mps_mat c cs k y)))).
  2:{ intros k _. rewrite s_mul_r. apply s_ext. intros. ring. }
  rewrite s_swap. apply s_ext. intros m _. apply s_mul_l.
Qed.
(** the matrix of a two-site tensor and its right or left neighbour *)
Lemma three_r : forall a b c (g : nat -> nat -> nat -> nat -> R) D0 p1 p2 D3 s1 s2 s3 x y, splits D0 p1 p2 D3 g a b -> x < D0 -> s1 < p1 -> s2 < p2 -> y < d2 c ->
  mps_mat [a; b; c] [s1; s2; s3] x y = sumn D3 (fun k => g x s1 s2 k *r el c k s3 y).
Proof.
  intros a b c g D0 p1 p2 D3 s1 s2 s3 x y [<- <- HM <- <- HE] Hx H1 H2 Hy. rewrite mps_pair. apply s_ext. intros k Hk. rewrite HE by auto. rewrite (mps_one R r0 r1 radd rmul rsub ropp Rth) by auto. reflexivity.
Qed.
Lemma three_l : forall c a b (g : nat -> nat -> nat -> nat -> R) D0 p1 p2 D3 s0 s1 s2 x y, splits D0 p1 p2 D3 g a b -> d2 c = D0 -> s1 < p1 -> s2 < p2 -> y < D3 ->
  mps_mat [c; a; b] [s0; s1; s2] x y = sumn D0 (fun k => el c x s0 k *r g k s1 s2 y).
Proof.
  intros c a b g D0 p1 p2 D3 s0 s1 s2 x y [<- <- HM <- <- HE] Hc H1 H2 Hy. cbn [EffHamSpec.mps_mat]. rewrite Hc. apply s_ext. intros k Hk. f_equal.
  change (mps_mat [a; b] [s1; s2] k y = g k s1 s2 y). rewrite mps_pair, <- HE by auto.
  rewrite sumn_lsum. cbn [EffHamSpec.mps_mat]. apply (delta_r R r0 r1 radd rmul rsub ropp Rth (d2 b) y (fun z => two_site a b k s1 s2 z)). exact Hy.
Qed.
(** what the expansions keep *)
Lemma expand2_r_three : forall norm h0 h1 h2 gs next noise D0 M0 p1 M1 p2 M2 D3 q D4,
  gd h0 = [D0; M0; D0] -> gd h1 = [M0; p1; p1; M1] -> gd h2 = [M1; p2; p2; M2] -> gd gs = [D0; p1; p2; D3] -> gd next = [D3; q; D4] ->
  (norm = false -> forall t, gd t = [M2; M1; p2; p2] -> exists K, gd (mock t) = [K; M1; p2; p2]) ->
  exists L a b, expand2_r R r0 radd rmul mock norm h0 h1 h2 gs next noise = Ok (a, b) /\ gd a = [D0; p1; p2; L] /\ gd b = [L; q; D4] /\
  forall x s1 s2 s3 y, sumn L (fun k => elems4 a x s1 s2 k *r ge b [k; s3; y]) = sumn D3 (fun k => elems4 gs x s1 s2 k *r ge next [k; s3; y]).
Proof.
  intros norm h0 h1 h2 gs next noise D0 M0 p1 M1 p2 M2 D3 q D4 E0 E1 E2 E3 E4 HM.
  assert (HV : exists v K, if norm then v = h2 /\ K = M2 else exists h2', gtrans R [3; 0; 1; 2] h2 = Ok h2' /\ gd (mock h2') = [K; M1; p2; p2] /\ gtrans R [1; 2; 3; 0] (mock h2') = Ok v).
  { destruct norm; [exists h2, M2; auto|].
    assert (T : exists h2', gtrans R [3; 0; 1; 2] h2 = Ok h2' /\ gd h2' = [M2; M1; p2; p2]).
    { destruct h2 as [? h2]. cbn in E2. subst. eexists. split; [legs; reflexivity|]. reflexivity. }
    destruct T as [h2' [T1 T2]]. destruct (HM eq_refl h2' T2) as [K HK].
    assert (T3 : exists v, gtrans R [1; 2; 3; 0] (mock h2') = Ok v). { destruct (mock h2') as [? m]. cbn in HK. subst. eexists. legs. reflexivity. }
    destruct T3 as [v T3]. exists v, K, h2'. auto. }
  destruct HV as [v [K HV]].
  destruct (expand2_r_el R r0 r1 radd rmul rsub ropp Rth mock norm h0 h1 h2 gs next noise D0 M0 p1 M1 p2 M2 D3 q D4 K v E0 E1 E2 E3 E4 HV) as [a [b [A [B1 [B2 [B3 B4]]]]]].
  exists (sum_dim D3 (fused_dim D3 K)), a, b. split; [exact A|]. split; [exact B1|]. split; [exact B2|]. intros x s1 s2 s3 y.
  apply (sum_enlarged R r0 r1 radd rmul rsub ropp Rth); intros k Hk; unfold VmpsHeff.elems4; rewrite ?B3, ?B4, ?in_first_lt, ?in_first_ge by auto; auto. ring.
Qed.
Lemma expand2_l_three : forall h1 h2 h3 gs next noise D0 M0 p1 M1 p2 M2 D3 q D,
  gd h1 = [M0; p1; p1; M1] -> gd h2 = [M1; p2; p2; M2] -> gd h3 = [D3; M2; D3] -> gd gs = [D0; p1; p2; D3] -> gd next = [D; q; D0] ->
  exists L a b, expand2_l R r0 radd rmul h1 h2 h3 gs next noise = Ok (a, b) /\ gd a = [L; p1; p2; D3] /\ gd b = [D; q; L] /\
  forall x s0 s1 s2 y, sumn L (fun k => ge b [x; s0; k] *r elems4 a k s1 s2 y) = sumn D0 (fun k => ge next [x; s0; k] *r elems4 gs k s1 s2 y).
Proof.
  intros h1 h2 h3 gs next noise D0 M0 p1 M1 p2 M2 D3 q D E0 E1 E2 E3 E4.
  destruct (expand2_l_el R r0 radd rmul h1 h2 h3 gs next noise D0 M0 p1 M1 p2 M2 D3 q D E0 E1 E2 E3 E4) as [a [b [A [B1 [B2 [B3 B4]]]]]].
  exists (sum_dim D0 (fused_dim D0 M0)), a, b. split; [exact A|]. split; [exact B1|]. split; [exact B2|]. intros x s0 s1 s2 y.
  apply (sum_enlarged R r0 r1 radd rmul rsub ropp Rth); intros k Hk; unfold VmpsHeff.elems4; rewrite ?B3, ?B4, ?in_first_lt, ?in_first_ge by auto; auto. ring.
Qed.
End Facts.
