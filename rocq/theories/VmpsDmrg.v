(** Environments of VMPS and block operators of DMRG. *)
From Coq Require Import List Arith Lia Bool Ring.
From Verif Require Import Base FiniteMps FmpsSpec FmpsFacts EffHam EffHamSpec EffHamFacts Legs VmpsLocal VmpsSpec VmpsEnv VmpsHeff.
Import ListNotations.

Section Facts.
Variables (R : Type) (r0 r1 : R) (radd rmul rsub : R -> R -> R) (ropp : R -> R).
Variable Rth : ring_theory r0 r1 radd rmul rsub ropp (@eq R).
Variable conj : R -> R.
Hypothesis conj0 : conj r0 = r0.
Hypothesis conj1 : conj r1 = r1.
Hypothesis conj_add : forall x y, conj (radd x y) = radd (conj x) (conj y).
Hypothesis conj_mul : forall x y, conj (rmul x y) = rmul (conj x) (conj y).
Add Ring Rring : Rth.
Infix "+r" := radd (at level 50, left associativity).
Infix "*r" := rmul (at level 40, left associativity).
Notation gten := (gten R). Notation mkG := (mkG R). Notation ge := (ge R). Notation gd := (gd R).
Notation sumn := (sumn R r0 radd). Notation lsum := (lsum R r0 radd).
Notation ten_of := (ten_of R). Notation site_of := (site_of R).
Notation mps_mat := (mps_mat R r0 r1 radd rmul). Notation mpo_mat := (mpo_mat R r0 r1 radd rmul).
Notation left_block := (left_block R r0 r1 radd rmul conj). Notation right_block := (right_block R r0 r1 radd rmul conj).
Notation lsum_ext := (lsum_ext R r0 radd). Notation lsum_swap := (lsum_swap R r0 r1 radd rmul rsub ropp Rth).
Notation lsum_mul_l := (lsum_mul_l R r0 r1 radd rmul rsub ropp Rth). Notation lsum_mul_r := (lsum_mul_r R r0 r1 radd rmul rsub ropp Rth).
Notation sumn_lsum := (sumn_lsum R r0 r1 radd rmul rsub ropp Rth).
Notation pull2 := (pull2 R r0 r1 radd rmul rsub ropp Rth). Notation pull3 := (pull3 R r0 r1 radd rmul rsub ropp Rth).
Notation part := (part R).


Notation projected := (projected R r0 r1 radd rmul conj). Notation elems4 := (elems4 R).
Notation lenvs := (lenvs_from R r0 radd rmul conj (trivial_env R r0 r1 1 1)). Notation renvs := (renvs_from R r0 radd rmul conj (trivial_env R r0 r1 1 1)).
Lemma in_configs_cons : forall d ds s c, In (s :: c) (configs (d :: ds)) -> s < d /\ In c (configs ds).
Proof.
  intros d ds s c H. cbn in H. apply in_flat_map in H. destruct H as [s0 [Hs H]]. apply in_map_iff in H. destruct H as [c0 [E H]]. injection E as <- <-. apply in_seq in Hs. split; [lia|auto].
Qed.
Lemma in_configs_intro : forall d ds s c, s < d -> In c (configs ds) -> In (s :: c) (configs (d :: ds)).
Proof. intros d ds s c Hs Hc. cbn. apply in_flat_map. exists s. split; [apply in_seq; lia|]. apply in_map. auto. Qed.
Lemma in_configs_app : forall ds ds' c c', In c (configs ds) -> In c' (configs ds') -> In (c ++ c') (configs (ds ++ ds')).
Proof.
  induction ds as [|d ds IH]; intros ds' c c' H H'; [destruct H as [<-|[]]; auto|]. destruct c as [|s c]; [exfalso; apply configs_len in H; discriminate|].
  apply in_configs_cons in H. destruct H as [Hs Hc]. cbn [app]. apply in_configs_intro; auto.
Qed.
Lemma same_mpo_mat : forall ps gs ws, Forall2 (fun pg w => same_mpo R r0 (fst pg) (snd pg) w) (combine ps gs) ws -> length ps = length gs -> forall X Y, wfit R X ws Y ->
  forall c c', In c (configs ps) -> In c' (configs ps) -> forall x y, x < X -> mpo_mat (map site_of gs) c c' x y = mpo_mat ws c c' x y.
Proof.
  induction ps as [|p ps IH]; intros [|g gs] ws H HL X Y HF c c' Hc Hc' x y Hx; try discriminate.
  - cbn in H. inversion H; subst. reflexivity.
  - cbn [combine] in H. inversion H as [|? w ? ws' H1 H2]; subst. cbn [fst snd] in H1. destruct H1 as [G1 G2]. cbn in HF. destruct HF as [HF1 HF2].
    destruct c as [|s c]; [apply configs_len in Hc; discriminate|]. destruct c' as [|s' c']; [apply configs_len in Hc'; discriminate|].
    apply in_configs_cons in Hc, Hc'. destruct Hc as [Hs Hc], Hc' as [Hs' Hc']. cbn [map EffHamSpec.mpo_mat]. destruct (site_dims R g _ _ _ _ G1) as [_ Q]. rewrite Q.
    rewrite !sumn_lsum. apply lsum_ext. intros z Hz. apply in_seq in Hz. rewrite (IH gs ws' H2 ltac:(cbn in HL; lia) _ _ HF2 c c' Hc Hc' z y) by lia. f_equal.
    unfold EffHamSpec.mval at 1. cbn [ent VmpsSpec.site_of]. apply G2; auto; lia.
Qed.
Lemma same_projected : forall tl tr wl w1 w2 wr gl g1 g2 gr D0 p1 p2 D3 x a' s1' s2' b',
  wfit R 1 (wl ++ [w1; w2] ++ wr) 1 -> s1' < p1 -> s2' < p2 -> length gl = length tl -> length gr = length tr ->
  Forall2 (fun pg w => same_mpo R r0 (fst pg) (snd pg) w) (combine (map (@d1 R) tl ++ [p1; p2] ++ map (@d1 R) tr) (gl ++ [g1; g2] ++ gr)) (wl ++ [w1; w2] ++ wr) ->
  projected tl tr (map site_of gl) (site_of g1) (site_of g2) (map site_of gr) D0 p1 p2 D3 x a' s1' s2' b' = projected tl tr wl w1 w2 wr D0 p1 p2 D3 x a' s1' s2' b'.
Proof.
  intros tl tr wl w1 w2 wr gl g1 g2 gr D0 p1 p2 D3 x a' s1' s2' b' HF H1 H2 HL HR HS. unfold EffHamSpec.projected.
  apply lsum_ext. intros cl' Il'. apply lsum_ext. intros cr' Ir'. f_equal. apply lsum_ext. intros cl Il. rewrite !sumn_lsum. apply lsum_ext. intros s1 Is1. rewrite !sumn_lsum. apply lsum_ext. intros s2 Is2. apply lsum_ext. intros cr Ir. f_equal.
  change (map site_of gl ++ [site_of g1; site_of g2] ++ map site_of gr) with (map site_of gl ++ map site_of [g1; g2] ++ map site_of gr). rewrite <- !map_app.
  apply in_seq in Is1, Is2.
  apply (same_mpo_mat (map (@d1 R) tl ++ [p1; p2] ++ map (@d1 R) tr) (gl ++ [g1; g2] ++ gr) (wl ++ [w1; w2] ++ wr) HS ltac:(rewrite !app_length, !map_length; cbn; lia) 1 1 HF); [| |lia];
    (apply in_configs_app; [auto|]; apply in_configs_intro; [lia|]; apply in_configs_intro; [lia|]; auto).
Qed.
(** the block operators of DMRG and the environments of VMPS give the same effective Hamiltonian *)
Lemma vmps_dmrg : forall tl tr gl gr g1 g2 wl wr w1 w2 D0 p1 p2 D3, cut2 R tl tr gl gr g1 g2 D0 p1 p2 D3 -> cut R (map ten_of tl) (map ten_of tr) wl w1 w2 wr D0 D3 ->
  Forall2 (fun pg w => same_mpo R r0 (fst pg) (snd pg) w) (combine (map (@d1 R) (map ten_of tl) ++ [p1; p2] ++ map (@d1 R) (map ten_of tr)) (gl ++ [g1; g2] ++ gr)) (wl ++ [w1; w2] ++ wr) ->
  exists l r bl br, lenvs tl gl = Ok l /\ renvs tr gr = Ok r /\
    left_ops R r0 radd rmul conj (triv_group R r1) (map ten_of tl) wl = Ok bl /\ right_ops R r0 r1 radd rmul conj (map ten_of tr) wr = Ok br /\
  forall x, gd x = [D0; p1; p2; D3] -> exists y z, mul2 R r0 radd rmul l g1 g2 r x = Ok y /\ eff_mul R r0 radd rmul bl br w1 w2 D0 p1 p2 D3 (elems4 x) = Ok z /\
  forall a s1 s2 b, a < D0 -> s1 < p1 -> s2 < p2 -> b < D3 -> ge y [a; s1; s2; b] = z a s1 s2 b.
Proof.
  intros tl tr gl gr g1 g2 wl wr w1 w2 D0 p1 p2 D3 HC HD HS.
  destruct (mul2_projected R r0 r1 radd rmul rsub ropp Rth conj conj0 conj1 conj_add conj_mul tl tr gl gr g1 g2 D0 p1 p2 D3 HC) as [l [r [L1 [R1 HM]]]].
  destruct (eff_ham_ok R r0 r1 radd rmul rsub ropp Rth conj conj0 conj1 conj_add conj_mul (map ten_of tl) (map ten_of tr) wl w1 w2 wr D0 D3 HD) as [bl [br [B1 [B2 HE]]]].
  exists l, r, bl, br. split; [exact L1|]. split; [exact R1|]. split; [exact B1|]. split; [exact B2|]. intros x Ex.
  destruct (HM x Ex) as [y [Y1 [_ Y2]]]. destruct (HE p1 p2 (elems4 x)) as [z [z' [Z1 [_ Z2]]]]. exists y, z. split; [exact Y1|]. split; [exact Z1|].
  intros a s1 s2 b Ha H1 H2 Hb. rewrite Y2 by auto. destruct (Z2 a s1 s2 b Ha Hb) as [-> _].
  destruct HC as [[M0 [M1 [M2 [G1 [G2 [PL PR]]]]]]]. pose proof (part_len R _ _ _ _ _ _ PL) as LL. pose proof (part_len R _ _ _ _ _ _ PR) as LR.
  apply same_projected; auto; try (rewrite map_length; congruence).
  destruct HD as [_ _ K1 K2 K3 _ _ _]. apply (wfit_app R wl _ 1 (mrows w1) 1 K1). cbn [app wfit]. split; [auto|]. split; [auto|exact K3].
Qed.
End Facts.
