(** Noise and hand-over keep the state. *)
From Coq Require Import List Arith Lia Bool Ring.
From Verif Require Import Base FiniteMps FmpsSpec FmpsFacts EffHam EffHamSpec EffHamFacts FinMpo FinMpoSpec Legs VmpsLocal VmpsSpec VmpsEnv VmpsHeff VmpsShift.
Import ListNotations.

Section Facts.
Variables (R : Type) (r0 r1 : R) (radd rmul rsub : R -> R -> R) (ropp : R -> R).
Variable Rth : ring_theory r0 r1 radd rmul rsub ropp (@eq R).
Variable conj : R -> R.
Hypothesis conj0 : conj r0 = r0.
Hypothesis conj1 : conj r1 = r1.
Hypothesis conj_add : forall x y, conj (radd x y) = radd (conj x) (conj y).
Hypothesis conj_mul : forall x y, conj (rmul x y) = rmul (conj x) (conj y).
Add Ring Rring : Rth.
Infix "+r" := radd (at level 50, left associativity).
Infix "*r" := rmul (at level 40, left associativity).
Notation gten := (gten R). Notation mkG := (mkG R). Notation ge := (ge R). Notation gd := (gd R).
Notation sumn := (sumn R r0 radd). Notation lsum := (lsum R r0 radd).
Notation ten_of := (ten_of R). Notation site_of := (site_of R).
Notation mps_mat := (mps_mat R r0 r1 radd rmul). Notation mpo_mat := (mpo_mat R r0 r1 radd rmul).
Notation left_block := (left_block R r0 r1 radd rmul conj). Notation right_block := (right_block R r0 r1 radd rmul conj).
Notation lsum_ext := (lsum_ext R r0 radd). Notation lsum_swap := (lsum_swap R r0 r1 radd rmul rsub ropp Rth).
Notation lsum_mul_l := (lsum_mul_l R r0 r1 radd rmul rsub ropp Rth). Notation lsum_mul_r := (lsum_mul_r R r0 r1 radd rmul rsub ropp Rth).
Notation sumn_lsum := (sumn_lsum R r0 r1 radd rmul rsub ropp Rth).
Notation pull5 := (pull5 R r0 r1 radd rmul rsub ropp Rth).
Notation pull2 := (pull2 R r0 r1 radd rmul rsub ropp Rth). Notation pull3 := (pull3 R r0 r1 radd rmul rsub ropp Rth).
Notation part := (part R).


Ltac to_lsum := match goal with |- ?l = _ => match l with context [FmpsSpec.sumn R r0 radd ?n ?f] => rewrite (sumn_lsum n f) end end.
Ltac flat' := repeat (first [to_lsum | rewrite lsum_mul_l | rewrite lsum_mul_r | (eapply lsum_ext; intros ? ?)]); reflexivity.

Notation mps_mat_app := (mps_mat_app R r0 r1 radd rmul rsub ropp Rth).
Notation whole := (whole R r0 r1 radd rmul). Notation two_site := (two_site R r0 radd rmul).
Notation on := (fun ds ts => state_on R ds (map ten_of ts)). Notation amp := (fun ts => amp R r0 r1 radd rmul (map ten_of ts)).
Notation elems4 := (elems4 R).

Lemma s_ext : forall n f g, (forall i, i < n -> f i = g i) -> sumn n f = sumn n g.
Proof. intros n f g H. rewrite !sumn_lsum. apply lsum_ext. intros i Hi. apply in_seq in Hi. apply H. lia. Qed.

(** *** two neighbouring tensors replaced *)
Lemma fit_app_inv : forall ts ts' X Y, fit R X (ts ++ ts') Y -> exists D, fit R X ts D /\ fit R D ts' Y.
Proof.
  induction ts as [|t ts IH]; intros ts' X Y H; [exists X; split; [reflexivity|exact H]|].
  cbn in H. destruct H as [H1 H2]. destruct (IH _ _ _ H2) as [D [A B]]. exists D. split; [split; auto|auto].
Qed.
Lemma configs_in_app : forall ds ds' c, In c (configs (ds ++ ds')) -> exists c1 c2, c = c1 ++ c2 /\ In c1 (configs ds) /\ In c2 (configs ds').
Proof.
  induction ds as [|d ds IH]; intros ds' c H; [exists [], c; split; [auto|split; [left; auto|auto]]|].
  cbn in H. apply in_flat_map in H. destruct H as [s [Hs H]]. apply in_map_iff in H. destruct H as [c0 [<- H]]. destruct (IH _ _ H) as [c1 [c2 [-> [A B]]]].
  exists (s :: c1), c2. split; [auto|]. split; [|auto]. cbn. apply in_flat_map. exists s. split; [auto|]. apply in_map. auto.
Qed.
Lemma configs_in2 : forall p1 p2 c, In c (configs [p1; p2]) -> exists s1 s2, c = [s1; s2] /\ s1 < p1 /\ s2 < p2.
Proof.
  intros p1 p2 c H. cbn in H. apply in_flat_map in H. destruct H as [s1 [H1 H]]. apply in_map_iff in H. destruct H as [c1 [<- H]].
  apply in_flat_map in H. destruct H as [s2 [H2 H]]. destruct H as [<-|[]].
  apply in_seq in H1, H2. exists s1, s2. repeat split; lia.
Qed.
Lemma whole_ext : forall tl tr D0 D3 x y cl s1 s2 cr, (forall a b, a < D0 -> b < D3 -> x a s1 s2 b = y a s1 s2 b) ->
  whole tl tr D0 D3 x cl s1 s2 cr = whole tl tr D0 D3 y cl s1 s2 cr.
Proof. intros. unfold EffHamSpec.whole. apply s_ext. intros a Ha. apply s_ext. intros b Hb. rewrite H by auto. auto. Qed.
Lemma pair_replaced : forall tl t1 t2 t1' t2' tr ds D0 p1 D D' p2 D3, on ds (tl ++ [t1; t2] ++ tr) ->
  gd t1 = [D0; p1; D] -> gd t2 = [D; p2; D3] -> gd t1' = [D0; p1; D'] -> gd t2' = [D'; p2; D3] ->
  (forall a s1 s2 b, a < D0 -> s1 < p1 -> s2 < p2 -> b < D3 -> two_site (ten_of t1') (ten_of t2') a s1 s2 b = two_site (ten_of t1) (ten_of t2) a s1 s2 b) ->
  on ds (tl ++ [t1'; t2'] ++ tr) /\ forall c, In c (configs ds) -> amp (tl ++ [t1'; t2'] ++ tr) c = amp (tl ++ [t1; t2] ++ tr) c.
Proof.
  intros tl t1 t2 t1' t2' tr ds D0 p1 D D' p2 D3 [HF HD] E1 E2 E1' E2' HE. rewrite !map_app in HF, HD. cbn [map] in HF, HD.
  destruct (ten_dims R t1 _ _ _ E1) as [A0 [A1 A2]]. destruct (ten_dims R t2 _ _ _ E2) as [B0 [B1 B2]].
  destruct (ten_dims R t1' _ _ _ E1') as [A0' [A1' A2']]. destruct (ten_dims R t2' _ _ _ E2') as [B0' [B1' B2']].
  destruct (fit_app_inv _ _ _ _ HF) as [X [F1 F2]]. cbn [app fit] in F2. destruct F2 as [F2 [F3 F4]].
  rewrite !map_app in *. cbn [map] in *.
  assert (HN : fit R 1 (map ten_of tl ++ [ten_of t1'; ten_of t2'] ++ map ten_of tr) 1).
  { apply (fit_app R _ _ 1 X 1 F1). cbn [app fit]. split; [congruence|]. split; [congruence|]. rewrite B2', <- B2. exact F4. }
  split. { split; [exact HN|]. rewrite !map_app. cbn [map]. rewrite A1', B1', <- A1, <- B1. exact HD. }
  intros c Hc. rewrite <- HD in Hc. rewrite A1, B1 in Hc.
  apply configs_in_app in Hc. destruct Hc as [cl [c2 [-> [Hl Hc]]]]. apply configs_in_app in Hc. destruct Hc as [cm [cr [-> [Hm Hr]]]].
  apply configs_in2 in Hm. destruct Hm as [s1 [s2 [-> [Hs1 Hs2]]]]. apply configs_len in Hl. rewrite map_length in Hl.
  unfold FinMpoSpec.amp.
  pose proof (whole_mps R r0 r1 radd rmul rsub ropp Rth (map ten_of tl) (ten_of t1') (ten_of t2') (map ten_of tr) cl s1 s2 cr) as W'.
  pose proof (whole_mps R r0 r1 radd rmul rsub ropp Rth (map ten_of tl) (ten_of t1) (ten_of t2) (map ten_of tr) cl s1 s2 cr) as W.
  rewrite <- W by (auto; congruence). rewrite <- W' by (auto; congruence). rewrite A0, A0', B2, B2'. apply whole_ext. intros. apply HE; auto.
Qed.

(** *** single-site noise *)
Lemma expand1_r_keeps : forall tl gs next tr ds h0 h1 noise D0 M0 p D2 M1 q D3, on ds (tl ++ [gs; next] ++ tr) ->
  gd gs = [D0; p; D2] -> gd next = [D2; q; D3] -> gd h0 = [D0; M0; D0] -> gd h1 = [M0; p; p; M1] ->
  exists a b, expand1_r R r0 radd rmul h0 h1 gs next noise = Ok (a, b) /\ gd a = [D0; p; D2 + D2 * M1] /\ gd b = [D2 + D2 * M1; q; D3] /\
  on ds (tl ++ [a; b] ++ tr) /\ forall c, In c (configs ds) -> amp (tl ++ [a; b] ++ tr) c = amp (tl ++ [gs; next] ++ tr) c.
Proof.
  intros tl gs next tr ds h0 h1 noise D0 M0 p D2 M1 q D3 HS E1 E2 E3 E4.
  destruct (expand1_r_el R r0 radd rmul h0 h1 gs next noise D0 M0 p D2 M1 q D3 E3 E4 E1 E2) as [a [b [A [B1 [B2 [B3 B4]]]]]].
  exists a, b. split; [exact A|]. split; [exact B1|]. split; [exact B2|].
  apply (pair_replaced tl gs next a b tr ds D0 p D2 (sum_dim D2 (fused_dim D2 M1)) q D3); auto.
  intros x s1 s2 y _ _ _ _. unfold EffHamSpec.two_site. destruct (ten_dims R gs _ _ _ E1) as [_ [_ Q]]. destruct (ten_dims R a _ _ _ B1) as [_ [_ Q']]. rewrite Q, Q'.
  apply (sum_enlarged R r0 r1 radd rmul rsub ropp Rth); intros k Hk; cbn [el Legs.ten_of]; rewrite ?B3, ?B4, ?in_first_lt, ?in_first_ge by auto; auto. ring.
Qed.
Lemma expand1_l_keeps : forall tl gs next tr ds h1 h2 noise D M0 q D0 p M1 D2, on ds (tl ++ [next; gs] ++ tr) ->
  gd gs = [D0; p; D2] -> gd next = [D; q; D0] -> gd h2 = [D2; M1; D2] -> gd h1 = [M0; p; p; M1] ->
  exists a b, expand1_l R r0 radd rmul h1 h2 gs next noise = Ok (a, b) /\ gd a = [D0 + D0 * M0; p; D2] /\ gd b = [D; q; D0 + D0 * M0] /\
  on ds (tl ++ [b; a] ++ tr) /\ forall c, In c (configs ds) -> amp (tl ++ [b; a] ++ tr) c = amp (tl ++ [next; gs] ++ tr) c.
Proof.
  intros tl gs next tr ds h1 h2 noise D M0 q D0 p M1 D2 HS E1 E2 E3 E4.
  destruct (expand1_l_el R r0 radd rmul h1 h2 gs next noise D2 M1 p D0 M0 q D E3 E4 E1 E2) as [a [b [A [B1 [B2 [B3 B4]]]]]].
  exists a, b. split; [exact A|]. split; [exact B1|]. split; [exact B2|].
  apply (pair_replaced tl next gs b a tr ds D q D0 (sum_dim D0 (fused_dim D0 M0)) p D2); auto.
  intros x s1 s2 y _ _ _ _. unfold EffHamSpec.two_site. destruct (ten_dims R next _ _ _ E2) as [_ [_ Q]]. destruct (ten_dims R b _ _ _ B2) as [_ [_ Q']]. rewrite Q, Q'.
  apply (sum_enlarged R r0 r1 radd rmul rsub ropp Rth); intros k Hk; cbn [el Legs.ten_of]; rewrite ?B3, ?B4, ?in_first_lt, ?in_first_ge by auto; auto. ring.
Qed.
(** what is added: the half of H applied to the tensor that the outer environment completes *)
Lemma fused_ok : forall b m M, m < M -> fused_1 (b * M + m) M = b /\ fused_2 (b * M + m) M = m.
Proof.
  intros b m M H. unfold fused_1, fused_2. rewrite (Nat.add_comm (b * M)). split.
  - rewrite Nat.div_add by lia. rewrite Nat.div_small by lia. lia.
  - rewrite Nat.mod_add by lia. apply Nat.mod_small. lia.
Qed.
Lemma second_ok : forall n k, in_second (n + k) n = k.
Proof. intros. unfold in_second. lia. Qed.
Lemma expand1_r_adds : forall h0 h1 h2 gs next noise D0 M0 p D2 M1 q D3 a b y, gd gs = [D0; p; D2] -> gd next = [D2; q; D3] -> gd h0 = [D0; M0; D0] -> gd h1 = [M0; p; p; M1] -> gd h2 = [D2; M1; D2] ->
  expand1_r R r0 radd rmul h0 h1 gs next noise = Ok (a, b) -> mul1 R r0 radd rmul h0 h1 h2 gs = Ok y ->
  forall x s z, sumn D2 (fun k => sumn M1 (fun m => ge a [x; s; D2 + (k * M1 + m)] *r ge h2 [z; m; k])) = noise *r ge y [x; s; z].
Proof.
  intros h0 h1 h2 gs next noise D0 M0 p D2 M1 q D3 a b y E1 E2 E3 E4 E5 HA HY x s z.
  destruct (expand1_r_el R r0 radd rmul h0 h1 gs next noise D0 M0 p D2 M1 q D3 E3 E4 E1 E2) as [a' [b' [A [_ [_ [B _]]]]]]. rewrite A in HA. injection HA as <- <-.
  destruct (mul1_el R r0 radd rmul h0 h1 h2 gs D0 M0 p M1 D2 E3 E4 E5 E1) as [y' [Y1 [_ Y2]]]. rewrite Y1 in HY. injection HY as <-. rewrite Y2.
  transitivity (sumn D2 (fun k => sumn M1 (fun m => noise *r (sumn M0 (fun i => sumn p (fun s1 => sumn D0 (fun l => ge h0 [x; i; l] *r ge gs [l; s1; k]) *r ge h1 [i; s1; s; m])) *r ge h2 [z; m; k])))).
  - apply s_ext. intros k _. apply s_ext. intros m Hm. rewrite B, in_first_ge by lia. rewrite second_ok. destruct (fused_ok k m M1 Hm) as [-> ->]. ring.
  - etransitivity; [rewrite sumn_lsum; eapply lsum_ext; intros k _; rewrite sumn_lsum, <- lsum_mul_l; reflexivity|]. cbv beta. rewrite <- lsum_mul_l. f_equal.
    rewrite lsum_swap, sumn_lsum. apply lsum_ext. intros m _. rewrite sumn_lsum. reflexivity.
Qed.
Lemma expand1_l_adds : forall h0 h1 h2 gs next noise D0 M0 p D2 M1 q D a b y, gd gs = [D0; p; D2] -> gd next = [D; q; D0] -> gd h0 = [D0; M0; D0] -> gd h1 = [M0; p; p; M1] -> gd h2 = [D2; M1; D2] ->
  expand1_l R r0 radd rmul h1 h2 gs next noise = Ok (a, b) -> mul1 R r0 radd rmul h0 h1 h2 gs = Ok y ->
  forall x s z, sumn D0 (fun k => sumn M0 (fun m => ge h0 [x; m; k] *r ge a [D0 + (k * M0 + m); s; z])) = noise *r ge y [x; s; z].
Proof.
  intros h0 h1 h2 gs next noise D0 M0 p D2 M1 q D a b y E1 E2 E3 E4 E5 HA HY x s z.
  destruct (expand1_l_el R r0 radd rmul h1 h2 gs next noise D2 M1 p D0 M0 q D E5 E4 E1 E2) as [a' [b' [A [_ [_ [B _]]]]]]. rewrite A in HA. injection HA as <- <-.
  destruct (mul1_el R r0 radd rmul h0 h1 h2 gs D0 M0 p M1 D2 E3 E4 E5 E1) as [y' [Y1 [_ Y2]]]. rewrite Y1 in HY. injection HY as <-. rewrite Y2.
  transitivity (sumn D0 (fun k => sumn M0 (fun m => noise *r (ge h0 [x; m; k] *r sumn p (fun s1 => sumn M1 (fun j => sumn D2 (fun r => ge gs [k; s1; r] *r ge h2 [z; j; r]) *r ge h1 [m; s1; s; j])))))).
  - apply s_ext. intros k _. apply s_ext. intros m Hm. rewrite B, in_first_ge by lia. rewrite second_ok. destruct (fused_ok k m M0 Hm) as [-> ->]. ring.
  - etransitivity; [rewrite sumn_lsum; eapply lsum_ext; intros k _; rewrite sumn_lsum, <- lsum_mul_l; reflexivity|]. cbv beta. rewrite <- lsum_mul_l. f_equal.
    etransitivity; [flat'|]. cbv beta. symmetry. etransitivity; [flat'|]. cbv beta. symmetry.
    (* k m s1 j r ; wanted j r m s1 k *)
    etransitivity; [apply pull3|]. apply lsum_ext. intros j _. etransitivity; [apply pull3|]. apply lsum_ext. intros r _.
    etransitivity; [apply lsum_swap|]. apply lsum_ext. intros m _. etransitivity; [apply lsum_swap|]. apply lsum_ext. intros s1 _. apply lsum_ext. intros k _. ring.
Qed.

(** *** two-site noise *)
Variable mock : gten -> gten.
Lemma expand2_r_keeps : forall norm h0 h1 h2 gs next noise D0 M0 p1 M1 p2 M2 D3 q D4,
  gd h0 = [D0; M0; D0] -> gd h1 = [M0; p1; p1; M1] -> gd h2 = [M1; p2; p2; M2] -> gd gs = [D0; p1; p2; D3] -> gd next = [D3; q; D4] ->
  (norm = false -> forall t, gd t = [M2; M1; p2; p2] -> exists K, gd (mock t) = [K; M1; p2; p2]) ->
  exists K a b, expand2_r R r0 radd rmul mock norm h0 h1 h2 gs next noise = Ok (a, b) /\ gd a = [D0; p1; p2; D3 + K] /\ gd b = [D3 + K; q; D4] /\
  forall tl tr cl s1 s2 cr, whole tl (ten_of b :: tr) D0 (D3 + K) (elems4 a) cl s1 s2 cr = whole tl (ten_of next :: tr) D0 D3 (elems4 gs) cl s1 s2 cr.
Proof.
  intros norm h0 h1 h2 gs next noise D0 M0 p1 M1 p2 M2 D3 q D4 E0 E1 E2 E3 E4 HM.
  assert (HV : exists v K, if norm then v = h2 /\ K = M2 else exists h2', gtrans R [3; 0; 1; 2] h2 = Ok h2' /\ gd (mock h2') = [K; M1; p2; p2] /\ gtrans R [1; 2; 3; 0] (mock h2') = Ok v).
  { destruct norm; [exists h2, M2; auto|].
    assert (T : exists h2', gtrans R [3; 0; 1; 2] h2 = Ok h2' /\ gd h2' = [M2; M1; p2; p2]).
    { destruct h2 as [? h2]. cbn in E2. subst. eexists. split; [legs; reflexivity|]. reflexivity. }
    destruct T as [h2' [T1 T2]]. destruct (HM eq_refl h2' T2) as [K HK].
    assert (T3 : exists v, gtrans R [1; 2; 3; 0] (mock h2') = Ok v). { destruct (mock h2') as [? m]. cbn in HK. subst. eexists. legs. reflexivity. }
    destruct T3 as [v T3]. exists v, K, h2'. auto. }
  destruct HV as [v [K HV]].
  destruct (expand2_r_el R r0 r1 radd rmul rsub ropp Rth mock norm h0 h1 h2 gs next noise D0 M0 p1 M1 p2 M2 D3 q D4 K v E0 E1 E2 E3 E4 HV) as [a [b [A [B1 [B2 [B3 B4]]]]]].
  exists (D3 * K), a, b. split; [exact A|]. split; [exact B1|]. split; [exact B2|]. intros tl tr cl s1 s2 cr. unfold EffHamSpec.whole. apply s_ext. intros x _.
  destruct cr as [|s3 cr].
  { rewrite (s_ext (D3 + D3 * K) _ (fun _ => r0)) by (intros; cbn [EffHamSpec.mps_mat]; ring). rewrite (s_ext D3 (fun b0 => mps_mat tl cl 0 x *r VmpsHeff.elems4 R gs x s1 s2 b0 *r _) (fun _ => r0)) by (intros; cbn [EffHamSpec.mps_mat]; ring).
    rewrite !sumn_lsum. rewrite !(lsum_0 R r0 r1 radd rmul rsub ropp Rth); auto. }
  apply (sum_enlarged R r0 r1 radd rmul rsub ropp Rth D3 (D3 * K)); intros k Hk; cbn [EffHamSpec.mps_mat].
  - unfold VmpsHeff.elems4. rewrite B3, in_first_lt by auto. auto.
  - destruct (ten_dims R next _ _ _ E4) as [_ [_ Q]]. destruct (ten_dims R b _ _ _ B2) as [_ [_ Q']]. rewrite Q, Q'. apply s_ext. intros z _. cbn [el Legs.ten_of]. rewrite B4, in_first_lt by auto. auto.
  - rewrite (s_ext (d2 (ten_of b)) _ (fun _ => r0)). 2:{ intros z _. cbn [el Legs.ten_of]. rewrite B4, in_first_ge by auto. ring. }
    rewrite (sumn_lsum (d2 (ten_of b))). rewrite (lsum_0 R r0 r1 radd rmul rsub ropp Rth) by auto. ring.
Qed.
Lemma expand2_l_keeps : forall h1 h2 h3 gs next noise D0 M0 p1 M1 p2 M2 D3 q D,
  gd h1 = [M0; p1; p1; M1] -> gd h2 = [M1; p2; p2; M2] -> gd h3 = [D3; M2; D3] -> gd gs = [D0; p1; p2; D3] -> gd next = [D; q; D0] ->
  exists a b, expand2_l R r0 radd rmul h1 h2 h3 gs next noise = Ok (a, b) /\ gd a = [D0 + D0 * M0; p1; p2; D3] /\ gd b = [D; q; D0 + D0 * M0] /\
  forall tl tr cl s0 s1 s2 cr, fit R 1 tl D -> length cl = length tl ->
    whole (tl ++ [ten_of b]) tr (D0 + D0 * M0) D3 (elems4 a) (cl ++ [s0]) s1 s2 cr = whole (tl ++ [ten_of next]) tr D0 D3 (elems4 gs) (cl ++ [s0]) s1 s2 cr.
Proof.
  intros h1 h2 h3 gs next noise D0 M0 p1 M1 p2 M2 D3 q D E0 E1 E2 E3 E4.
  destruct (expand2_l_el R r0 radd rmul h1 h2 h3 gs next noise D0 M0 p1 M1 p2 M2 D3 q D E0 E1 E2 E3 E4) as [a [b [A [B1 [B2 [B3 B4]]]]]].
  exists a, b. split; [exact A|]. split; [exact B1|]. split; [exact B2|]. intros tl tr cl s0 s1 s2 cr HF HL. unfold EffHamSpec.whole.
  destruct (ten_dims R next _ _ _ E4) as [_ [_ Q]]. destruct (ten_dims R b _ _ _ B2) as [_ [_ Q']].
  assert (W : forall t, gd t = [D; q; d2 (ten_of t)] -> forall k, k < d2 (ten_of t) -> mps_mat (tl ++ [ten_of t]) (cl ++ [s0]) 0 k = lsum (seq 0 D) (fun z => mps_mat tl cl 0 z *r ge t [z; s0; k])).
  { intros t Et k Hk. rewrite (mps_mat_app tl [ten_of t] cl [s0] 1 D 0 k HF) by (try lia; auto). apply lsum_ext. intros z _. rewrite (mps_one R r0 r1 radd rmul rsub ropp Rth) by auto. reflexivity. }
  etransitivity; [apply (s_ext (D0 + D0 * M0) _ (fun k => mps_mat (tl ++ [ten_of b]) (cl ++ [s0]) 0 k *r sumn D3 (fun z => elems4 a k s1 s2 z *r mps_mat tr cr z 0)))|].
  { intros k _. rewrite !sumn_lsum, lsum_mul_l. apply lsum_ext. intros; ring. }
  symmetry. etransitivity; [apply (s_ext D0 _ (fun k => mps_mat (tl ++ [ten_of next]) (cl ++ [s0]) 0 k *r sumn D3 (fun z => elems4 gs k s1 s2 z *r mps_mat tr cr z 0)))|].
  { intros k _. rewrite !sumn_lsum, lsum_mul_l. apply lsum_ext. intros; ring. }
  cbv beta. rewrite (sumn_lsum (D0 + D0 * M0)). rewrite seq_app, (lsum_app R r0 r1 radd rmul rsub ropp Rth).
  rewrite (lsum_0 R r0 r1 radd rmul rsub ropp Rth (seq (0 + D0) (D0 * M0))).
  - etransitivity; [|instantiate (1 := lsum (seq 0 D0) (fun k => mps_mat (tl ++ [ten_of b]) (cl ++ [s0]) 0 k *r sumn D3 (fun z => elems4 a k s1 s2 z *r mps_mat tr cr z 0)) +r r0); reflexivity].
    transitivity (lsum (seq 0 D0) (fun k => mps_mat (tl ++ [ten_of b]) (cl ++ [s0]) 0 k *r sumn D3 (fun z => elems4 a k s1 s2 z *r mps_mat tr cr z 0))); [|ring].
    rewrite sumn_lsum. apply lsum_ext. intros k Hk. apply in_seq in Hk. rewrite !W; unfold sum_dim, fused_dim in *; try (rewrite ?Q, ?Q'; auto; lia). f_equal.
    + apply lsum_ext. intros z _. rewrite B4, in_first_lt by lia. auto.
    + apply s_ext. intros z _. unfold VmpsHeff.elems4. rewrite B3, in_first_lt by lia. auto.
  - intros k Hk. apply in_seq in Hk. rewrite W; unfold sum_dim, fused_dim in *; try (rewrite ?Q, ?Q'; auto; lia).
    rewrite (lsum_0 R r0 r1 radd rmul rsub ropp Rth (seq 0 D)); [ring|]. intros z _. rewrite B4, in_first_ge by lia. ring.
Qed.

Lemma expand2_r_adds : forall h0 h1 h2 h3 gs next noise D0 M0 p1 M1 p2 M2 D3 q D4 a b y,
  gd h0 = [D0; M0; D0] -> gd h1 = [M0; p1; p1; M1] -> gd h2 = [M1; p2; p2; M2] -> gd h3 = [D3; M2; D3] -> gd gs = [D0; p1; p2; D3] -> gd next = [D3; q; D4] ->
  expand2_r R r0 radd rmul mock true h0 h1 h2 gs next noise = Ok (a, b) -> mul2 R r0 radd rmul h0 h1 h2 h3 gs = Ok y ->
  forall x s t z, sumn D3 (fun k => sumn M2 (fun m => ge a [x; s; t; D3 + (k * M2 + m)] *r ge h3 [z; m; k])) = noise *r ge y [x; s; t; z].
Proof.
  intros h0 h1 h2 h3 gs next noise D0 M0 p1 M1 p2 M2 D3 q D4 a b y E0 E1 E2 E5 E3 E4 HA HY x s t z.
  destruct (expand2_r_el R r0 r1 radd rmul rsub ropp Rth mock true h0 h1 h2 gs next noise D0 M0 p1 M1 p2 M2 D3 q D4 M2 h2 E0 E1 E2 E3 E4 (Logic.conj eq_refl eq_refl)) as [a' [b' [A [_ [_ [B _]]]]]]. rewrite A in HA. injection HA as <- <-.
  destruct (mul2_el R r0 radd rmul h0 h1 h2 h3 gs D0 M0 p1 M1 p2 M2 D3 E0 E1 E2 E5 E3) as [y' [Y1 [_ Y2]]]. rewrite Y1 in HY. injection HY as <-. rewrite Y2.
  transitivity (sumn D3 (fun k => sumn M2 (fun m => noise *r (sumn M1 (fun j => sumn p2 (fun s2 => sumn M0 (fun i => sumn p1 (fun s1 =>
      sumn D0 (fun a => ge h0 [x; i; a] *r ge gs [a; s1; s2; k]) *r ge h1 [i; s1; s; j])) *r ge h2 [j; s2; t; m])) *r ge h3 [z; m; k])))).
  - apply s_ext. intros k _. apply s_ext. intros m Hm. rewrite B, in_first_ge by lia. rewrite second_ok. destruct (fused_ok k m M2 Hm) as [-> ->]. ring.
  - etransitivity; [rewrite sumn_lsum; eapply lsum_ext; intros k _; rewrite sumn_lsum, <- lsum_mul_l; reflexivity|]. cbv beta. rewrite <- lsum_mul_l. f_equal.
    rewrite lsum_swap, sumn_lsum. apply lsum_ext. intros m _. rewrite sumn_lsum. reflexivity.
Qed.
Lemma expand2_l_adds : forall h0 h1 h2 h3 gs next noise D0 M0 p1 M1 p2 M2 D3 q D a b y,
  gd h0 = [D0; M0; D0] -> gd h1 = [M0; p1; p1; M1] -> gd h2 = [M1; p2; p2; M2] -> gd h3 = [D3; M2; D3] -> gd gs = [D0; p1; p2; D3] -> gd next = [D; q; D0] ->
  expand2_l R r0 radd rmul h1 h2 h3 gs next noise = Ok (a, b) -> mul2 R r0 radd rmul h0 h1 h2 h3 gs = Ok y ->
  forall x s t z, sumn D0 (fun k => sumn M0 (fun m => ge h0 [x; m; k] *r ge a [D0 + (k * M0 + m); s; t; z])) = noise *r ge y [x; s; t; z].
Proof.
  intros h0 h1 h2 h3 gs next noise D0 M0 p1 M1 p2 M2 D3 q D a b y E0 E1 E2 E5 E3 E4 HA HY x s t z.
  destruct (expand2_l_el R r0 radd rmul h1 h2 h3 gs next noise D0 M0 p1 M1 p2 M2 D3 q D E1 E2 E5 E3 E4) as [a' [b' [A [_ [_ [B _]]]]]]. rewrite A in HA. injection HA as <- <-.
  destruct (mul2_el R r0 radd rmul h0 h1 h2 h3 gs D0 M0 p1 M1 p2 M2 D3 E0 E1 E2 E5 E3) as [y' [Y1 [_ Y2]]]. rewrite Y1 in HY. injection HY as <-. rewrite Y2.
  transitivity (sumn D0 (fun k => sumn M0 (fun m => noise *r (ge h0 [x; m; k] *r sumn p1 (fun s1 => sumn M1 (fun j => sumn p2 (fun s2 => sumn M2 (fun n => sumn D3 (fun r => ge gs [k; s1; s2; r] *r ge h3 [z; n; r]) *r ge h2 [j; s2; t; n])) *r
       ge h1 [m; s1; s; j])))))).
  - apply s_ext. intros k _. apply s_ext. intros m Hm. rewrite B, in_first_ge by lia. rewrite second_ok. destruct (fused_ok k m M0 Hm) as [-> ->]. ring.
  - etransitivity; [rewrite sumn_lsum; eapply lsum_ext; intros k _; rewrite sumn_lsum, <- lsum_mul_l; reflexivity|]. cbv beta. rewrite <- lsum_mul_l. f_equal.
    etransitivity; [flat'|]. cbv beta. symmetry. etransitivity; [flat'|]. cbv beta. symmetry.
    (* k m s1 j s2 n r ; wanted n r j s2 m s1 k *)
    etransitivity; [apply pull5|]. apply lsum_ext. intros n _. etransitivity; [apply pull5|]. apply lsum_ext. intros r _.
    etransitivity; [apply pull3|]. apply lsum_ext. intros j _. etransitivity; [apply pull3|]. apply lsum_ext. intros s2 _.
    etransitivity; [apply lsum_swap|]. apply lsum_ext. intros m _. etransitivity; [apply lsum_swap|]. apply lsum_ext. intros s1 _. apply lsum_ext. intros k _. ring.
Qed.

(** *** hand-over *)
Variable svd : nat -> gten -> gten * gten * gten.
Lemma in_configs4 : forall a b c d i j k l, i < a -> j < b -> k < c -> l < d -> In [i; j; k; l] (configs [a; b; c; d]).
Proof.
  assert (C : forall d ds s c, s < d -> In c (configs ds) -> In (s :: c) (configs (d :: ds))).
  { intros d ds s c Hs Hc. cbn. apply in_flat_map. exists s. split; [apply in_seq; lia|]. apply in_map. auto. }
  intros. repeat (apply C; auto). left. auto.
Qed.
Lemma in_configs3 : forall a b c i j k, i < a -> j < b -> k < c -> In [i; j; k] (configs [a; b; c]).
Proof.
  assert (C : forall d ds s c, s < d -> In c (configs ds) -> In (s :: c) (configs (d :: ds))).
  { intros d ds s c Hs Hc. cbn. apply in_flat_map. exists s. split; [apply in_seq; lia|]. apply in_map. auto. }
  intros. repeat (apply C; auto). left. auto.
Qed.
Lemma split2_ok : forall dir x y D0 p1 p2 D3, gd x = [D0; p1; p2; D3] -> factors R r0 radd rmul svd 2 x y ->
  exists a b K, split2 R r0 radd rmul svd dir x = Ok (a, b) /\ gd a = [D0; p1; K] /\ gd b = [K; p2; D3] /\
  forall tl tr cl s1 s2 cr, fit R 1 tl D0 -> length cl = length tl -> s1 < p1 -> s2 < p2 ->
    mps_mat (tl ++ [ten_of a; ten_of b] ++ tr) (cl ++ [s1; s2] ++ cr) 0 0 = whole tl tr D0 D3 (elems4 y) cl s1 s2 cr.
Proof.
  intros dir x y D0 p1 p2 D3 Ex [_ HFac]. unfold split2. destruct (svd 2 x) as [[u s] vt]. destruct HFac as [K [L [U1 [U2 [U3 U4]]]]]. rewrite Ex in U1, U3, U4. cbn [firstn skipn app] in U1, U3.
  assert (HH : exists a b Q, (if dir then let! b := gcontract R r0 radd rmul [1] [0] s vt in Ok (u, b) else let! a := gcontract R r0 radd rmul [2] [0] u s in Ok (a, vt)) = Ok (a, b) /\
    gd a = [D0; p1; Q] /\ gd b = [Q; p2; D3] /\ forall i j k l, sumn Q (fun m => ge a [i; j; m] *r ge b [m; k; l]) = sumn K (fun m => sumn L (fun n => ge u [i; j; m] *r ge s [m; n] *r ge vt [n; k; l]))).
  { clear U4. destruct u as [? u], s as [? s], vt as [? vt]. cbn in U1, U2, U3. subst. destruct dir.
    - eexists. eexists. exists K. split; [legs; reflexivity|]. split; [reflexivity|]. split; [reflexivity|]. intros i j k l. cbv beta. legs.
      apply s_ext. intros m _. rewrite !sumn_lsum, lsum_mul_l. apply lsum_ext. intros n _. ring.
    - eexists. eexists. exists L. split; [legs; reflexivity|]. split; [reflexivity|]. split; [reflexivity|]. intros i j k l. legs.
      etransitivity; [flat'|]. cbv beta. etransitivity; [apply lsum_swap|]. symmetry. rewrite sumn_lsum. apply lsum_ext. intros m _. rewrite sumn_lsum. apply lsum_ext. intros n _. ring. }
  destruct HH as [a [b [Q [P1 [P2 [P3 P4]]]]]]. exists a, b, Q. split; [exact P1|]. split; [exact P2|]. split; [exact P3|].
  intros tl tr cl s1 s2 cr HF HL H1 H2. destruct (ten_dims R a _ _ _ P2) as [A0 [A1 A2]]. destruct (ten_dims R b _ _ _ P3) as [B0 [B1 B2]].
  pose proof (whole_mps R r0 r1 radd rmul rsub ropp Rth tl (ten_of a) (ten_of b) tr cl s1 s2 cr) as W. rewrite <- W by (try congruence; rewrite ?A0; auto).
  rewrite A0, B2. apply whole_ext. intros i l Hi Hl. unfold EffHamSpec.two_site, VmpsHeff.elems4. rewrite A2. cbn [el Legs.ten_of]. rewrite P4.
  symmetry. apply (U4 [i; s1] [s2; l] eq_refl). apply in_configs4; auto.
Qed.
Lemma split1_r_ok : forall tl t y next tr ds D0 p D q D3, gd t = [D0; p; D] -> gd next = [D; q; D3] -> on ds (tl ++ [t; next] ++ tr) -> factors R r0 radd rmul svd 2 t y ->
  exists a b K, split1 R r0 radd rmul svd true t next = Ok (a, b) /\ gd a = [D0; p; K] /\ gd b = [K; q; D3] /\ on ds (tl ++ [a; b] ++ tr) /\
  forall c, In c (configs ds) -> amp (tl ++ [a; b] ++ tr) c = amp (tl ++ [y; next] ++ tr) c.
Proof.
  intros tl t y next tr ds D0 p D q D3 Et En HS [Ey HFac]. unfold split1. destruct (svd 2 t) as [[u s] vt]. destruct HFac as [K [L [U1 [U2 [U3 U4]]]]]. rewrite Et in U1, U3, U4, Ey. cbn [firstn skipn app] in U1, U3.
  assert (HH : exists b, (let! m := gcontract R r0 radd rmul [1] [0] s vt in let! b := gcontract R r0 radd rmul [1] [0] m next in Ok (u, b)) = Ok (u, b) /\ gd b = [K; q; D3] /\
    forall m k l, ge b [m; k; l] = sumn D (fun d => sumn L (fun n => ge s [m; n] *r ge vt [n; d]) *r ge next [d; k; l])).
  { clear U4 HS. destruct u as [? u], s as [? s], vt as [? vt], next as [? next]. cbn in U1, U2, U3, En. subst. eexists. split; [legs; reflexivity|]. split; [reflexivity|]. intros. legs. reflexivity. }
  destruct HH as [b [P1 [P2 P3]]]. exists u, b, K. split; [exact P1|]. split; [exact U1|]. split; [exact P2|].
  assert (HY : on ds (tl ++ [y; next] ++ tr)).
  { destruct HS as [S1 S2]. rewrite !map_app in S1, S2. cbn [map] in S1, S2. unfold state_on. rewrite !map_app. cbn [map].
    destruct (ten_dims R t _ _ _ Et) as [A0 [A1 A2]]. destruct (ten_dims R y _ _ _ Ey) as [B0 [B1 B2]]. split.
    - destruct (fit_app_inv _ _ _ _ S1) as [X [F1 F2]]. cbn [app fit] in F2. apply (fit_app R _ _ 1 X 1 F1). cbn [app fit]. rewrite B0, B2, <- A0, <- A2. exact F2.
    - rewrite B1, <- A1. exact S2. }
  apply (pair_replaced tl y next u b tr ds D0 p D K q D3 HY); auto.
  intros i j k l Hi Hj Hk Hl. unfold EffHamSpec.two_site. destruct (ten_dims R u _ _ _ U1) as [_ [_ A2]]. destruct (ten_dims R y _ _ _ Ey) as [_ [_ B2]]. rewrite A2, B2. cbn [el Legs.ten_of].
  transitivity (sumn D (fun d => sumn K (fun k0 => sumn L (fun n => ge u [i; j; k0] *r ge s [k0; n] *r ge vt [n; d])) *r ge next [d; k; l])).
  - rewrite (s_ext K _ (fun m => ge u [i; j; m] *r sumn D (fun d => sumn L (fun n => ge s [m; n] *r ge vt [n; d]) *r ge next [d; k; l]))) by (intros; rewrite P3; auto).
    etransitivity; [flat'|]. cbv beta. symmetry. etransitivity; [flat'|]. cbv beta. symmetry. etransitivity; [apply lsum_swap|]. apply lsum_ext. intros d _. apply lsum_ext. intros m _. apply lsum_ext. intros n _. ring.
  - apply s_ext. intros d Hd. f_equal. symmetry. apply (U4 [i; j] [d] eq_refl). apply in_configs3; auto.
Qed.
Lemma split1_l_ok : forall tl t y next tr ds D0 p D q D3, gd t = [D0; p; D] -> gd next = [D3; q; D0] -> on ds (tl ++ [next; t] ++ tr) -> factors R r0 radd rmul svd 1 t y ->
  exists a b K, split1 R r0 radd rmul svd false t next = Ok (a, b) /\ gd a = [K; p; D] /\ gd b = [D3; q; K] /\ on ds (tl ++ [b; a] ++ tr) /\
  forall c, In c (configs ds) -> amp (tl ++ [b; a] ++ tr) c = amp (tl ++ [next; y] ++ tr) c.
Proof.
  intros tl t y next tr ds D0 p D q D3 Et En HS [Ey HFac]. unfold split1. destruct (svd 1 t) as [[u s] vt]. destruct HFac as [K [L [U1 [U2 [U3 U4]]]]]. rewrite Et in U1, U3, U4, Ey. cbn [firstn skipn app] in U1, U3.
  assert (HH : exists b, (let! m := gcontract R r0 radd rmul [1] [0] u s in let! b := gcontract R r0 radd rmul [2] [0] next m in Ok (vt, b)) = Ok (vt, b) /\ gd b = [D3; q; L] /\
    forall l k n, ge b [l; k; n] = sumn D0 (fun d => ge next [l; k; d] *r sumn K (fun m => ge u [d; m] *r ge s [m; n]))).
  { clear U4 HS. destruct u as [? u], s as [? s], vt as [? vt], next as [? next]. cbn in U1, U2, U3, En. subst. eexists. split; [legs; reflexivity|]. split; [reflexivity|]. intros. legs. reflexivity. }
  destruct HH as [b [P1 [P2 P3]]]. exists vt, b, L. split; [exact P1|]. split; [exact U3|]. split; [exact P2|].
  assert (HY : on ds (tl ++ [next; y] ++ tr)).
  { destruct HS as [S1 S2]. rewrite !map_app in S1, S2. cbn [map] in S1, S2. unfold state_on. rewrite !map_app. cbn [map].
    destruct (ten_dims R t _ _ _ Et) as [A0 [A1 A2]]. destruct (ten_dims R y _ _ _ Ey) as [B0 [B1 B2]]. split.
    - destruct (fit_app_inv _ _ _ _ S1) as [X [F1 F2]]. cbn [app fit] in F2. apply (fit_app R _ _ 1 X 1 F1). cbn [app fit]. rewrite B0, B2, <- A0, <- A2. exact F2.
    - rewrite B1, <- A1. exact S2. }
  apply (pair_replaced tl next y b vt tr ds D3 q D0 L p D HY); auto.
  intros l k j i Hl Hk Hj Hi. unfold EffHamSpec.two_site. destruct (ten_dims R next _ _ _ En) as [_ [_ A2]]. destruct (ten_dims R b _ _ _ P2) as [_ [_ B2]]. rewrite A2, B2. cbn [el Legs.ten_of].
  transitivity (sumn D0 (fun d => ge next [l; k; d] *r sumn K (fun m => sumn L (fun n => ge u [d; m] *r ge s [m; n] *r ge vt [n; j; i])))).
  - rewrite (s_ext L _ (fun n => sumn D0 (fun d => ge next [l; k; d] *r sumn K (fun m => ge u [d; m] *r ge s [m; n])) *r ge vt [n; j; i])) by (intros; rewrite P3; auto).
    etransitivity; [flat'|]. cbv beta. symmetry. etransitivity; [flat'|]. cbv beta. etransitivity; [apply pull2|]. apply lsum_ext. intros n _. apply lsum_ext. intros d _. apply lsum_ext. intros m _. ring.
  - apply s_ext. intros d Hd. f_equal. symmetry. apply (U4 [d] [j; i] eq_refl). apply in_configs3; auto.
Qed.
End Facts.
