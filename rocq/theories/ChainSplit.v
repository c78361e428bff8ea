(** Noise and hand-over of single-site updates, as pairs of tensors of a chain. *)
From Coq Require Import List Arith Lia Bool Ring.
From Verif Require Import Base FiniteMps FmpsSpec FmpsFacts EffHam EffHamSpec EffHamFacts ChainSpec ChainFacts Legs VmpsLocal VmpsSpec VmpsEnv VmpsHeff VmpsShift VmpsState.
Import ListNotations.

Section Facts.
Variables (R : Type) (r0 r1 : R) (radd rmul rsub : R -> R -> R) (ropp : R -> R).
Variable Rth : ring_theory r0 r1 radd rmul rsub ropp (@eq R).
Add Ring Rring : Rth.
Infix "*r" := rmul (at level 40, left associativity).
Notation gten := (gten R). Notation mkG := (mkG R). Notation ge := (ge R). Notation gd := (gd R).
Notation sumn := (sumn R r0 radd). Notation ten_of := (ten_of R).
Notation two_site := (two_site R r0 radd rmul). Notation splits := (splits R r0 radd rmul).
Notation s_ext := (sumn_ext R r0 radd). Notation s_mul_l := (sumn_mul_l R r0 r1 radd rmul rsub ropp Rth). Notation s_mul_r := (sumn_mul_r R r0 r1 radd rmul rsub ropp Rth). Notation s_swap := (sumn_swap R r0 r1 radd rmul rsub ropp Rth).
Variable svd : nat -> gten -> gten * gten * gten.

Lemma expand1_r_pair : forall h0 h1 gs next noise D0 M0 p D2 M1 q D3, gd gs = [D0; p; D2] -> gd next = [D2; q; D3] -> gd h0 = [D0; M0; D0] -> gd h1 = [M0; p; p; M1] ->
  exists a b K, expand1_r R r0 radd rmul h0 h1 gs next noise = Ok (a, b) /\ gd a = [D0; p; K] /\ gd b = [K; q; D3] /\ splits D0 p q D3 (two_site (ten_of gs) (ten_of next)) (ten_of a) (ten_of b).
Proof.
  intros h0 h1 gs next noise D0 M0 p D2 M1 q D3 E1 E2 E3 E4.
  destruct (expand1_r_el R r0 radd rmul h0 h1 gs next noise D0 M0 p D2 M1 q D3 E3 E4 E1 E2) as [a [b [A [B1 [B2 [B3 B4]]]]]].
  exists a, b, (sum_dim D2 (fused_dim D2 M1)). split; [exact A|]. split; [exact B1|]. split; [exact B2|].
  destruct (ten_dims R a _ _ _ B1) as [P0 [P1 P2]]. destruct (ten_dims R b _ _ _ B2) as [Q0 [Q1 Q2]]. destruct (ten_dims R gs _ _ _ E1) as [_ [_ Q]].
  split; try congruence. intros x s1 s2 y _ _ _ _. unfold EffHamSpec.two_site. rewrite Q, P2.
  apply (sum_enlarged R r0 r1 radd rmul rsub ropp Rth); intros k Hk; cbn [el Legs.ten_of]; rewrite ?B3, ?B4, ?in_first_lt, ?in_first_ge by auto; auto. ring.
Qed.
Lemma expand1_l_pair : forall h1 h2 gs next noise D M0 q D0 p M1 D2, gd gs = [D0; p; D2] -> gd next = [D; q; D0] -> gd h2 = [D2; M1; D2] -> gd h1 = [M0; p; p; M1] ->
  exists a b K, expand1_l R r0 radd rmul h1 h2 gs next noise = Ok (a, b) /\ gd a = [K; p; D2] /\ gd b = [D; q; K] /\ splits D q p D2 (two_site (ten_of next) (ten_of gs)) (ten_of b) (ten_of a).
Proof.
  intros h1 h2 gs next noise D M0 q D0 p M1 D2 E1 E2 E3 E4.
  destruct (expand1_l_el R r0 radd rmul h1 h2 gs next noise D2 M1 p D0 M0 q D E3 E4 E1 E2) as [a [b [A [B1 [B2 [B3 B4]]]]]].
  exists a, b, (sum_dim D0 (fused_dim D0 M0)). split; [exact A|]. split; [exact B1|]. split; [exact B2|].
  destruct (ten_dims R a _ _ _ B1) as [P0 [P1 P2]]. destruct (ten_dims R b _ _ _ B2) as [Q0 [Q1 Q2]]. destruct (ten_dims R next _ _ _ E2) as [_ [_ Q]].
  split; try congruence. intros x s1 s2 y _ _ _ _. unfold EffHamSpec.two_site. rewrite Q, Q2.
  apply (sum_enlarged R r0 r1 radd rmul rsub ropp Rth); intros k Hk; cbn [el Legs.ten_of]; rewrite ?B3, ?B4, ?in_first_lt, ?in_first_ge by auto; auto. ring.
Qed.
Lemma split1_r_pair : forall t next D0 p D q D3, gd t = [D0; p; D] -> gd next = [D; q; D3] -> factors R r0 radd rmul svd 2 t t ->
  exists b K, split1 R r0 radd rmul svd true t next = Ok (fst (fst (svd 2 t)), b) /\ gd (fst (fst (svd 2 t))) = [D0; p; K] /\ gd b = [K; q; D3] /\
  splits D0 p q D3 (two_site (ten_of t) (ten_of next)) (ten_of (fst (fst (svd 2 t)))) (ten_of b).
Proof.
  intros t next D0 p D q D3 Et En [_ HFac]. unfold split1. destruct (svd 2 t) as [[u s] vt]. destruct HFac as [K [L [U1 [U2 [U3 U4]]]]]. rewrite Et in U1, U3, U4. cbn [firstn skipn app] in U1, U3. cbn [fst].
  assert (HH : exists b, (let! m := gcontract R r0 radd rmul [1] [0] s vt in let! b := gcontract R r0 radd rmul [1] [0] m next in Ok (u, b)) = Ok (u, b) /\ gd b = [K; q; D3] /\
    forall m k l, ge b [m; k; l] = sumn D (fun d => sumn L (fun n => ge s [m; n] *r ge vt [n; d]) *r ge next [d; k; l])).
  { clear U4. destruct u as [? u], s as [? s], vt as [? vt], next as [? next]. cbn in U1, U2, U3, En. subst. eexists. split; [legs; reflexivity|]. split; [reflexivity|]. intros. legs. reflexivity. }
  destruct HH as [b [P1 [P2 P3]]]. exists b, K. split; [exact P1|]. split; [exact U1|]. split; [exact P2|].
  destruct (ten_dims R u _ _ _ U1) as [A0 [A1 A2]]. destruct (ten_dims R b _ _ _ P2) as [B0 [B1 B2]]. destruct (ten_dims R t _ _ _ Et) as [_ [_ C2]].
  split; try congruence. intros i j k l Hi Hj Hk Hl. unfold EffHamSpec.two_site. rewrite A2, C2. cbn [el Legs.ten_of]. symmetry.
  transitivity (sumn D (fun d => sumn K (fun k0 => sumn L (fun n => ge u [i; j; k0] *r ge s [k0; n] *r ge vt [n; d])) *r ge next [d; k; l])).
  - apply s_ext. intros d Hd. f_equal. apply (U4 [i; j] [d] eq_refl). apply in_configs3; auto.
  - rewrite (s_ext K (fun m => ge u [i; j; m] *r ge b [m; k; l]) (fun m => sumn D (fun d => ge u [i; j; m] *r (sumn L (fun n => ge s [m; n] *r ge vt [n; d]) *r ge next [d; k; l])))).
    2:{ intros m Hm. rewrite P3, s_mul_l. reflexivity. }
    rewrite (s_swap K D). apply s_ext. intros d Hd. rewrite s_mul_r. apply s_ext. intros m Hm. rewrite (s_ext L _ (fun n => ge u [i; j; m] *r (ge s [m; n] *r ge vt [n; d]))) by (intros; ring). rewrite <- s_mul_l. ring.
Qed.
Lemma split1_l_pair : forall t next D0 p D q D3, gd t = [D0; p; D] -> gd next = [D3; q; D0] -> factors R r0 radd rmul svd 1 t t ->
  exists b K, split1 R r0 radd rmul svd false t next = Ok (snd (svd 1 t), b) /\ gd (snd (svd 1 t)) = [K; p; D] /\ gd b = [D3; q; K] /\
  splits D3 q p D (two_site (ten_of next) (ten_of t)) (ten_of b) (ten_of (snd (svd 1 t))).
Proof.
  intros t next D0 p D q D3 Et En [_ HFac]. unfold split1. destruct (svd 1 t) as [[u s] vt]. destruct HFac as [K [L [U1 [U2 [U3 U4]]]]]. rewrite Et in U1, U3, U4. cbn [firstn skipn app] in U1, U3. cbn [snd].
  assert (HH : exists b, (let! m := gcontract R r0 radd rmul [1] [0] u s in let! b := gcontract R r0 radd rmul [2] [0] next m in Ok (vt, b)) = Ok (vt, b) /\ gd b = [D3; q; L] /\
    forall l k n, ge b [l; k; n] = sumn D0 (fun d => ge next [l; k; d] *r sumn K (fun m => ge u [d; m] *r ge s [m; n]))).
  { clear U4. destruct u as [? u], s as [? s], vt as [? vt], next as [? next]. cbn in U1, U2, U3, En. subst. eexists. split; [legs; reflexivity|]. split; [reflexivity|]. intros. legs. reflexivity. }
  destruct HH as [b [P1 [P2 P3]]]. exists b, L. split; [exact P1|]. split; [exact U3|]. split; [exact P2|].
  destruct (ten_dims R vt _ _ _ U3) as [A0 [A1 A2]]. destruct (ten_dims R b _ _ _ P2) as [B0 [B1 B2]]. destruct (ten_dims R next _ _ _ En) as [_ [_ C2]].
  split; try congruence. intros l k j i Hl Hk Hj Hi. unfold EffHamSpec.two_site. rewrite B2, C2. cbn [el Legs.ten_of]. symmetry.
  transitivity (sumn D0 (fun d => ge next [l; k; d] *r sumn K (fun m => sumn L (fun n => ge u [d; m] *r ge s [m; n] *r ge vt [n; j; i])))).
  - apply s_ext. intros d Hd. f_equal. apply (U4 [d] [j; i] eq_refl). apply in_configs3; auto.
  - rewrite (s_ext L (fun n => ge b [l; k; n] *r ge vt [n; j; i]) (fun n => sumn D0 (fun d => ge next [l; k; d] *r sumn K (fun m => ge u [d; m] *r ge s [m; n]) *r ge vt [n; j; i]))).
    2:{ intros n Hn. rewrite P3, s_mul_r. reflexivity. }
    rewrite (s_swap L D0). apply s_ext. intros d Hd. rewrite (s_swap K L), s_mul_l. apply s_ext. intros n Hn. rewrite <- s_mul_r. ring.
Qed.
End Facts.
