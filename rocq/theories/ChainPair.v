(** The two-site state and its decomposition, as pairs of tensors of a chain. *)
From Coq Require Import List Arith Lia Bool Ring.
From Verif Require Import Base FiniteMps FmpsSpec FmpsFacts EffHam EffHamSpec EffHamFacts ChainSpec ChainFacts Legs VmpsLocal VmpsSpec VmpsEnv VmpsHeff VmpsState.
Import ListNotations.

Section Facts.
Variables (R : Type) (r0 r1 : R) (radd rmul rsub : R -> R -> R) (ropp : R -> R).
Variable Rth : ring_theory r0 r1 radd rmul rsub ropp (@eq R).
Add Ring Rring : Rth.
Infix "*r" := rmul (at level 40, left associativity).
Notation gten := (gten R). Notation mkG := (mkG R). Notation ge := (ge R). Notation gd := (gd R).
Notation sumn := (sumn R r0 radd). Notation ten_of := (ten_of R). Notation elems4 := (elems4 R).
Notation two_site := (two_site R r0 radd rmul). Notation splits := (splits R r0 radd rmul).
Variable svd : nat -> gten -> gten * gten * gten.

Lemma pair_ok : forall a b D0 p1 D p2 D3, gd a = [D0; p1; D] -> gd b = [D; p2; D3] ->
  exists x, gcontract R r0 radd rmul [2] [0] a b = Ok x /\ gd x = [D0; p1; p2; D3] /\ forall i j k l, elems4 x i j k l = two_site (ten_of a) (ten_of b) i j k l.
Proof.
  intros [? a] [? b] D0 p1 D p2 D3 EA EB. cbn in EA, EB. subst. eexists. split; [legs; reflexivity|]. split; [reflexivity|]. intros i j k l. unfold EffHamSpec.two_site, VmpsHeff.elems4. legs. reflexivity.
Qed.
(** the decomposition may drop a part of [x]: its factors multiply to [y] *)
Lemma split2_pair_to : forall dir x y D0 p1 p2 D3, gd x = [D0; p1; p2; D3] -> factors R r0 radd rmul svd 2 x y ->
  exists a b K, split2 R r0 radd rmul svd dir x = Ok (a, b) /\ gd a = [D0; p1; K] /\ gd b = [K; p2; D3] /\ splits D0 p1 p2 D3 (elems4 y) (ten_of a) (ten_of b) /\
    (if dir then a = fst (fst (svd 2 x)) else b = snd (svd 2 x)).
Proof.
  intros dir x y D0 p1 p2 D3 Ex [_ HFac]. unfold split2. destruct (svd 2 x) as [[u s] vt]. destruct HFac as [K [L [U1 [U2 [U3 U4]]]]]. rewrite Ex in U1, U3, U4. cbn [firstn skipn app] in U1, U3.
  assert (HH : exists a b Q, (if dir then let! b := gcontract R r0 radd rmul [1] [0] s vt in Ok (u, b) else let! a := gcontract R r0 radd rmul [2] [0] u s in Ok (a, vt)) = Ok (a, b) /\
    gd a = [D0; p1; Q] /\ gd b = [Q; p2; D3] /\ (forall i j k l, sumn Q (fun m => ge a [i; j; m] *r ge b [m; k; l]) = sumn K (fun m => sumn L (fun n => ge u [i; j; m] *r ge s [m; n] *r ge vt [n; k; l]))) /\
    (if dir then a = u else b = vt)).
  { clear U4. destruct u as [? u], s as [? s], vt as [? vt]. cbn in U1, U2, U3. subst. destruct dir.
    - eexists. eexists. exists K. split; [legs; reflexivity|]. split; [reflexivity|]. split; [reflexivity|]. split; [|reflexivity]. intros i j k l. cbv beta. legs.
      apply (sumn_ext R r0 radd). intros m _. rewrite (sumn_mul_l R r0 r1 radd rmul rsub ropp Rth). apply (sumn_ext R r0 radd). intros n _. ring.
    - eexists. eexists. exists L. split; [legs; reflexivity|]. split; [reflexivity|]. split; [reflexivity|]. split; [|reflexivity]. intros i j k l. legs.
      rewrite (sumn_swap R r0 r1 radd rmul rsub ropp Rth K L). apply (sumn_ext R r0 radd). intros n _. apply (sumn_mul_r R r0 r1 radd rmul rsub ropp Rth). }
  destruct HH as [a [b [Q [P1 [P2 [P3 [P4 P5]]]]]]]. exists a, b, Q. split; [exact P1|]. split; [exact P2|]. split; [exact P3|]. split; [|exact P5].
  destruct (ten_dims R a _ _ _ P2) as [A0 [A1 A2]]. destruct (ten_dims R b _ _ _ P3) as [B0 [B1 B2]]. split; try congruence.
  intros i s1 s2 l Hi H1 H2 Hl. unfold EffHamSpec.two_site, VmpsHeff.elems4. rewrite A2. cbn [el Legs.ten_of]. rewrite P4. symmetry. apply (U4 [i; s1] [s2; l] eq_refl). apply in_configs4; auto.
Qed.
Lemma split2_pair : forall dir x D0 p1 p2 D3, gd x = [D0; p1; p2; D3] -> factors R r0 radd rmul svd 2 x x ->
  exists a b K, split2 R r0 radd rmul svd dir x = Ok (a, b) /\ gd a = [D0; p1; K] /\ gd b = [K; p2; D3] /\ splits D0 p1 p2 D3 (elems4 x) (ten_of a) (ten_of b) /\
    (if dir then a = fst (fst (svd 2 x)) else b = snd (svd 2 x)).
Proof. intros dir x. exact (split2_pair_to dir x x). Qed.
(** QR of the transposed tensor, the triangular factor goes to the left neighbour *)
Variable conj : R -> R.
Variable qr : nat -> gten -> gten * gten.
Definition rcano (a b : gten) : res (gten * gten) :=
  let! bt := gtrans R [2; 1; 0] b in
  let (q, r) := qr 2 bt in
  let! b' := gtrans R [2; 1; 0] q in
  let! a' := gcontract R r0 radd rmul [2] [1] a r in
  Ok (a', b').
Notation left_canonical := (left_canonical R r0 r1 radd rmul conj). Notation right_canonical := (right_canonical R r0 r1 radd rmul conj).
(** a QR decomposition of tensors with three legs *)
Definition exact_gqr : Prop := forall x a p b, gd x = [a; p; b] -> let (q, r) := qr 2 x in
  exists K, gd q = [a; p; K] /\ gd r = [K; b] /\ left_canonical (ten_of q) /\
  forall i j k, i < a -> j < p -> k < b -> ge x [i; j; k] = sumn K (fun m => ge q [i; j; m] *r ge r [m; k]).
Lemma rcano_ok : exact_gqr -> forall a b D0 p1 D p2 D3, gd a = [D0; p1; D] -> gd b = [D; p2; D3] ->
  exists a' b' K, rcano a b = Ok (a', b') /\ gd a' = [D0; p1; K] /\ gd b' = [K; p2; D3] /\ splits D0 p1 p2 D3 (two_site (ten_of a) (ten_of b)) (ten_of a') (ten_of b') /\ right_canonical (ten_of b').
Proof.
  intros HQ a b D0 p1 D p2 D3 EA EB.
  assert (exists bt, gtrans R [2; 1; 0] b = Ok bt /\ gd bt = [D3; p2; D] /\ forall i j k, ge bt [i; j; k] = ge b [k; j; i]) as [bt [T1 [T2 T3]]].
  { clear HQ. destruct b as [? b]. cbn in EB. subst. eexists. split; [legs; reflexivity|]. split; [reflexivity|]. intros. legs. reflexivity. }
  specialize (HQ bt D3 p2 D T2). unfold rcano. rewrite T1. cbn [bind]. destruct (qr 2 bt) as [q r]. destruct HQ as [K [Q1 [Q2 [Q3 Q4]]]].
  assert (exists b', gtrans R [2; 1; 0] q = Ok b' /\ gd b' = [K; p2; D3] /\ forall i j k, ge b' [i; j; k] = ge q [k; j; i]) as [b' [B1 [B2 B3]]].
  { clear Q3 Q4. destruct q as [? q]. cbn in Q1. subst. eexists. split; [legs; reflexivity|]. split; [reflexivity|]. intros. legs. reflexivity. }
  assert (exists a', gcontract R r0 radd rmul [2] [1] a r = Ok a' /\ gd a' = [D0; p1; K] /\ forall i j k, ge a' [i; j; k] = sumn D (fun m => ge a [i; j; m] *r ge r [k; m])) as [a' [A1 [A2 A3]]].
  { clear Q4. destruct a as [? a], r as [? r]. cbn in EA, Q2. subst. eexists. split; [legs; reflexivity|]. split; [reflexivity|]. intros. legs. reflexivity. }
  rewrite B1. cbn [bind]. rewrite A1. cbn [bind]. exists a', b', K. split; [reflexivity|]. split; [exact A2|]. split; [exact B2|].
  destruct (ten_dims R a' _ _ _ A2) as [P0 [P1 P2]]. destruct (ten_dims R b' _ _ _ B2) as [R0 [R1 R2]]. destruct (ten_dims R q _ _ _ Q1) as [S0 [S1 S2]]. destruct (ten_dims R a _ _ _ EA) as [U0 [U1 U2]].
  split.
  - split; try congruence. intros x s s' y Hx Hs Hs' Hy. unfold EffHamSpec.two_site. rewrite P2, U2. cbn [el Legs.ten_of].
    rewrite (sumn_ext R r0 radd D (fun m => ge a [x; s; m] *r ge b [m; s'; y]) (fun m => sumn K (fun k => ge a [x; s; m] *r ge r [k; m] *r ge q [y; s'; k]))).
    2:{ intros m Hm. rewrite <- T3, Q4 by auto. rewrite (sumn_mul_l R r0 r1 radd rmul rsub ropp Rth). apply (sumn_ext R r0 radd). intros k _. ring. }
    rewrite (sumn_swap R r0 r1 radd rmul rsub ropp Rth D K). apply (sumn_ext R r0 radd). intros k _. rewrite A3, B3. apply (sumn_mul_r R r0 r1 radd rmul rsub ropp Rth).
  - intros k k' Hk Hk'. rewrite R0 in Hk, Hk'. rewrite R1, R2. rewrite <- (Q3 k k') by (rewrite S2; auto). rewrite S0, S1. cbn [el Legs.ten_of].
    apply (sumn_ext R r0 radd). intros i _. apply (sumn_ext R r0 radd). intros j _. rewrite !B3. reflexivity.
Qed.
End Facts.
