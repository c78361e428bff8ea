(** Noise and hand-over: what happens to the state. *)
From Coq Require Import List Arith Lia Bool Ring.
From Verif Require Import Base FiniteMps FmpsSpec FmpsFacts EffHam EffHamSpec EffHamFacts FinMpo FinMpoSpec Legs VmpsLocal VmpsSpec VmpsEnv.
Import ListNotations.

Section Facts.
Variables (R : Type) (r0 r1 : R) (radd rmul rsub : R -> R -> R) (ropp : R -> R).
Variable Rth : ring_theory r0 r1 radd rmul rsub ropp (@eq R).
Variable conj : R -> R.
Hypothesis conj0 : conj r0 = r0.
Hypothesis conj1 : conj r1 = r1.
Hypothesis conj_add : forall x y, conj (radd x y) = radd (conj x) (conj y).
Hypothesis conj_mul : forall x y, conj (rmul x y) = rmul (conj x) (conj y).
Add Ring Rring : Rth.
Infix "+r" := radd (at level 50, left associativity).
Infix "*r" := rmul (at level 40, left associativity).
Notation gten := (gten R). Notation mkG := (mkG R). Notation ge := (ge R). Notation gd := (gd R).
Notation sumn := (sumn R r0 radd). Notation lsum := (lsum R r0 radd).
Notation ten_of := (ten_of R). Notation site_of := (site_of R).
Notation mps_mat := (mps_mat R r0 r1 radd rmul). Notation mpo_mat := (mpo_mat R r0 r1 radd rmul).
Notation left_block := (left_block R r0 r1 radd rmul conj). Notation right_block := (right_block R r0 r1 radd rmul conj).
Notation lsum_ext := (lsum_ext R r0 radd). Notation lsum_swap := (lsum_swap R r0 r1 radd rmul rsub ropp Rth).
Notation lsum_mul_l := (lsum_mul_l R r0 r1 radd rmul rsub ropp Rth). Notation lsum_mul_r := (lsum_mul_r R r0 r1 radd rmul rsub ropp Rth).
Notation sumn_lsum := (sumn_lsum R r0 r1 radd rmul rsub ropp Rth).
Notation pull2 := (pull2 R r0 r1 radd rmul rsub ropp Rth). Notation pull3 := (pull3 R r0 r1 radd rmul rsub ropp Rth).
Notation part := (part R).


Ltac to_lsum := match goal with |- ?l = _ => match l with context [FmpsSpec.sumn R r0 radd ?n ?f] => rewrite (sumn_lsum n f) end end.
Ltac flat' := repeat (first [to_lsum | rewrite lsum_mul_l | rewrite lsum_mul_r | (eapply lsum_ext; intros ? ?)]); reflexivity.

(** *** elements of enlarged tensors *)
Lemma expand1_r_el : forall (h0 h1 gs next : gten) noise D0 M0 p D2 M1 q D3, gd h0 = [D0; M0; D0] -> gd h1 = [M0; p; p; M1] -> gd gs = [D0; p; D2] -> gd next = [D2; q; D3] ->
  exists a b, expand1_r R r0 radd rmul h0 h1 gs next noise = Ok (a, b) /\
  gd a = [D0; p; sum_dim D2 (fused_dim D2 M1)] /\ gd b = [sum_dim D2 (fused_dim D2 M1); q; D3] /\
  (forall x s k, ge a [x; s; k] = if in_first k D2 then ge gs [x; s; k] else
     noise *r sumn M0 (fun i => sumn p (fun s1 => sumn D0 (fun l => ge h0 [x; i; l] *r ge gs [l; s1; fused_1 (in_second k D2) M1]) *r ge h1 [i; s1; s; fused_2 (in_second k D2) M1]))) /\
  forall k s y, ge b [k; s; y] = if in_first k D2 then ge next [k; s; y] else r0.
Proof.
  intros [? h0] [? h1] [? gs] [? next] noise D0 M0 p D2 M1 q D3 E0 E1 E2 E3. cbn in E0, E1, E2, E3. subst.
  eexists. eexists. split; [legs; reflexivity|]. split; [reflexivity|]. split; [reflexivity|]. split; intros; legs; reflexivity.
Qed.
Lemma expand1_l_el : forall (h1 h2 gs next : gten) noise D2 M1 p D0 M0 q D, gd h2 = [D2; M1; D2] -> gd h1 = [M0; p; p; M1] -> gd gs = [D0; p; D2] -> gd next = [D; q; D0] ->
  exists a b, expand1_l R r0 radd rmul h1 h2 gs next noise = Ok (a, b) /\
  gd a = [sum_dim D0 (fused_dim D0 M0); p; D2] /\ gd b = [D; q; sum_dim D0 (fused_dim D0 M0)] /\
  (forall k s y, ge a [k; s; y] = if in_first k D0 then ge gs [k; s; y] else
     noise *r sumn p (fun s1 => sumn M1 (fun j => sumn D2 (fun r => ge gs [fused_1 (in_second k D0) M0; s1; r] *r ge h2 [y; j; r]) *r ge h1 [fused_2 (in_second k D0) M0; s1; s; j]))) /\
  forall x s k, ge b [x; s; k] = if in_first k D0 then ge next [x; s; k] else r0.
Proof.
  intros [? h1] [? h2] [? gs] [? next] noise D2 M1 p D0 M0 q D E0 E1 E2 E3. cbn in E0, E1, E2, E3. subst.
  eexists. eexists. split; [legs; reflexivity|]. split; [reflexivity|]. split; [reflexivity|]. split; intros; legs; reflexivity.
Qed.
Variable mock : gten -> gten.
Lemma expand2_r_el : forall (norm : bool) (h0 h1 h2 gs next : gten) noise D0 M0 p1 M1 p2 M2 D3 q D4 K (v : gten),
  gd h0 = [D0; M0; D0] -> gd h1 = [M0; p1; p1; M1] -> gd h2 = [M1; p2; p2; M2] -> gd gs = [D0; p1; p2; D3] -> gd next = [D3; q; D4] ->
  (if norm then v = h2 /\ K = M2 else exists h2', gtrans R [3; 0; 1; 2] h2 = Ok h2' /\ gd (mock h2') = [K; M1; p2; p2] /\ gtrans R [1; 2; 3; 0] (mock h2') = Ok v) ->
  exists a b, expand2_r R r0 radd rmul mock norm h0 h1 h2 gs next noise = Ok (a, b) /\
  gd a = [D0; p1; p2; sum_dim D3 (fused_dim D3 K)] /\ gd b = [sum_dim D3 (fused_dim D3 K); q; D4] /\
  (forall x s t k, ge a [x; s; t; k] = if in_first k D3 then ge gs [x; s; t; k] else
     noise *r sumn M1 (fun j => sumn p2 (fun s2 => sumn M0 (fun i => sumn p1 (fun s1 => sumn D0 (fun l => ge h0 [x; i; l] *r ge gs [l; s1; s2; fused_1 (in_second k D3) K]) *r ge h1 [i; s1; s; j])) *r
       ge v [j; s2; t; fused_2 (in_second k D3) K]))) /\
  forall k s y, ge b [k; s; y] = if in_first k D3 then ge next [k; s; y] else r0.
Proof.
  intros norm h0 h1 h2 gs next noise D0 M0 p1 M1 p2 M2 D3 q D4 K v E0 E1 E2 E3 E4 HV.
  assert (V : gd v = [M1; p2; p2; K]).
  { destruct norm; [destruct HV; subst; auto|]. destruct HV as [h2' [_ [V1 V2]]]. destruct (mock h2') as [? m]. cbn in V1. subst. revert V2. legs. intros V2. inversion V2. reflexivity. }
  unfold expand2_r.
  assert (P1 : exists t2, (let! t1 := gcontract R r0 radd rmul [2] [0] h0 gs in gcontract1 R r0 radd rmul 1 0 2 t1 h1) = Ok t2 /\ gd t2 = [p2; D3; D0; p1; M1] /\
    forall s2 b x s j, ge t2 [s2; b; x; s; j] = sumn M0 (fun i => sumn p1 (fun s1 => sumn D0 (fun l => ge h0 [x; i; l] *r ge gs [l; s1; s2; b]) *r ge h1 [i; s1; s; j]))).
  { clear HV. destruct h0 as [? h0], h1 as [? h1], gs as [? gs]. cbn in E0, E1, E3. subst. eexists. split; [legs; reflexivity|]. split; [reflexivity|]. intros. legs. reflexivity. }
  destruct P1 as [t2 [P1 [P2 P3]]]. destruct (gcontract R r0 radd rmul [2] [0] h0 gs) as [t1| |]; cbn [bind] in P1 |- *; try discriminate. rewrite P1. cbn [bind].
  assert (W : (if norm then gcontract1 R r0 radd rmul 4 0 2 t2 h2 else let! h2 := gtrans R [3; 0; 1; 2] h2 in let! v := gtrans R [1; 2; 3; 0] (mock h2) in gcontract1 R r0 radd rmul 4 0 2 t2 v) = gcontract1 R r0 radd rmul 4 0 2 t2 v).
  { destruct norm; [destruct HV; subst; auto|]. destruct HV as [h2' [V1 [V2 V3]]]. rewrite V1. cbn [bind]. rewrite V3. reflexivity. }
  rewrite W. clear W HV P1 E2 h2 E0 E1.
  cut (exists a b, (let! p := gcontract1 R r0 radd rmul 4 0 2 t2 v in let! p := gfuse R r0 0 4 p in
    let p := gscale R rmul noise p in let! gs := gtrans R [3; 0; 1; 2] gs in let! a := gexpand R 0 gs p in let! a := gtrans R [1; 2; 3; 0] a in
    let! b := gexpand R 0 next (gzero R r0 [nth 0 (gd p) 0; nth 1 (gd next) 0; nth 2 (gd next) 0]) in Ok (a, b)) = Ok (a, b) /\
    gd a = [D0; p1; p2; sum_dim D3 (fused_dim D3 K)] /\ gd b = [sum_dim D3 (fused_dim D3 K); q; D4] /\
    (forall x s t k, ge a [x; s; t; k] = if in_first k D3 then ge gs [x; s; t; k] else
       noise *r sumn M1 (fun j => sumn p2 (fun s2 => ge t2 [s2; fused_1 (in_second k D3) K; x; s; j] *r ge v [j; s2; t; fused_2 (in_second k D3) K]))) /\
    forall k s y, ge b [k; s; y] = if in_first k D3 then ge next [k; s; y] else r0).
  - intros [a [b [Q1 [Q2 [Q3 [Q4 Q5]]]]]]. exists a, b. split; [exact Q1|]. split; [exact Q2|]. split; [exact Q3|]. split; [|exact Q5].
    intros x s t k. rewrite Q4. destruct (in_first k D3); [auto|]. f_equal. rewrite !sumn_lsum. apply lsum_ext. intros j _. rewrite !sumn_lsum. apply lsum_ext. intros s2 _. rewrite P3. reflexivity.
  - clear P3. destruct t2 as [? t2], v as [? v], gs as [? gs], next as [? next]. cbn in P2, V, E3, E4. subst.
    eexists. eexists. split; [legs; reflexivity|]. split; [reflexivity|]. split; [reflexivity|]. split; intros; legs; reflexivity.
Qed.
Lemma expand2_l_el : forall (h1 h2 h3 gs next : gten) noise D0 M0 p1 M1 p2 M2 D3 q D,
  gd h1 = [M0; p1; p1; M1] -> gd h2 = [M1; p2; p2; M2] -> gd h3 = [D3; M2; D3] -> gd gs = [D0; p1; p2; D3] -> gd next = [D; q; D0] ->
  exists a b, expand2_l R r0 radd rmul h1 h2 h3 gs next noise = Ok (a, b) /\
  gd a = [sum_dim D0 (fused_dim D0 M0); p1; p2; D3] /\ gd b = [D; q; sum_dim D0 (fused_dim D0 M0)] /\
  (forall k s t y, ge a [k; s; t; y] = if in_first k D0 then ge gs [k; s; t; y] else
     noise *r sumn p1 (fun s1 => sumn M1 (fun j => sumn p2 (fun s2 => sumn M2 (fun m => sumn D3 (fun r => ge gs [fused_1 (in_second k D0) M0; s1; s2; r] *r ge h3 [y; m; r]) *r ge h2 [j; s2; t; m])) *r
       ge h1 [fused_2 (in_second k D0) M0; s1; s; j]))) /\
  forall x s k, ge b [x; s; k] = if in_first k D0 then ge next [x; s; k] else r0.
Proof.
  intros [? h1] [? h2] [? h3] [? gs] [? next] noise D0 M0 p1 M1 p2 M2 D3 q D E0 E1 E2 E3 E4. cbn in E0, E1, E2, E3, E4. subst.
  eexists. eexists. split; [legs; reflexivity|]. split; [reflexivity|]. split; [reflexivity|]. split; intros; legs; reflexivity.
Qed.

(** *** sums over an enlarged bond *)
Lemma sum_enlarged : forall n m (f g f' g' : nat -> R), (forall k, k < n -> f' k = f k) -> (forall k, k < n -> g' k = g k) -> (forall k, n <= k -> f' k *r g' k = r0) ->
  sumn (sum_dim n m) (fun k => f' k *r g' k) = sumn n (fun k => f k *r g k).
Proof.
  intros n m f g f' g' Hf Hg H0. rewrite !sumn_lsum. unfold sum_dim. rewrite seq_app, (lsum_app R r0 r1 radd rmul rsub ropp Rth).
  rewrite (lsum_0 R r0 r1 radd rmul rsub ropp Rth (seq (0 + n) m)) by (intros k Hk; apply in_seq in Hk; apply H0; lia).
  transitivity (lsum (seq 0 n) (fun k => f' k *r g' k)); [ring|]. apply lsum_ext. intros k Hk. apply in_seq in Hk. rewrite Hf, Hg by lia. auto.
Qed.
Lemma in_first_lt : forall k n, k < n -> in_first k n = true.
Proof. intros. apply Nat.ltb_lt. auto. Qed.
Lemma in_first_ge : forall k n, n <= k -> in_first k n = false.
Proof. intros. apply Nat.ltb_ge. auto. Qed.
End Facts.
