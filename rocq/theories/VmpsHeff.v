(** The effective Hamiltonians of VMPS are the projected Hamiltonian. *)
From Coq Require Import List Arith Lia Bool Ring.
From Verif Require Import Base FiniteMps FmpsSpec FmpsFacts EffHam EffHamSpec EffHamFacts Legs VmpsLocal VmpsSpec VmpsEnv.
Import ListNotations.

Section Facts.
Variables (R : Type) (r0 r1 : R) (radd rmul rsub : R -> R -> R) (ropp : R -> R).
Variable Rth : ring_theory r0 r1 radd rmul rsub ropp (@eq R).
Variable conj : R -> R.
Hypothesis conj0 : conj r0 = r0.
Hypothesis conj1 : conj r1 = r1.
Hypothesis conj_add : forall x y, conj (radd x y) = radd (conj x) (conj y).
Hypothesis conj_mul : forall x y, conj (rmul x y) = rmul (conj x) (conj y).
Add Ring Rring : Rth.
Infix "+r" := radd (at level 50, left associativity).
Infix "*r" := rmul (at level 40, left associativity).
Notation gten := (gten R). Notation mkG := (mkG R). Notation ge := (ge R). Notation gd := (gd R).
Notation sumn := (sumn R r0 radd). Notation lsum := (lsum R r0 radd).
Notation ten_of := (ten_of R). Notation site_of := (site_of R).
Notation mps_mat := (mps_mat R r0 r1 radd rmul). Notation mpo_mat := (mpo_mat R r0 r1 radd rmul).
Notation left_block := (left_block R r0 r1 radd rmul conj). Notation right_block := (right_block R r0 r1 radd rmul conj).
Notation lsum_ext := (lsum_ext R r0 radd). Notation lsum_swap := (lsum_swap R r0 r1 radd rmul rsub ropp Rth).
Notation lsum_mul_l := (lsum_mul_l R r0 r1 radd rmul rsub ropp Rth). Notation lsum_mul_r := (lsum_mul_r R r0 r1 radd rmul rsub ropp Rth).
Notation sumn_lsum := (sumn_lsum R r0 r1 radd rmul rsub ropp Rth).
Notation pull4 := (pull4 R r0 r1 radd rmul rsub ropp Rth). Notation pull6 := (pull6 R r0 r1 radd rmul rsub ropp Rth). Notation pull8 := (pull8 R r0 r1 radd rmul rsub ropp Rth).
Notation pull2 := (pull2 R r0 r1 radd rmul rsub ropp Rth). Notation pull3 := (pull3 R r0 r1 radd rmul rsub ropp Rth).
Notation part := (part R).


Ltac to_lsum := match goal with |- ?l = _ => match l with context [FmpsSpec.sumn R r0 radd ?n ?f] => rewrite (sumn_lsum n f) end end.
Ltac flat' := repeat (first [to_lsum | rewrite lsum_mul_l | rewrite lsum_mul_r | (eapply lsum_ext; intros ? ?)]); reflexivity.

(** a cut of the chain around two sites, around one site *)
Record cut2 (tl tr wl wr : list gten) (w1 w2 : gten) (D0 p1 p2 D3 : nat) : Prop := {
  c2_M : exists M0 M1 M2, gd w1 = [M0; p1; p1; M1] /\ gd w2 = [M1; p2; p2; M2] /\ part 1 1 tl wl D0 M0 /\ part D3 M2 tr wr 1 1 }.
Record cut1 (tl tr wl wr : list gten) (w : gten) (D0 p D2 : nat) : Prop := {
  c1_M : exists M0 M1, gd w = [M0; p; p; M1] /\ part 1 1 tl wl D0 M0 /\ part D2 M1 tr wr 1 1 }.
Notation lenvs := (lenvs_from R r0 radd rmul conj (trivial_env R r0 r1 1 1)).
Notation renvs := (renvs_from R r0 radd rmul conj (trivial_env R r0 r1 1 1)).
Definition elems4 (x : gten) : nat -> nat -> nat -> nat -> R := fun a s1 s2 b => ge x [a; s1; s2; b].
Definition elems3 (x : gten) : nat -> nat -> nat -> R := fun a s b => ge x [a; s; b].

Lemma mul2_projected : forall tl tr wl wr w1 w2 D0 p1 p2 D3, cut2 tl tr wl wr w1 w2 D0 p1 p2 D3 ->
  exists l r, lenvs tl wl = Ok l /\ renvs tr wr = Ok r /\
  forall x, gd x = [D0; p1; p2; D3] -> exists y, mul2 R r0 radd rmul l w1 w2 r x = Ok y /\ gd y = gd x /\
  forall a' s1' s2' b', a' < D0 -> b' < D3 ->
    ge y [a'; s1'; s2'; b'] = projected R r0 r1 radd rmul conj (map ten_of tl) (map ten_of tr) (map site_of wl) (site_of w1) (site_of w2) (map site_of wr) D0 p1 p2 D3 (elems4 x) a' s1' s2' b'.
Proof.
  intros tl tr wl wr w1 w2 D0 p1 p2 D3 [[M0 [M1 [M2 [E1 [E2 [HL HR]]]]]]].
  destruct (left_env_ok R r0 r1 radd rmul rsub ropp Rth conj conj0 conj1 conj_add conj_mul tl wl D0 M0 HL) as [l [L1 [L2 L3]]].
  destruct (right_env_ok R r0 r1 radd rmul rsub ropp Rth conj conj0 conj1 conj_add conj_mul tr wr D3 M2 HR) as [r [R1 [R2 R3]]].
  exists l, r. split; [exact L1|]. split; [exact R1|]. intros x Ex.
  destruct (mul2_el R r0 radd rmul l w1 w2 r x D0 M0 p1 M1 p2 M2 D3 L2 E1 E2 R2 Ex) as [y [Y1 [Y2 Y3]]].
  exists y. split; [exact Y1|]. split; [rewrite Y2, Ex; reflexivity|]. intros a' s1' s2' b' Ha Hb.
  rewrite <- (heff_projected R r0 r1 radd rmul rsub ropp Rth conj).
  2:{ destruct (site_dims R w1 _ _ _ _ E1) as [Q _]. rewrite Q. apply HL. }
  2:{ rewrite !map_length. exact (part_len R 1 1 tl wl D0 M0 HL). }
  unfold heff. destruct (site_dims R w1 _ _ _ _ E1) as [Q0 Q1]. destruct (site_dims R w2 _ _ _ _ E2) as [Q2 Q3]. rewrite Q0, Q1, Q3. clear Q0 Q1 Q2 Q3.
  rewrite Y3. clear Y3. clear - Rth L3 R3 Ha Hb. revert L3 R3. generalize (left_block (map ten_of tl) (map site_of wl)). generalize (right_block (map ten_of tr) (map site_of wr)). intros RB LB L3 R3.
  etransitivity; [flat'|]. cbv beta. symmetry. etransitivity; [flat'|]. cbv beta.
  (* order: j b s2 k s1 a i; wanted: k b j s2 i s1 a *)
  etransitivity; [apply pull3|]. apply lsum_ext. intros k Ik.
  etransitivity; [apply lsum_swap|]. apply lsum_ext. intros b Ib.
  apply lsum_ext. intros j Ij. apply lsum_ext. intros s2 _.
  etransitivity; [apply pull2|]. apply lsum_ext. intros i Ii.
  apply lsum_ext. intros s1 _. apply lsum_ext. intros a Ia.
  apply in_seq in Ik, Ib, Ii, Ia. rewrite L3, R3 by lia. unfold elems4, mval, VmpsSpec.site_of. cbn [ent]. ring.
Qed.

(** one site *)
Notation mpo_mat_app := (mpo_mat_app R r0 r1 radd rmul rsub ropp Rth). Notation mps_mat_app := (mps_mat_app R r0 r1 radd rmul rsub ropp Rth).
Lemma mpo_mid1 : forall wl w wr cl s cr cl' s' cr', wfit R 1 wl (mrows w) -> length cl = length wl -> length cl' = length wl ->
  mpo_mat (wl ++ [w] ++ wr) (cl ++ [s] ++ cr) (cl' ++ [s'] ++ cr') 0 0 =
  lsum (seq 0 (mrows w)) (fun i => lsum (seq 0 (mcols w)) (fun j => mpo_mat wl cl cl' 0 i *r mval R r0 w i j s s' *r mpo_mat wr cr cr' j 0)).
Proof.
  intros wl w wr cl s cr cl' s' cr' HW H1 H2.
  rewrite (mpo_mat_app wl ([w] ++ wr) cl ([s] ++ cr) cl' ([s'] ++ cr') 1 (mrows w) 0 0 HW) by (try lia; auto).
  apply lsum_ext. intros i _. cbn [app EffHamSpec.mpo_mat]. rewrite sumn_lsum, lsum_mul_l. apply lsum_ext. intros j _. ring.
Qed.
Definition heff1 (tl tr : list (ten R)) (wl : list (mposite R)) (w : mposite R) (wr : list (mposite R)) (D0 p D2 : nat) (x : nat -> nat -> nat -> R) (a' s' b' : nat) : R :=
  lsum (seq 0 (mcols w)) (fun k => lsum (seq 0 D2) (fun b => lsum (seq 0 (mrows w)) (fun i => lsum (seq 0 p) (fun s => lsum (seq 0 D0) (fun a =>
    left_block tl wl i a a' *r x a s b *r mval R r0 w i k s s' *r right_block tr wr k b b'))))).
Lemma heff1_projected : forall tl tr wl w wr D0 p D2 x a' s' b', wfit R 1 wl (mrows w) -> length wl = length tl ->
  heff1 tl tr wl w wr D0 p D2 x a' s' b' = projected1 R r0 r1 radd rmul conj tl tr wl w wr D0 p D2 x a' s' b'.
Proof.
  intros tl tr wl w wr D0 p D2 x a' s' b' HW HL. unfold heff1, projected1, whole1, EffHamSpec.left_block, EffHamSpec.right_block.
  symmetry. etransitivity.
  { apply lsum_ext. intros cl' Il'. apply lsum_ext. intros cr' Ir'. rewrite lsum_mul_l. apply lsum_ext. intros cl Il. rewrite sumn_lsum, lsum_mul_l. apply lsum_ext. intros s _.
    rewrite lsum_mul_l. apply lsum_ext. intros cr Ir. apply configs_len in Il, Il'. rewrite map_length in Il, Il'.
    rewrite mpo_mid1 by (auto; congruence). rewrite sumn_lsum.
    rewrite (lsum_ext (seq 0 D0) _ (fun a => lsum (seq 0 D2) (fun b => mps_mat tl cl 0 a *r x a s b *r mps_mat tr cr b 0))) by (intros; rewrite sumn_lsum; reflexivity).
    rewrite (lsum_mul_l (seq 0 D0)). rewrite lsum_mul_l. eapply lsum_ext. intros a _. flat'. }
  cbv beta. symmetry. etransitivity; [flat'|]. cbv beta.
  (* order: k b i s a cr cr' cl cl' *)
  etransitivity; [apply pull8|]. apply lsum_ext. intros cl' _.
  etransitivity; [apply pull6|]. apply lsum_ext. intros cr' _.
  etransitivity; [apply pull6|]. apply lsum_ext. intros cl _.
  etransitivity; [apply pull3|]. apply lsum_ext. intros s _.
  etransitivity; [apply pull4|]. apply lsum_ext. intros cr _.
  etransitivity; [apply pull3|]. apply lsum_ext. intros a _.
  etransitivity; [apply lsum_swap|]. apply lsum_ext. intros b _.
  etransitivity; [apply lsum_swap|]. apply lsum_ext. intros i _. apply lsum_ext. intros k _. ring.
Qed.
Lemma mul1_projected : forall tl tr wl wr w D0 p D2, cut1 tl tr wl wr w D0 p D2 ->
  exists l r, lenvs tl wl = Ok l /\ renvs tr wr = Ok r /\
  forall x, gd x = [D0; p; D2] -> exists y, mul1 R r0 radd rmul l w r x = Ok y /\ gd y = gd x /\
  forall a' s' b', a' < D0 -> b' < D2 ->
    ge y [a'; s'; b'] = projected1 R r0 r1 radd rmul conj (map ten_of tl) (map ten_of tr) (map site_of wl) (site_of w) (map site_of wr) D0 p D2 (elems3 x) a' s' b'.
Proof.
  intros tl tr wl wr w D0 p D2 [[M0 [M1 [E1 [HL HR]]]]].
  destruct (left_env_ok R r0 r1 radd rmul rsub ropp Rth conj conj0 conj1 conj_add conj_mul tl wl D0 M0 HL) as [l [L1 [L2 L3]]].
  destruct (right_env_ok R r0 r1 radd rmul rsub ropp Rth conj conj0 conj1 conj_add conj_mul tr wr D2 M1 HR) as [r [R1 [R2 R3]]].
  exists l, r. split; [exact L1|]. split; [exact R1|]. intros x Ex.
  destruct (mul1_el R r0 radd rmul l w r x D0 M0 p M1 D2 L2 E1 R2 Ex) as [y [Y1 [Y2 Y3]]].
  exists y. split; [exact Y1|]. split; [rewrite Y2, Ex; reflexivity|]. intros a' s' b' Ha Hb.
  rewrite <- heff1_projected.
  2:{ destruct (site_dims R w _ _ _ _ E1) as [Q _]. rewrite Q. apply HL. }
  2:{ rewrite !map_length. exact (part_len R 1 1 tl wl D0 M0 HL). }
  unfold heff1. destruct (site_dims R w _ _ _ _ E1) as [Q0 Q1]. rewrite Q0, Q1. clear Q0 Q1.
  rewrite Y3. clear Y3. clear - Rth L3 R3 Ha Hb. revert L3 R3. generalize (left_block (map ten_of tl) (map site_of wl)). generalize (right_block (map ten_of tr) (map site_of wr)). intros RB LB L3 R3.
  etransitivity; [flat'|]. cbv beta. apply lsum_ext. intros k Ik. apply lsum_ext. intros b Ib. apply lsum_ext. intros i Ii. apply lsum_ext. intros s _. apply lsum_ext. intros a Ia.
  apply in_seq in Ik, Ib, Ii, Ia. rewrite L3, R3 by lia. unfold elems3, mval, VmpsSpec.site_of. cbn [ent]. ring.
Qed.

(** *** energies *)
Notation energy := (energy R r0 r1 radd rmul conj).
Lemma whole1_mps : forall tl t tr cl s cr, fit R 1 tl (d0 t) -> length cl = length tl ->
  whole1 R r0 r1 radd rmul tl tr (d0 t) (d2 t) (el t) cl s cr = mps_mat (tl ++ [t] ++ tr) (cl ++ [s] ++ cr) 0 0.
Proof.
  intros tl t tr cl s cr HF HL. rewrite (mps_mat_app tl ([t] ++ tr) cl ([s] ++ cr) 1 (d0 t) 0 0 HF) by (try lia; auto).
  unfold whole1. rewrite sumn_lsum. apply lsum_ext. intros a _. cbn [app EffHamSpec.mps_mat]. rewrite !sumn_lsum, lsum_mul_l. apply lsum_ext. intros b _. ring.
Qed.
Lemma configs_mid1 : forall dl d dr f, lsum (configs (dl ++ [d] ++ dr)) f =
  lsum (configs dl) (fun cl => lsum (seq 0 d) (fun s => lsum (configs dr) (fun cr => f (cl ++ [s] ++ cr)))).
Proof.
  intros dl d dr f. rewrite (configs_app R r0 r1 radd rmul rsub ropp Rth). apply lsum_ext. intros cl _.
  rewrite (configs_app R r0 r1 radd rmul rsub ropp Rth), (configs_one R r0 r1 radd rmul rsub ropp Rth). auto.
Qed.
Lemma energy_cut1 : forall tl t tr wl w wr, fit R 1 tl (d0 t) ->
  lsum (seq 0 (d0 t)) (fun a' => lsum (seq 0 (d1 t)) (fun s' => lsum (seq 0 (d2 t)) (fun b' =>
    projected1 R r0 r1 radd rmul conj tl tr wl w wr (d0 t) (d1 t) (d2 t) (el t) a' s' b' *r conj (el t a' s' b')))) =
  energy (tl ++ [t] ++ tr) (wl ++ [w] ++ wr).
Proof.
  intros tl t tr wl w wr HF. unfold EffHamSpec.energy. rewrite !map_app. cbn [map]. rewrite configs_mid1.
  set (G := fun cl' s' cr' => lsum (configs (map (@d1 R) tl)) (fun cl => sumn (d1 t) (fun s => lsum (configs (map (@d1 R) tr)) (fun cr =>
      mpo_mat (wl ++ [w] ++ wr) (cl ++ [s] ++ cr) (cl' ++ [s'] ++ cr') 0 0 *r whole1 R r0 r1 radd rmul tl tr (d0 t) (d2 t) (el t) cl s cr)))).
  transitivity (lsum (configs (map (@d1 R) tl)) (fun cl' => lsum (seq 0 (d1 t)) (fun s' => lsum (configs (map (@d1 R) tr)) (fun cr' =>
    conj (whole1 R r0 r1 radd rmul tl tr (d0 t) (d2 t) (el t) cl' s' cr') *r G cl' s' cr')))).
  - unfold projected1. fold G.
    etransitivity.
    { eapply lsum_ext. intros a' _. eapply lsum_ext. intros s' _. eapply lsum_ext. intros b' _.
      rewrite lsum_mul_r. eapply lsum_ext. intros cl' _. rewrite lsum_mul_r. eapply lsum_ext. intros cr' _. change (lsum (configs (map d1 tl)) _) with (G cl' s' cr'). reflexivity. }
    cbv beta. etransitivity; [apply pull3|]. apply lsum_ext. intros cl' _. etransitivity; [apply lsum_swap|]. apply lsum_ext. intros s' _.
    etransitivity; [apply pull2|]. apply lsum_ext. intros cr' _. unfold whole1. rewrite sumn_lsum, (lsum_conj R r0 radd conj conj0 conj_add), lsum_mul_r. apply lsum_ext. intros a' _.
    rewrite sumn_lsum, (lsum_conj R r0 radd conj conj0 conj_add), lsum_mul_r. apply lsum_ext. intros b' _. rewrite !conj_mul. ring.
  - apply lsum_ext. intros cl' Il'. apply lsum_ext. intros s' _. apply lsum_ext. intros cr' Ir'.
    apply configs_len in Il'. rewrite map_length in Il'. rewrite whole1_mps by auto.
    rewrite configs_mid1. unfold G. rewrite lsum_mul_l. apply lsum_ext. intros cl Il. rewrite sumn_lsum, lsum_mul_l. apply lsum_ext. intros s _. rewrite lsum_mul_l. apply lsum_ext. intros cr _.
    apply configs_len in Il. rewrite map_length in Il. rewrite whole1_mps by auto. ring.
Qed.
Lemma energy1_ok : forall tl t tr wl w wr D0 p D2, cut1 tl tr wl wr w D0 p D2 -> gd t = [D0; p; D2] ->
  exists l r, lenvs tl wl = Ok l /\ renvs tr wr = Ok r /\
  energy1 R r0 radd rmul conj l w r t = Ok (energy (map ten_of (tl ++ [t] ++ tr)) (map site_of (wl ++ [w] ++ wr))).
Proof.
  intros tl t tr wl w wr D0 p D2 HC Et. destruct (mul1_projected tl tr wl wr w D0 p D2 HC) as [l [r [L [Rr H]]]].
  exists l, r. split; [exact L|]. split; [exact Rr|]. destruct (H t Et) as [y [Y1 [Y2 Y3]]]. unfold energy1. rewrite Y1. cbn [bind].
  destruct (ten_dims R t _ _ _ Et) as [T0 [T1 T2]].
  rewrite !map_app. cbn [map]. rewrite <- energy_cut1.
  2:{ rewrite T0. destruct HC as [[M0 [M1 [_ [HL _]]]]]. apply HL. }
  rewrite T0, T1, T2. rewrite Et in Y2.
  assert (Q : forall y t : gten, gd y = [D0; p; D2] -> gd t = [D0; p; D2] -> (let! v := gcontract R r0 radd rmul [0; 1; 2] [0; 1; 2] y (gdag R conj t) in gscalar R v) =
    Ok (sumn D0 (fun a => sumn p (fun s => sumn D2 (fun b => ge y [a; s; b] *r conj (ge t [a; s; b])))))).
  { clear. intros [? y] [? t] H1 H2. cbn in H1, H2. subst. legs. reflexivity. }
  rewrite (Q y t Y2 Et). f_equal. rewrite sumn_lsum. apply lsum_ext. intros a Ia. rewrite sumn_lsum. apply lsum_ext. intros s _. rewrite sumn_lsum. apply lsum_ext. intros b Ib.
  apply in_seq in Ia, Ib. rewrite Y3 by lia. reflexivity.
Qed.
Lemma energy2_ok : forall tl t1 t2 tr wl w1 w2 wr D0 p1 D p2 D3, cut2 tl tr wl wr w1 w2 D0 p1 p2 D3 -> gd t1 = [D0; p1; D] -> gd t2 = [D; p2; D3] ->
  exists l r, lenvs tl wl = Ok l /\ renvs tr wr = Ok r /\
  energy2 R r0 radd rmul conj l w1 w2 r t1 t2 = Ok (energy (map ten_of (tl ++ [t1; t2] ++ tr)) (map site_of (wl ++ [w1; w2] ++ wr))).
Proof.
  intros tl t1 t2 tr wl w1 w2 wr D0 p1 D p2 D3 HC E1 E2. destruct (mul2_projected tl tr wl wr w1 w2 D0 p1 p2 D3 HC) as [l [r [L [Rr H]]]].
  exists l, r. split; [exact L|]. split; [exact Rr|]. unfold energy2.
  assert (P : exists x, gcontract R r0 radd rmul [2] [0] t1 t2 = Ok x /\ gd x = [D0; p1; p2; D3] /\ forall a s1 s2 b, ge x [a; s1; s2; b] = two_site R r0 radd rmul (ten_of t1) (ten_of t2) a s1 s2 b).
  { destruct t1 as [? t1], t2 as [? t2]. cbn in E1, E2. subst. eexists. split; [legs; reflexivity|]. split; [reflexivity|]. intros. legs. reflexivity. }
  destruct P as [x [X1 [X2 X3]]]. rewrite X1. cbn [bind].
  destruct (H x X2) as [y [Y1 [Y2 Y3]]]. rewrite Y1. cbn [bind].
  destruct (ten_dims R t1 _ _ _ E1) as [T0 [T1 T2]]. destruct (ten_dims R t2 _ _ _ E2) as [S0 [S1 S2]].
  rewrite !map_app. cbn [map]. rewrite <- (energy_cut_fit R r0 r1 radd rmul rsub ropp Rth conj conj0 conj_add conj_mul).
  2:{ rewrite T0. destruct HC as [[M0 [M1 [M2 [_ [_ [HL _]]]]]]]. apply HL. } 2:{ congruence. }
  rewrite T0, T1, S1, S2. rewrite X2 in Y2.
  assert (Q : forall y t : gten, gd y = [D0; p1; p2; D3] -> gd t = [D0; p1; p2; D3] -> (let! v := gcontract R r0 radd rmul [0; 1; 2; 3] [0; 1; 2; 3] y (gdag R conj t) in gscalar R v) =
    Ok (sumn D0 (fun a => sumn p1 (fun s => sumn p2 (fun s' => sumn D3 (fun b => ge y [a; s; s'; b] *r conj (ge t [a; s; s'; b]))))))).
  { clear. intros [? y] [? t] H1 H2. cbn in H1, H2. subst. legs. reflexivity. }
  rewrite (Q y x Y2 X2). f_equal. unfold dot4. rewrite !sumn_lsum. apply lsum_ext. intros a Ia. rewrite !sumn_lsum. apply lsum_ext. intros s _. rewrite !sumn_lsum. apply lsum_ext. intros s' _. rewrite !sumn_lsum. apply lsum_ext. intros b Ib.
  apply in_seq in Ia, Ib. rewrite Y3, X3 by lia. transitivity (conj (two_site R r0 radd rmul (ten_of t1) (ten_of t2) a s s' b) *r projected R r0 r1 radd rmul conj (map ten_of tl) (map ten_of tr) (map site_of wl) (site_of w1) (site_of w2) (map site_of wr) D0 p1 p2 D3 (elems4 x) a s s' b); [ring|].
  f_equal. unfold projected, whole. apply lsum_ext. intros cl' _. apply lsum_ext. intros cr' _. f_equal. apply lsum_ext. intros cl _. rewrite !sumn_lsum. apply lsum_ext. intros u1 _. rewrite !sumn_lsum. apply lsum_ext. intros u2 _. apply lsum_ext. intros cr _.
  f_equal. rewrite !sumn_lsum. apply lsum_ext. intros v1 _. rewrite !sumn_lsum. apply lsum_ext. intros v2 _. unfold elems4. rewrite X3. reflexivity.
Qed.
End Facts.
