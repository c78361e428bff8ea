(** States of a chain that differ in one tensor: norms, expectation values and Hermitian operators in the basis of the two bonds of a site. *)
From Coq Require Import List Arith Lia Bool Ring.
From Verif Require Import Base FiniteMps FmpsSpec FmpsFacts EffHam EffHamSpec EffHamFacts Legs VmpsSpec VmpsHeff ChainSpec ChainFacts.
Import ListNotations.

Section Facts.
Variables (R : Type) (r0 r1 : R) (radd rmul rsub : R -> R -> R) (ropp : R -> R).
Variable Rth : ring_theory r0 r1 radd rmul rsub ropp (@eq R).
Variable conj : R -> R.
Hypothesis conj0 : conj r0 = r0.
Hypothesis conj_add : forall x y, conj (radd x y) = radd (conj x) (conj y).
Hypothesis conj_mul : forall x y, conj (rmul x y) = rmul (conj x) (conj y).
Hypothesis conj_conj : forall x, conj (conj x) = x.
Add Ring Rring : Rth.
Infix "*r" := rmul (at level 40, left associativity).
Notation ten := (ten R). Notation mposite := (mposite R).
Notation sumn := (sumn R r0 radd). Notation lsum := (lsum R r0 radd). Notation delta := (delta R r0 r1).
Notation mps_mat := (mps_mat R r0 r1 radd rmul). Notation mpo_mat := (mpo_mat R r0 r1 radd rmul).
Notation left_basis := (left_basis R r0 r1 radd rmul conj). Notation right_basis := (right_basis R r0 r1 radd rmul conj).
Notation fit := (fit R). Notation norm2 := (norm2 R r0 r1 radd rmul conj). Notation energy := (energy R r0 r1 radd rmul conj).
Notation projected1 := (projected1 R r0 r1 radd rmul conj). Notation whole1 := (whole1 R r0 r1 radd rmul).
Notation lsum_ext := (lsum_ext R r0 radd). Notation lsum_swap := (lsum_swap R r0 r1 radd rmul rsub ropp Rth).
Notation lsum_mul_l := (lsum_mul_l R r0 r1 radd rmul rsub ropp Rth). Notation lsum_mul_r := (lsum_mul_r R r0 r1 radd rmul rsub ropp Rth).
Notation sumn_lsum := (sumn_lsum R r0 r1 radd rmul rsub ropp Rth).
Notation lsum_conj := (lsum_conj R r0 radd conj conj0 conj_add).
Notation pull2 := (pull2 R r0 r1 radd rmul rsub ropp Rth). Notation pull3 := (pull3 R r0 r1 radd rmul rsub ropp Rth).
Notation configs_len := EffHamFacts.configs_len.
Notation whole1_mps := (whole1_mps R r0 r1 radd rmul rsub ropp Rth).
Notation configs_mid1 := (configs_mid1 R r0 r1 radd rmul rsub ropp Rth).

(** inner product of tensors of one site *)
Definition dot3 (D0 p D2 : nat) (x y : nat -> nat -> nat -> R) : R := sumn D0 (fun a => sumn p (fun s => sumn D2 (fun b => conj (x a s b) *r y a s b))).
Section Cut.
Variables (tl tr : list ten) (D0 p D2 : nat).
Notation CL := (configs (map (@d1 R) tl)). Notation CR := (configs (map (@d1 R) tr)).
Definition over1 (f : list nat -> nat -> list nat -> R) : R := lsum CL (fun cl => lsum (seq 0 p) (fun s => lsum CR (fun cr => f cl s cr))).
Notation wh := (whole1 tl tr D0 D2).
Lemma over1_ext : forall f g, (forall cl s cr, In cl CL -> s < p -> In cr CR -> f cl s cr = g cl s cr) -> over1 f = over1 g.
Proof. intros f g H. unfold over1. apply lsum_ext. intros cl I1. apply lsum_ext. intros s I2. apply in_seq in I2. apply lsum_ext. intros cr I3. apply H; auto; lia. Qed.
Lemma over1_mul : forall k f, k *r over1 f = over1 (fun a b c => k *r f a b c).
Proof. intros k f. unfold over1. rewrite lsum_mul_l. apply lsum_ext. intros. rewrite lsum_mul_l. apply lsum_ext. intros. apply lsum_mul_l. Qed.
Lemma over1_conj : forall f, conj (over1 f) = over1 (fun a b c => conj (f a b c)).
Proof. intros f. unfold over1. rewrite lsum_conj. apply lsum_ext. intros. rewrite lsum_conj. apply lsum_ext. intros. apply lsum_conj. Qed.
Lemma over1_swap : forall (f : list nat -> nat -> list nat -> list nat -> nat -> list nat -> R),
  over1 (fun a b c => over1 (fun a' b' c' => f a b c a' b' c')) = over1 (fun a' b' c' => over1 (fun a b c => f a b c a' b' c')).
Proof.
  assert (S1 : forall A (l : list A) (g : list nat -> nat -> list nat -> A -> R), over1 (fun a b c => lsum l (fun x => g a b c x)) = lsum l (fun x => over1 (fun a b c => g a b c x))).
  { intros A l g. unfold over1. etransitivity; [|apply lsum_swap]. apply lsum_ext. intros a _. etransitivity; [|apply lsum_swap]. apply lsum_ext. intros b _. apply lsum_swap. }
  intros f. unfold over1 at 2. rewrite S1. unfold over1 at 2. apply lsum_ext. intros a' _. rewrite S1. apply lsum_ext. intros b' _. apply S1.
Qed.
Lemma dot3_lsum : forall x y, dot3 D0 p D2 x y = lsum (seq 0 D0) (fun a => lsum (seq 0 p) (fun s => lsum (seq 0 D2) (fun b => conj (x a s b) *r y a s b))).
Proof. intros x y. unfold dot3. rewrite sumn_lsum. apply lsum_ext. intros a _. rewrite sumn_lsum. apply lsum_ext. intros s _. apply sumn_lsum. Qed.
Lemma wh1_lsum : forall x cl s cr, wh x cl s cr = lsum (seq 0 D0) (fun a => lsum (seq 0 D2) (fun b => mps_mat tl cl 0 a *r x a s b *r mps_mat tr cr b 0)).
Proof. intros. unfold VmpsSpec.whole1. rewrite sumn_lsum. apply lsum_ext. intros a _. apply sumn_lsum. Qed.
Lemma dot3_ext : forall x x' y y', (forall a s b, a < D0 -> s < p -> b < D2 -> x a s b = x' a s b /\ y a s b = y' a s b) -> dot3 D0 p D2 x y = dot3 D0 p D2 x' y'.
Proof.
  intros x x' y y' H. unfold dot3. apply (ChainFacts.sumn_ext R r0 radd). intros a Ha. apply (ChainFacts.sumn_ext R r0 radd). intros s Hs. apply (ChainFacts.sumn_ext R r0 radd). intros b Hb.
  destruct (H a s b Ha Hs Hb) as [E1 E2]. rewrite E1, E2. reflexivity.
Qed.
Lemma wh1_ext : forall x x' cl s cr, (forall a b, a < D0 -> b < D2 -> x a s b = x' a s b) -> wh x cl s cr = wh x' cl s cr.
Proof. intros x x' cl s cr H. unfold VmpsSpec.whole1. apply (ChainFacts.sumn_ext R r0 radd). intros a Ha. apply (ChainFacts.sumn_ext R r0 radd). intros b Hb. rewrite H by auto. reflexivity. Qed.
(** contraction with a tensor, lifted to the chain *)
Lemma lifted1 : forall y (G : list nat -> nat -> list nat -> R),
  dot3 D0 p D2 y (fun a s b => lsum CL (fun cl => lsum CR (fun cr => conj (mps_mat tl cl 0 a) *r conj (mps_mat tr cr b 0) *r G cl s cr))) =
  over1 (fun cl s cr => conj (wh y cl s cr) *r G cl s cr).
Proof.
  intros y G. rewrite dot3_lsum. etransitivity.
  { eapply lsum_ext. intros a' _. eapply lsum_ext. intros s' _. eapply lsum_ext. intros b' _.
    rewrite lsum_mul_l. eapply lsum_ext. intros cl' _. rewrite lsum_mul_l. eapply lsum_ext. intros cr' _. reflexivity. }
  cbv beta. etransitivity; [apply pull3|]. apply lsum_ext. intros cl' _. etransitivity; [apply lsum_swap|]. apply lsum_ext. intros s' _.
  etransitivity; [apply pull2|]. apply lsum_ext. intros cr' _. rewrite wh1_lsum, lsum_conj, lsum_mul_r. apply lsum_ext. intros a' _. rewrite lsum_conj, lsum_mul_r. apply lsum_ext. intros b' _.
  rewrite !conj_mul. ring.
Qed.
Lemma whole1_dot : left_basis tl D0 -> right_basis tr D2 -> forall x y, over1 (fun cl s cr => conj (wh y cl s cr) *r wh x cl s cr) = dot3 D0 p D2 y x.
Proof.
  intros LB RB x y. rewrite <- (lifted1 y (wh x)). apply dot3_ext. intros a s b Ha _ Hb. split; [reflexivity|].
  transitivity (lsum (seq 0 D0) (fun a' => lsum (seq 0 D2) (fun b' => delta a a' *r (delta b b' *r x a' s b')))).
  2:{ transitivity (lsum (seq 0 D0) (fun a' => delta a a' *r x a' s b)); [|apply (delta_l R r0 r1 radd rmul rsub ropp Rth D0 a (fun a' => x a' s b)); auto].
      apply lsum_ext. intros a' _. rewrite <- lsum_mul_l. f_equal. apply (delta_l R r0 r1 radd rmul rsub ropp Rth D2 b (fun b' => x a' s b')); auto. }
  transitivity (lsum CL (fun cl => lsum CR (fun cr => lsum (seq 0 D0) (fun a' => lsum (seq 0 D2) (fun b' =>
    x a' s b' *r ((conj (mps_mat tl cl 0 a) *r mps_mat tl cl 0 a') *r (conj (mps_mat tr cr b 0) *r mps_mat tr cr b' 0))))))).
  { apply lsum_ext. intros cl _. apply lsum_ext. intros cr _. rewrite wh1_lsum, lsum_mul_l. apply lsum_ext. intros a' _. rewrite lsum_mul_l. apply lsum_ext. intros b' _. ring. }
  etransitivity; [apply pull2|]. apply lsum_ext. intros a' Ia. apply in_seq in Ia. etransitivity; [apply pull2|]. apply lsum_ext. intros b' Ib. apply in_seq in Ib.
  rewrite <- (LB a a') by lia. rewrite <- (RB b b') by lia. rewrite lsum_mul_r. apply lsum_ext. intros cl _. rewrite lsum_mul_r, lsum_mul_l. apply lsum_ext. intros cr _. ring.
Qed.
Section Op.
Variables (wl wr : list mposite) (w : mposite).
Notation H := (mpo_mat (wl ++ [w] ++ wr)).
Lemma projected1_form : forall x y, dot3 D0 p D2 y (projected1 tl tr wl w wr D0 p D2 x) =
  over1 (fun cl' s' cr' => over1 (fun cl s cr => conj (wh y cl' s' cr') *r H (cl ++ [s] ++ cr) (cl' ++ [s'] ++ cr') 0 0 *r wh x cl s cr)).
Proof.
  intros x y. unfold VmpsSpec.projected1.
  transitivity (over1 (fun cl' s' cr' => conj (wh y cl' s' cr') *r over1 (fun cl s cr => H (cl ++ [s] ++ cr) (cl' ++ [s'] ++ cr') 0 0 *r wh x cl s cr))).
  - rewrite <- lifted1. apply dot3_ext. intros a s' b _ _ _. split; [reflexivity|]. apply lsum_ext. intros cl' _. apply lsum_ext. intros cr' _. f_equal.
    unfold over1. apply lsum_ext. intros cl _. apply sumn_lsum.
  - apply over1_ext. intros cl' s' cr' _ _ _. rewrite over1_mul. apply over1_ext. intros. ring.
Qed.
Lemma in_over1 : forall cl s cr, In cl CL -> s < p -> In cr CR -> In (cl ++ [s] ++ cr) (configs (map (@d1 R) tl ++ [p] ++ map (@d1 R) tr)).
Proof.
  assert (A : forall ds ds' c c', In c (configs ds) -> In c' (configs ds') -> In (c ++ c') (configs (ds ++ ds'))).
  { induction ds as [|d ds IH]; intros ds' c c' I I'; cbn [configs app] in *; [destruct I as [<-|[]]; exact I'|]. apply in_flat_map in I. destruct I as [s [Is I]]. apply in_map_iff in I. destruct I as [c1 [<- I]].
    apply in_flat_map. exists s. split; [exact Is|]. cbn [app]. apply in_map. auto. }
  intros cl s cr I1 H1 I2. apply A; [exact I1|]. apply A; [|exact I2]. cbn [configs]. apply in_flat_map. exists s. split; [apply in_seq; lia|]. left. reflexivity.
Qed.
Lemma projected1_hermitian : hermitian_mpo R r0 r1 radd rmul conj (map (@d1 R) tl ++ [p] ++ map (@d1 R) tr) (wl ++ [w] ++ wr) ->
  forall x y, dot3 D0 p D2 y (projected1 tl tr wl w wr D0 p D2 x) = conj (dot3 D0 p D2 x (projected1 tl tr wl w wr D0 p D2 y)).
Proof.
  intros HH x y. rewrite !projected1_form, over1_conj. etransitivity; [|apply over1_ext; intros; symmetry; apply over1_conj].
  rewrite over1_swap. apply over1_ext. intros cl s cr I1 I2 I3. apply over1_ext. intros cl' s' cr' J1 J2 J3.
  rewrite !conj_mul, conj_conj. rewrite (HH (cl ++ [s] ++ cr) (cl' ++ [s'] ++ cr')) by (apply in_over1; auto). ring.
Qed.
End Op.
End Cut.

(** *** chains *)
Lemma norm2_one : forall tl tr t, fit 1 tl (d0 t) -> left_basis tl (d0 t) -> right_basis tr (d2 t) -> norm2 (tl ++ [t] ++ tr) = dot3 (d0 t) (d1 t) (d2 t) (el t) (el t).
Proof.
  intros tl tr t HF LB RB. unfold ChainSpec.norm2. rewrite !map_app. cbn [map]. rewrite configs_mid1, <- (whole1_dot tl tr (d0 t) (d1 t) (d2 t) LB RB). apply over1_ext. intros cl s cr I1 I2 I3.
  apply configs_len in I1. rewrite map_length in I1. rewrite whole1_mps by auto. reflexivity.
Qed.
Lemma energy_one : forall tl tr wl w wr t, fit 1 tl (d0 t) ->
  energy (tl ++ [t] ++ tr) (wl ++ [w] ++ wr) = dot3 (d0 t) (d1 t) (d2 t) (el t) (projected1 tl tr wl w wr (d0 t) (d1 t) (d2 t) (el t)).
Proof.
  intros tl tr wl w wr t HF. rewrite <- (energy_cut1 R r0 r1 radd rmul rsub ropp Rth conj conj0 conj_add conj_mul) by exact HF. rewrite dot3_lsum.
  apply lsum_ext. intros a _. apply lsum_ext. intros s _. apply lsum_ext. intros b _. ring.
Qed.
End Facts.
