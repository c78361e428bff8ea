(** Inner products of two-site tensors are inner products of the states of the chain; canonical tensors give orthonormal bases. *)
From Coq Require Import List Arith Lia Bool Ring.
From Verif Require Import Base FiniteMps FmpsSpec FmpsFacts EffHam EffHamSpec EffHamFacts ChainSpec.
Import ListNotations.

Section Facts.
Variables (R : Type) (r0 r1 : R) (radd rmul rsub : R -> R -> R) (ropp : R -> R).
Variable Rth : ring_theory r0 r1 radd rmul rsub ropp (@eq R).
Variable conj : R -> R.
Hypothesis conj0 : conj r0 = r0.
Hypothesis conj1 : conj r1 = r1.
Hypothesis conj_add : forall x y, conj (radd x y) = radd (conj x) (conj y).
Hypothesis conj_mul : forall x y, conj (rmul x y) = rmul (conj x) (conj y).
Hypothesis conj_conj : forall x, conj (conj x) = x.
Add Ring Rring : Rth.
Infix "+r" := radd (at level 50, left associativity).
Infix "*r" := rmul (at level 40, left associativity).
Notation ten := (ten R). Notation mposite := (mposite R).
Notation sumn := (sumn R r0 radd). Notation delta := (delta R r0 r1). Notation lsum := (lsum R r0 radd).
Notation mps_mat := (mps_mat R r0 r1 radd rmul). Notation mpo_mat := (mpo_mat R r0 r1 radd rmul).
Notation fit := (fit R). Notation wfit := (wfit R).
Notation whole := (whole R r0 r1 radd rmul). Notation projected := (projected R r0 r1 radd rmul conj).
Notation dot4 := (dot4 R r0 radd rmul conj). Notation two_site := (two_site R r0 radd rmul). Notation energy := (energy R r0 r1 radd rmul conj).
Notation left_canonical := (left_canonical R r0 r1 radd rmul conj). Notation right_canonical := (right_canonical R r0 r1 radd rmul conj).
Notation norm2 := (norm2 R r0 r1 radd rmul conj).
Notation lsum_ext := (lsum_ext R r0 radd). Notation lsum_mul_l := (lsum_mul_l R r0 r1 radd rmul rsub ropp Rth). Notation lsum_mul_r := (lsum_mul_r R r0 r1 radd rmul rsub ropp Rth).
Notation lsum_swap := (lsum_swap R r0 r1 radd rmul rsub ropp Rth). Notation sumn_lsum := (sumn_lsum R r0 r1 radd rmul rsub ropp Rth).
Notation lsum_conj := (lsum_conj R r0 radd conj conj0 conj_add).
Notation configs_app := (configs_app R r0 r1 radd rmul rsub ropp Rth). Notation configs_one := (configs_one R r0 r1 radd rmul rsub ropp Rth).
Notation mps_mat_app := (mps_mat_app R r0 r1 radd rmul rsub ropp Rth).
Notation pull2 := (pull2 R r0 r1 radd rmul rsub ropp Rth). Notation pull3 := (pull3 R r0 r1 radd rmul rsub ropp Rth).
Notation pull4 := (pull4 R r0 r1 radd rmul rsub ropp Rth). Notation pull5 := (pull5 R r0 r1 radd rmul rsub ropp Rth). Notation pull7 := (pull7 R r0 r1 radd rmul rsub ropp Rth).
Notation configs_len := EffHamFacts.configs_len.
Lemma conj_sumn : forall n f, conj (sumn n f) = sumn n (fun i => conj (f i)).
Proof. induction n as [|n IH]; intros f; cbn [FmpsSpec.sumn]; [exact conj0|]. rewrite conj_add, IH. reflexivity. Qed.
Lemma sumn_ext : forall n f g, (forall i, i < n -> f i = g i) -> sumn n f = sumn n g.
Proof. induction n as [|n IH]; intros f g H; cbn [FmpsSpec.sumn]; [reflexivity|]. rewrite (IH f g), (H n) by auto. reflexivity. Qed.

(** *** orthonormal bases of the blocks *)
Definition left_basis (ts : list ten) (D : nat) : Prop := forall a a', a < D -> a' < D ->
  lsum (configs (map (@d1 R) ts)) (fun c => conj (mps_mat ts c 0 a) *r mps_mat ts c 0 a') = delta a a'.
Definition right_basis (ts : list ten) (D : nat) : Prop := forall b b', b < D -> b' < D ->
  lsum (configs (map (@d1 R) ts)) (fun c => conj (mps_mat ts c b 0) *r mps_mat ts c b' 0) = delta b b'.
Lemma fit_snoc : forall ts t X D, fit X (ts ++ [t]) D -> fit X ts (d0 t) /\ d2 t = D.
Proof. induction ts as [|u ts IH]; intros t X D H; cbn [app EffHamSpec.fit] in *; [destruct H; auto|]. destruct H as [H1 H2]. destruct (IH _ _ _ H2). auto. Qed.
Lemma dbl : forall n (u v : nat -> R) (q : nat -> nat -> R), (forall x y, x < n -> y < n -> q x y = delta x y) ->
  lsum (seq 0 n) (fun x => lsum (seq 0 n) (fun y => u x *r v y *r q x y)) = lsum (seq 0 n) (fun x => u x *r v x).
Proof.
  intros n u v q H. apply lsum_ext. intros x Ix. apply in_seq in Ix.
  etransitivity; [|apply (delta_l R r0 r1 radd rmul rsub ropp Rth n x (fun y => u x *r v y)); lia].
  apply lsum_ext. intros y Iy. apply in_seq in Iy. rewrite H by lia. ring.
Qed.
Lemma left_basis_ok : forall ts D, fit 1 ts D -> Forall left_canonical ts -> left_basis ts D.
Proof.
  induction ts as [|t ts IH] using rev_ind; intros D HF HC a a' Ha Ha'.
  - cbn in HF. subst D. replace a with 0 by lia. replace a' with 0 by lia. cbn. rewrite conj1. ring.
  - destruct (fit_snoc _ _ _ _ HF) as [HF1 HD]. apply Forall_app in HC. destruct HC as [HC1 HC2]. inversion HC2 as [|? ? HT _]; subst.
    specialize (IH _ HF1 HC1). rewrite map_app. cbn [map]. rewrite configs_app.
    rewrite <- (HT a a' Ha Ha').
    transitivity (lsum (configs (map (@d1 R) ts)) (fun c => lsum (seq 0 (d1 t)) (fun s => lsum (seq 0 (d0 t)) (fun x => lsum (seq 0 (d0 t)) (fun y =>
      (conj (el t x s a) *r el t y s a') *r (conj (mps_mat ts c 0 x) *r mps_mat ts c 0 y)))))).
    { apply lsum_ext. intros c Ic. rewrite configs_one. apply lsum_ext. intros s _. apply configs_len in Ic. rewrite map_length in Ic.
      rewrite !(mps_mat_app ts [t] c [s] 1 (d0 t) 0) by (auto; lia). rewrite lsum_conj, lsum_mul_r. apply lsum_ext. intros x _. rewrite lsum_mul_l. apply lsum_ext. intros y _.
      rewrite !(mps_one R r0 r1 radd rmul rsub ropp Rth) by auto. rewrite conj_mul. ring. }
    etransitivity; [apply lsum_swap|]. rewrite sumn_lsum.
    transitivity (lsum (seq 0 (d1 t)) (fun s => lsum (seq 0 (d0 t)) (fun x => conj (el t x s a) *r el t x s a'))).
    2:{ rewrite lsum_swap. apply lsum_ext. intros x _. rewrite sumn_lsum. reflexivity. }
    apply lsum_ext. intros s _. etransitivity; [apply lsum_swap|]. etransitivity; [|apply (dbl (d0 t) (fun x => conj (el t x s a)) (fun y => el t y s a') (fun x y => lsum (configs (map (@d1 R) ts)) (fun c => conj (mps_mat ts c 0 x) *r mps_mat ts c 0 y)) IH)].
    apply lsum_ext. intros x _. etransitivity; [apply lsum_swap|]. apply lsum_ext. intros y _. rewrite lsum_mul_l. reflexivity.
Qed.
Lemma right_basis_ok : forall ts D, fit D ts 1 -> Forall right_canonical ts -> right_basis ts D.
Proof.
  induction ts as [|t ts IH]; intros D HF HC b b' Hb Hb'.
  - cbn in HF. subst D. replace b with 0 by lia. replace b' with 0 by lia. cbn. rewrite conj1. ring.
  - destruct HF as [HD HF1]. inversion HC as [|? ? HT HC1]; subst. specialize (IH _ HF1 HC1). cbn [map].
    change (d1 t :: map (@d1 R) ts) with ([d1 t] ++ map (@d1 R) ts). rewrite configs_app, configs_one.
    rewrite <- (HT b b' Hb Hb'). rewrite sumn_lsum.
    transitivity (lsum (seq 0 (d1 t)) (fun s => lsum (seq 0 (d2 t)) (fun x => conj (el t b s x) *r el t b' s x))).
    2:{ rewrite lsum_swap. apply lsum_ext. intros x _. rewrite sumn_lsum. reflexivity. }
    apply lsum_ext. intros s _. 
    transitivity (lsum (configs (map (@d1 R) ts)) (fun c => lsum (seq 0 (d2 t)) (fun x => lsum (seq 0 (d2 t)) (fun y =>
      (conj (el t b s x) *r el t b' s y) *r (conj (mps_mat ts c x 0) *r mps_mat ts c y 0))))).
    { apply lsum_ext. intros c _. cbn [app EffHamSpec.mps_mat]. rewrite !sumn_lsum, lsum_conj, lsum_mul_r. apply lsum_ext. intros x _. rewrite lsum_mul_l. apply lsum_ext. intros y _. rewrite conj_mul. ring. }
    etransitivity; [apply lsum_swap|]. etransitivity; [|apply (dbl (d2 t) (fun x => conj (el t b s x)) (fun y => el t b' s y) (fun x y => lsum (configs (map (@d1 R) ts)) (fun c => conj (mps_mat ts c x 0) *r mps_mat ts c y 0)) IH)].
    apply lsum_ext. intros x _. etransitivity; [apply lsum_swap|]. apply lsum_ext. intros y _. rewrite lsum_mul_l. reflexivity.
Qed.

(** *** the states that two-site tensors stand for *)
Section Cut.
Variables (tl tr : list ten) (D0 p1 p2 D3 : nat).
Notation CL := (configs (map (@d1 R) tl)). Notation CR := (configs (map (@d1 R) tr)).
Notation t4 := (nat -> nat -> nat -> nat -> R).
Definition over (f : list nat -> nat -> nat -> list nat -> R) : R :=
  lsum CL (fun cl => lsum (seq 0 p1) (fun s1 => lsum (seq 0 p2) (fun s2 => lsum CR (fun cr => f cl s1 s2 cr)))).
Notation wh := (whole tl tr D0 D3).
Lemma over_ext : forall f g, (forall cl s1 s2 cr, In cl CL -> s1 < p1 -> s2 < p2 -> In cr CR -> f cl s1 s2 cr = g cl s1 s2 cr) -> over f = over g.
Proof.
  intros f g H. unfold over. apply lsum_ext. intros cl I1. apply lsum_ext. intros s1 I2. apply in_seq in I2. apply lsum_ext. intros s2 I3. apply in_seq in I3.
  apply lsum_ext. intros cr I4. apply H; auto; lia.
Qed.
Lemma over_mul : forall k f, k *r over f = over (fun a b c d => k *r f a b c d).
Proof. intros k f. unfold over. rewrite lsum_mul_l. apply lsum_ext. intros. rewrite lsum_mul_l. apply lsum_ext. intros. rewrite lsum_mul_l. apply lsum_ext. intros. apply lsum_mul_l. Qed.
Lemma over_conj : forall f, conj (over f) = over (fun a b c d => conj (f a b c d)).
Proof. intros f. unfold over. rewrite lsum_conj. apply lsum_ext. intros. rewrite lsum_conj. apply lsum_ext. intros. rewrite lsum_conj. apply lsum_ext. intros. apply lsum_conj. Qed.
Lemma over_swap : forall (f : list nat -> nat -> nat -> list nat -> list nat -> nat -> nat -> list nat -> R),
  over (fun a b c d => over (fun a' b' c' d' => f a b c d a' b' c' d')) = over (fun a' b' c' d' => over (fun a b c d => f a b c d a' b' c' d')).
Proof.
  assert (S1 : forall A (l : list A) (g : list nat -> nat -> nat -> list nat -> A -> R), over (fun a b c d => lsum l (fun x => g a b c d x)) = lsum l (fun x => over (fun a b c d => g a b c d x))).
  { intros A l g. unfold over. etransitivity; [|apply lsum_swap]. apply lsum_ext. intros a _. etransitivity; [|apply lsum_swap]. apply lsum_ext. intros b _.
    etransitivity; [|apply lsum_swap]. apply lsum_ext. intros c _. apply lsum_swap. }
  intros f. unfold over at 2. rewrite S1. unfold over at 2. apply lsum_ext. intros a' _. rewrite S1. apply lsum_ext. intros b' _. rewrite S1. apply lsum_ext. intros c' _. apply S1.
Qed.
Lemma dot4_lsum : forall x y, dot4 D0 p1 p2 D3 x y = lsum (seq 0 D0) (fun a => lsum (seq 0 p1) (fun s1 => lsum (seq 0 p2) (fun s2 => lsum (seq 0 D3) (fun b => conj (x a s1 s2 b) *r y a s1 s2 b)))).
Proof.
  intros x y. unfold EffHamSpec.dot4. rewrite sumn_lsum. apply lsum_ext. intros a _. rewrite sumn_lsum. apply lsum_ext. intros s1 _. rewrite sumn_lsum. apply lsum_ext. intros s2 _. apply sumn_lsum.
Qed.
Lemma wh_lsum : forall x cl s1 s2 cr, wh x cl s1 s2 cr = lsum (seq 0 D0) (fun a => lsum (seq 0 D3) (fun b => mps_mat tl cl 0 a *r x a s1 s2 b *r mps_mat tr cr b 0)).
Proof. intros. unfold EffHamSpec.whole. rewrite sumn_lsum. apply lsum_ext. intros a _. apply sumn_lsum. Qed.
(** contraction with a tensor, lifted to the chain *)
Lemma lifted : forall y (G : list nat -> nat -> nat -> list nat -> R),
  dot4 D0 p1 p2 D3 y (fun a s1 s2 b => lsum CL (fun cl => lsum CR (fun cr => conj (mps_mat tl cl 0 a) *r conj (mps_mat tr cr b 0) *r G cl s1 s2 cr))) =
  over (fun cl s1 s2 cr => conj (wh y cl s1 s2 cr) *r G cl s1 s2 cr).
Proof.
  intros y G. rewrite dot4_lsum. etransitivity.
  { eapply lsum_ext. intros a' _. eapply lsum_ext. intros s1' _. eapply lsum_ext. intros s2' _. eapply lsum_ext. intros b' _.
    rewrite lsum_mul_l. eapply lsum_ext. intros cl' _. rewrite lsum_mul_l. eapply lsum_ext. intros cr' _. reflexivity. }
  cbv beta. etransitivity; [apply pull4|]. apply lsum_ext. intros cl' _. etransitivity; [apply lsum_swap|]. apply lsum_ext. intros s1' _. etransitivity; [apply lsum_swap|]. apply lsum_ext. intros s2' _.
  etransitivity; [apply pull2|]. apply lsum_ext. intros cr' _. rewrite wh_lsum, lsum_conj, lsum_mul_r. apply lsum_ext. intros a' _. rewrite lsum_conj, lsum_mul_r. apply lsum_ext. intros b' _.
  rewrite !conj_mul. ring.
Qed.
Lemma dot4_ext : forall x x' y y', (forall a s1 s2 b, a < D0 -> s1 < p1 -> s2 < p2 -> b < D3 -> x a s1 s2 b = x' a s1 s2 b /\ y a s1 s2 b = y' a s1 s2 b) -> dot4 D0 p1 p2 D3 x y = dot4 D0 p1 p2 D3 x' y'.
Proof.
  intros x x' y y' H. unfold EffHamSpec.dot4. apply sumn_ext. intros a Ha. apply sumn_ext. intros s1 H1. apply sumn_ext. intros s2 H2. apply sumn_ext. intros b Hb.
  destruct (H a s1 s2 b Ha H1 H2 Hb) as [E1 E2]. rewrite E1, E2. reflexivity.
Qed.
Lemma wh_ext : forall x x' cl s1 s2 cr, (forall a b, a < D0 -> b < D3 -> x a s1 s2 b = x' a s1 s2 b) -> wh x cl s1 s2 cr = wh x' cl s1 s2 cr.
Proof. intros x x' cl s1 s2 cr H. unfold EffHamSpec.whole. apply sumn_ext. intros a Ha. apply sumn_ext. intros b Hb. rewrite H by auto. reflexivity. Qed.
Lemma whole_dot : left_basis tl D0 -> right_basis tr D3 -> forall x y, over (fun cl s1 s2 cr => conj (wh y cl s1 s2 cr) *r wh x cl s1 s2 cr) = dot4 D0 p1 p2 D3 y x.
Proof.
  intros LB RB x y. rewrite <- (lifted y (wh x)). apply dot4_ext. intros a s1 s2 b Ha _ _ Hb. split; [reflexivity|].
  transitivity (lsum (seq 0 D0) (fun a' => lsum (seq 0 D3) (fun b' => delta a a' *r (delta b b' *r x a' s1 s2 b')))).
  2:{ transitivity (lsum (seq 0 D0) (fun a' => delta a a' *r x a' s1 s2 b)); [|apply (delta_l R r0 r1 radd rmul rsub ropp Rth D0 a (fun a' => x a' s1 s2 b)); auto].
      apply lsum_ext. intros a' _. rewrite <- lsum_mul_l. f_equal. apply (delta_l R r0 r1 radd rmul rsub ropp Rth D3 b (fun b' => x a' s1 s2 b')); auto. }
  transitivity (lsum CL (fun cl => lsum CR (fun cr => lsum (seq 0 D0) (fun a' => lsum (seq 0 D3) (fun b' =>
    x a' s1 s2 b' *r ((conj (mps_mat tl cl 0 a) *r mps_mat tl cl 0 a') *r (conj (mps_mat tr cr b 0) *r mps_mat tr cr b' 0))))))).
  { apply lsum_ext. intros cl _. apply lsum_ext. intros cr _. rewrite wh_lsum, lsum_mul_l. apply lsum_ext. intros a' _. rewrite lsum_mul_l. apply lsum_ext. intros b' _. ring. }
  etransitivity; [apply pull2|]. apply lsum_ext. intros a' Ia. apply in_seq in Ia. etransitivity; [apply pull2|]. apply lsum_ext. intros b' Ib. apply in_seq in Ib.
  rewrite <- (LB a a') by lia. rewrite <- (RB b b') by lia. rewrite lsum_mul_r. apply lsum_ext. intros cl _. rewrite lsum_mul_r, lsum_mul_l. apply lsum_ext. intros cr _. ring.
Qed.
Section Op.
Variables (wl wr : list mposite) (w1 w2 : mposite).
Notation H := (mpo_mat (wl ++ [w1; w2] ++ wr)).
(** matrix elements of the operator of the chain *)
Lemma projected_form : forall x y, dot4 D0 p1 p2 D3 y (projected tl tr wl w1 w2 wr D0 p1 p2 D3 x) =
  over (fun cl' s1' s2' cr' => over (fun cl s1 s2 cr => conj (wh y cl' s1' s2' cr') *r H (cl ++ [s1; s2] ++ cr) (cl' ++ [s1'; s2'] ++ cr') 0 0 *r wh x cl s1 s2 cr)).
Proof.
  intros x y. unfold EffHamSpec.projected.
  transitivity (over (fun cl' s1' s2' cr' => conj (wh y cl' s1' s2' cr') *r over (fun cl s1 s2 cr => H (cl ++ [s1; s2] ++ cr) (cl' ++ [s1'; s2'] ++ cr') 0 0 *r wh x cl s1 s2 cr))).
  - rewrite <- lifted. apply dot4_ext. intros a s1' s2' b _ _ _ _. split; [reflexivity|]. apply lsum_ext. intros cl' _. apply lsum_ext. intros cr' _. f_equal.
    unfold over. apply lsum_ext. intros cl _. rewrite sumn_lsum. apply lsum_ext. intros s1 _. apply sumn_lsum.
  - apply over_ext. intros cl' s1' s2' cr' _ _ _ _. rewrite over_mul. apply over_ext. intros. ring.
Qed.
Lemma in_over : forall cl s1 s2 cr, In cl CL -> s1 < p1 -> s2 < p2 -> In cr CR -> In (cl ++ [s1; s2] ++ cr) (configs (map (@d1 R) tl ++ [p1; p2] ++ map (@d1 R) tr)).
Proof.
  assert (A : forall ds ds' c c', In c (configs ds) -> In c' (configs ds') -> In (c ++ c') (configs (ds ++ ds'))).
  { induction ds as [|d ds IH]; intros ds' c c' I I'; cbn [configs app] in *; [destruct I as [<-|[]]; exact I'|]. apply in_flat_map in I. destruct I as [s [Is I]]. apply in_map_iff in I. destruct I as [c1 [<- I]].
    apply in_flat_map. exists s. split; [exact Is|]. cbn [app]. apply in_map. auto. }
  intros cl s1 s2 cr I1 H1 H2 I2. apply A; [exact I1|]. apply A; [|exact I2]. cbn [configs]. apply in_flat_map. exists s1. split; [apply in_seq; lia|]. apply in_map. apply in_flat_map. exists s2. split; [apply in_seq; lia|]. left. reflexivity.
Qed.
Lemma projected_hermitian : hermitian_mpo R r0 r1 radd rmul conj (map (@d1 R) tl ++ [p1; p2] ++ map (@d1 R) tr) (wl ++ [w1; w2] ++ wr) ->
  forall x y, dot4 D0 p1 p2 D3 y (projected tl tr wl w1 w2 wr D0 p1 p2 D3 x) = conj (dot4 D0 p1 p2 D3 x (projected tl tr wl w1 w2 wr D0 p1 p2 D3 y)).
Proof.
  intros HH x y. rewrite !projected_form, over_conj. etransitivity; [|apply over_ext; intros; symmetry; apply over_conj].
  rewrite over_swap. apply over_ext. intros cl s1 s2 cr I1 I2 I3 I4. apply over_ext. intros cl' s1' s2' cr' J1 J2 J3 J4.
  rewrite !conj_mul, conj_conj. rewrite (HH (cl ++ [s1; s2] ++ cr) (cl' ++ [s1'; s2'] ++ cr')) by (apply in_over; auto). ring.
Qed.
End Op.
Lemma dot4_conj : forall x y, conj (dot4 D0 p1 p2 D3 x y) = dot4 D0 p1 p2 D3 y x.
Proof.
  intros x y. unfold EffHamSpec.dot4. rewrite conj_sumn. apply sumn_ext. intros a _. rewrite conj_sumn. apply sumn_ext. intros s1 _. rewrite conj_sumn. apply sumn_ext. intros s2 _. rewrite conj_sumn. apply sumn_ext. intros b _.
  rewrite conj_mul, conj_conj. ring.
Qed.
End Cut.

(** *** chains *)
Lemma configs_mid : forall (tl tr : list ten) t1 t2 f, lsum (configs (map (@d1 R) (tl ++ [t1; t2] ++ tr))) f = over tl tr (d1 t1) (d1 t2) (fun cl s1 s2 cr => f (cl ++ [s1; s2] ++ cr)).
Proof.
  intros tl tr t1 t2 f. rewrite map_app, configs_app. apply lsum_ext. intros cl _. change (map (@d1 R) ([t1; t2] ++ tr)) with ([d1 t1] ++ [d1 t2] ++ map (@d1 R) tr).
  rewrite configs_app, configs_one. apply lsum_ext. intros s1 _. rewrite configs_app, configs_one. apply lsum_ext. intros s2 _. reflexivity.
Qed.
Lemma mid_whole : forall tl tr a b g D0 p1 p2 D3 cl s1 s2 cr, fit 1 tl D0 -> splits R r0 radd rmul D0 p1 p2 D3 g a b -> In cl (configs (map (@d1 R) tl)) -> s1 < p1 -> s2 < p2 ->
  mps_mat (tl ++ [a; b] ++ tr) (cl ++ [s1; s2] ++ cr) 0 0 = whole tl tr D0 D3 g cl s1 s2 cr.
Proof.
  intros tl tr a b g D0 p1 p2 D3 cl s1 s2 cr HF [<- <- HM <- <- HE] Ic H1 H2. apply configs_len in Ic. rewrite map_length in Ic.
  rewrite <- (whole_mps R r0 r1 radd rmul rsub ropp Rth tl a b tr) by auto. apply wh_ext. intros. apply HE; auto.
Qed.
Lemma norm2_splits : forall tl tr a b g D0 p1 p2 D3, fit 1 tl D0 -> splits R r0 radd rmul D0 p1 p2 D3 g a b -> left_basis tl D0 -> right_basis tr D3 ->
  norm2 (tl ++ [a; b] ++ tr) = dot4 D0 p1 p2 D3 g g.
Proof.
  intros tl tr a b g D0 p1 p2 D3 HF HE LB RB. unfold ChainSpec.norm2. rewrite configs_mid. rewrite <- (whole_dot tl tr D0 p1 p2 D3 LB RB).
  rewrite (fa_1 _ _ _ _ _ _ _ _ _ _ _ HE), (fa_2 _ _ _ _ _ _ _ _ _ _ _ HE). apply over_ext. intros cl s1 s2 cr I1 I2 I3 I4.
  rewrite (mid_whole tl tr a b g D0 p1 p2 D3 cl s1 s2 cr HF HE I1 I2 I3). reflexivity.
Qed.
Lemma energy_splits : forall tl tr wl w1 w2 wr a b g D0 p1 p2 D3, fit 1 tl D0 -> splits R r0 radd rmul D0 p1 p2 D3 g a b ->
  energy (tl ++ [a; b] ++ tr) (wl ++ [w1; w2] ++ wr) = dot4 D0 p1 p2 D3 g (projected tl tr wl w1 w2 wr D0 p1 p2 D3 g).
Proof.
  intros tl tr wl w1 w2 wr a b g D0 p1 p2 D3 HF HE. unfold EffHamSpec.energy. rewrite projected_form, configs_mid.
  rewrite (fa_1 _ _ _ _ _ _ _ _ _ _ _ HE), (fa_2 _ _ _ _ _ _ _ _ _ _ _ HE). apply over_ext. intros cl' s1' s2' cr' J1 J2 J3 J4. rewrite configs_mid.
  rewrite (fa_1 _ _ _ _ _ _ _ _ _ _ _ HE), (fa_2 _ _ _ _ _ _ _ _ _ _ _ HE). apply over_ext. intros cl s1 s2 cr I1 I2 I3 I4.
  rewrite (mid_whole tl tr a b g D0 p1 p2 D3 cl s1 s2 cr HF HE I1 I2 I3), (mid_whole tl tr a b g D0 p1 p2 D3 cl' s1' s2' cr' HF HE J1 J2 J3). reflexivity.
Qed.
Lemma splits_self : forall t1 t2, d2 t1 = d0 t2 -> splits R r0 radd rmul (d0 t1) (d1 t1) (d1 t2) (d2 t2) (two_site t1 t2) t1 t2.
Proof. intros t1 t2 H. split; auto. Qed.
(** an exact factorisation of the same two-site tensor leaves the state as it is *)
Lemma splits_same : forall tl tr t1 t2 a b, fit 1 tl (d0 t1) -> d2 t1 = d0 t2 -> splits R r0 radd rmul (d0 t1) (d1 t1) (d1 t2) (d2 t2) (two_site t1 t2) a b ->
  same_state R r0 r1 radd rmul (tl ++ [t1; t2] ++ tr) (tl ++ [a; b] ++ tr).
Proof.
  intros tl tr t1 t2 a b HF H12 HE. split.
  - rewrite !map_app. cbn [map]. rewrite (fa_1 _ _ _ _ _ _ _ _ _ _ _ HE), (fa_2 _ _ _ _ _ _ _ _ _ _ _ HE). reflexivity.
  - intros c Ic. assert (X : exists cl s1 s2 cr, c = cl ++ [s1; s2] ++ cr /\ In cl (configs (map (@d1 R) tl)) /\ s1 < d1 t1 /\ s2 < d1 t2).
    { rewrite map_app in Ic. revert Ic. generalize (map (@d1 R) tl) as ds. intros ds. revert c. induction ds as [|d ds IH]; intros c Ic; cbn [app map configs] in Ic.
      - apply in_flat_map in Ic. destruct Ic as [s1 [I1 Ic]]. apply in_map_iff in Ic. destruct Ic as [c1 [<- Ic]]. apply in_flat_map in Ic. destruct Ic as [s2 [I2 Ic]]. apply in_map_iff in Ic. destruct Ic as [c2 [<- Ic]].
        apply in_seq in I1, I2. exists [], s1, s2, c2. split; [reflexivity|]. split; [left; reflexivity|lia].
      - apply in_flat_map in Ic. destruct Ic as [s [Is Ic]]. apply in_map_iff in Ic. destruct Ic as [c1 [<- Ic]]. destruct (IH c1 Ic) as [cl [s1 [s2 [cr [-> [I1 [I2 I3]]]]]]].
        exists (s :: cl), s1, s2, cr. split; [reflexivity|]. split; [|auto]. cbn [configs]. apply in_flat_map. exists s. split; [exact Is|]. apply in_map. exact I1. }
    destruct X as [cl [s1 [s2 [cr [-> [I1 [I2 I3]]]]]]].
    rewrite (mid_whole tl tr a b _ _ _ _ _ cl s1 s2 cr HF HE I1 I2 I3), (mid_whole tl tr t1 t2 _ _ _ _ _ cl s1 s2 cr HF (splits_self t1 t2 H12) I1 I2 I3). reflexivity.
Qed.
Lemma same_norm2 : forall ts ts', same_state R r0 r1 radd rmul ts ts' -> norm2 ts' = norm2 ts.
Proof. intros ts ts' [HD HE]. unfold ChainSpec.norm2. rewrite HD. apply lsum_ext. intros c Ic. rewrite HE by auto. reflexivity. Qed.
Lemma same_energy : forall ts ts' ws, same_state R r0 r1 radd rmul ts ts' -> energy ts' ws = energy ts ws.
Proof. intros ts ts' ws [HD HE]. unfold EffHamSpec.energy. rewrite HD. apply lsum_ext. intros c' Ic'. apply lsum_ext. intros c Ic. rewrite !HE by auto. reflexivity. Qed.
Lemma same_refl : forall ts, same_state R r0 r1 radd rmul ts ts.
Proof. intros ts. split; auto. Qed.
Lemma same_trans : forall a b c, same_state R r0 r1 radd rmul a b -> same_state R r0 r1 radd rmul b c -> same_state R r0 r1 radd rmul a c.
Proof. intros a b c [D1 E1] [D2 E2]. split; [congruence|]. intros x Ix. rewrite E2 by (rewrite D1; auto). apply E1. auto. Qed.

(** *** moving the center *)
Lemma moved_left : forall f a b, moves_left R r0 r1 radd rmul conj f -> d2 a = d0 b -> let (a', b') := f a b in
  splits R r0 radd rmul (d0 a) (d1 a) (d1 b) (d2 b) (two_site a b) a' b' /\ right_canonical b' /\ (right_canonical a -> right_canonical b -> right_canonical a').
Proof.
  intros f a b HF HD. specialize (HF a b HD). destruct (f a b) as [a' b']. destruct HF as [m [E0 [E1 [E2 [E3 [E4 [HB [EA EB]]]]]]]].
  split; [|split; [exact HB|]].
  - split; auto. intros x s s' y Hx Hs Hs' Hy. unfold EffHamSpec.two_site. rewrite !sumn_lsum.
    transitivity (lsum (seq 0 (d2 a')) (fun k => lsum (seq 0 (d2 a)) (fun j => el a x s j *r m j k *r el b' k s' y))).
    { apply lsum_ext. intros k Ik. apply in_seq in Ik. rewrite EA by (auto; lia). rewrite sumn_lsum, lsum_mul_r. reflexivity. }
    rewrite lsum_swap. apply lsum_ext. intros j Ij. apply in_seq in Ij. rewrite (EB j s' y) by (auto; lia). rewrite sumn_lsum, lsum_mul_l, E2. apply lsum_ext. intros k _. ring.
  - intros CA CB.
    assert (MM : forall j j', j < d0 b -> j' < d0 b -> lsum (seq 0 (d0 b')) (fun k => conj (m j k) *r m j' k) = delta j j').
    { intros j j' Hj Hj'. rewrite <- (CB j j' Hj Hj'). symmetry. rewrite sumn_lsum.
      transitivity (lsum (seq 0 (d2 b)) (fun y => lsum (seq 0 (d1 b)) (fun s => lsum (seq 0 (d0 b')) (fun k => lsum (seq 0 (d0 b')) (fun k' => conj (m j k) *r m j' k' *r (conj (el b' k s y) *r el b' k' s y)))))).
      { apply lsum_ext. intros y Iy. apply in_seq in Iy. rewrite sumn_lsum. apply lsum_ext. intros s Is. apply in_seq in Is. rewrite (EB j s y), (EB j' s y) by (auto; lia).
        rewrite !sumn_lsum, lsum_conj, lsum_mul_r. apply lsum_ext. intros k _. rewrite lsum_mul_l. apply lsum_ext. intros k' _. rewrite conj_mul. ring. }
      etransitivity; [apply pull2|]. etransitivity; [|apply (dbl (d0 b') (fun k => conj (m j k)) (fun k => m j' k) (fun k k' => lsum (seq 0 (d2 b)) (fun y => lsum (seq 0 (d1 b)) (fun s => conj (el b' k s y) *r el b' k' s y))))].
      2:{ intros k k' Hk Hk'. rewrite <- (HB k k' Hk Hk'). rewrite E4, E3, sumn_lsum. apply lsum_ext. intros y _. rewrite sumn_lsum. reflexivity. }
      apply lsum_ext. intros k _. etransitivity; [apply pull2|]. apply lsum_ext. intros k' _. rewrite lsum_mul_l. apply lsum_ext. intros y _. rewrite lsum_mul_l. reflexivity. }
    intros x x' Hx Hx'. rewrite E0 in Hx, Hx'. rewrite <- (CA x x' Hx Hx'). rewrite !sumn_lsum.
    transitivity (lsum (seq 0 (d1 a)) (fun s => lsum (seq 0 (d2 a)) (fun j => lsum (seq 0 (d2 a)) (fun j' => conj (el a x s j) *r el a x' s j' *r lsum (seq 0 (d0 b')) (fun k => conj (m j k) *r m j' k))))).
    { rewrite E1, E2. transitivity (lsum (seq 0 (d0 b')) (fun k => lsum (seq 0 (d1 a)) (fun s => lsum (seq 0 (d2 a)) (fun j => lsum (seq 0 (d2 a)) (fun j' => conj (el a x s j) *r el a x' s j' *r (conj (m j k) *r m j' k)))))).
      - apply lsum_ext. intros k Ik. apply in_seq in Ik. rewrite sumn_lsum. apply lsum_ext. intros s Is. apply in_seq in Is. rewrite !EA by (auto; lia). rewrite !sumn_lsum, lsum_conj, lsum_mul_r. apply lsum_ext. intros j _. rewrite lsum_mul_l. apply lsum_ext. intros j' _. rewrite conj_mul. ring.
      - rewrite lsum_swap. apply lsum_ext. intros s _. rewrite lsum_swap. apply lsum_ext. intros j _. rewrite lsum_swap. apply lsum_ext. intros j' _. rewrite lsum_mul_l. reflexivity. }
    transitivity (lsum (seq 0 (d1 a)) (fun s => lsum (seq 0 (d2 a)) (fun j => conj (el a x s j) *r el a x' s j))).
    { apply lsum_ext. intros s _. apply (dbl (d2 a) (fun j => conj (el a x s j)) (fun j => el a x' s j)). intros j j' Hj Hj'. apply MM; lia. }
    rewrite lsum_swap. apply lsum_ext. intros j _. rewrite sumn_lsum. reflexivity.
Qed.
End Facts.
