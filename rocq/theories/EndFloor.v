(** A lower bound of a sum of products of operators: minus the sum of the absolute values of the coefficients. *)
From Coq Require Import List Arith Lia Bool Ring Reals Lra.
From Verif Require Import Base MpoGen MpoSpec MpoRunSpec FiniteMps FmpsSpec EffHamSpec Cx GVec DmrgStep EndSpec.
Import ListNotations.
Local Open Scope nat_scope.

(** absolute value *)
Definition cabs (z : cx) : real := sqrt (fst z * fst z + snd z * snd z).
Fixpoint rsum {A} (l : list A) (f : A -> real) : real := match l with [] => 0%R | x :: l => (f x + rsum l f)%R end.
(** the absolute values of the elements of no row and of no column add up to more than 1 (Pauli matrices, spin operators with elements up to 1, identity) *)
Definition contraction (d : nat) (o : lop cx) : Prop :=
  (forall s, s < d -> (rsum (seq 0 d) (fun s' => cabs (elem c0 o s s')) <= 1)%R) /\ (forall s', s' < d -> (rsum (seq 0 d) (fun s => cabs (elem c0 o s s')) <= 1)%R).
(** sum of the absolute values of the coefficients that are not ignored *)
Definition coef_sum (reqb : cx -> cx -> bool) (small : cx -> bool) (calls : list (acall cx)) : real := rsum (filter (acounted cx c0 reqb small) calls) (fun a => cabs (acoef cx a)).

Local Open Scope R_scope.
Lemma rsum_ext : forall A (l : list A) f g, (forall x, In x l -> f x = g x) -> rsum l f = rsum l g.
Proof. intros A l f g. induction l as [|x l IH]; intros E; cbn; [reflexivity|]. rewrite E by (left; reflexivity). rewrite IH; [reflexivity|]. intros. apply E. right. assumption. Qed.
Lemma rsum_le : forall A (l : list A) f g, (forall x, In x l -> f x <= g x) -> rsum l f <= rsum l g.
Proof. intros A l f g. induction l as [|x l IH]; intros E; cbn; [lra|]. apply Rplus_le_compat; [apply E; left; reflexivity|apply IH; intros; apply E; right; assumption]. Qed.
Lemma rsum_add : forall A (l : list A) f g, rsum l (fun x => f x + g x) = rsum l f + rsum l g.
Proof. intros. induction l as [|x l IH]; cbn; [ring|rewrite IH; ring]. Qed.
Lemma rsum_mul : forall A (l : list A) a f, rsum l (fun x => a * f x) = a * rsum l f.
Proof. intros. induction l as [|x l IH]; cbn; [ring|rewrite IH; ring]. Qed.
Lemma rsum_mulr : forall A (l : list A) a f, rsum l (fun x => f x * a) = rsum l f * a.
Proof. intros. induction l as [|x l IH]; cbn; [ring|rewrite IH; ring]. Qed.
Lemma rsum_swap : forall A B (l : list A) (m : list B) f, rsum l (fun x => rsum m (fun y => f x y)) = rsum m (fun y => rsum l (fun x => f x y)).
Proof.
  intros. induction l as [|x l IH]; cbn; [induction m as [|y m IHm]; cbn; [reflexivity|rewrite <- IHm; ring]|].
  rewrite IH, <- rsum_add. reflexivity.
Qed.
Lemma rsum_pos : forall A (l : list A) f, (forall x, In x l -> 0 <= f x) -> 0 <= rsum l f.
Proof. intros A l f. induction l as [|x l IH]; intros E; cbn; [lra|]. specialize (E x (or_introl eq_refl)) as E1. assert (0 <= rsum l f) by (apply IH; intros; apply E; right; assumption). lra. Qed.
Lemma rsum_app : forall A (l m : list A) f, rsum (l ++ m) f = rsum l f + rsum m f.
Proof. intros. induction l as [|x l IH]; cbn; [ring|rewrite IH; ring]. Qed.
Lemma rsum_map : forall A B (g : A -> B) l f, rsum (map g l) f = rsum l (fun x => f (g x)).
Proof. intros. induction l as [|x l IH]; cbn; [reflexivity|rewrite IH; reflexivity]. Qed.
Lemma rsum_flat : forall A B (g : A -> list B) l f, rsum (flat_map g l) f = rsum l (fun x => rsum (g x) f).
Proof. intros. induction l as [|x l IH]; cbn; [reflexivity|rewrite rsum_app, IH; reflexivity]. Qed.
Lemma fst_lsum : forall A (l : list A) f, fst (lsum cx c0 cadd l f) = rsum l (fun x => fst (f x)).
Proof. intros. induction l as [|x l IH]; cbn; [reflexivity|]. unfold lsum in IH. rewrite IH. reflexivity. Qed.

Lemma cabs_pos : forall z, 0 <= cabs z. Proof. intros. apply sqrt_pos. Qed.
Lemma cabs_sq : forall z, cabs z * cabs z = fst z * fst z + snd z * snd z.
Proof. intros. apply sqrt_sqrt. nra. Qed.
Lemma cabs_mul : forall a b, cabs (cmul a b) = cabs a * cabs b.
Proof. intros. unfold cabs. rewrite <- sqrt_mult by nra. f_equal. unfold cmul. cbn [fst snd]. ring. Qed.
Lemma cabs_re : forall z, - cabs z <= fst z.
Proof. intros z. pose proof (cabs_sq z). pose proof (cabs_pos z). nra. Qed.
Lemma cabs_conj : forall z, cabs (cconj z) = cabs z.
Proof. intros. unfold cabs, cconj. cbn [fst snd]. f_equal. ring. Qed.
Lemma cabs_add : forall a b, cabs (cadd a b) <= cabs a + cabs b.
Proof.
  intros a b. pose proof (cabs_pos a) as PA. pose proof (cabs_pos b) as PB. pose proof (cabs_pos (cadd a b)) as PC.
  pose proof (cabs_sq a) as SA. pose proof (cabs_sq b) as SB. pose proof (cabs_sq (cadd a b)) as SC. cbn [cadd fst snd] in SC.
  pose proof (cabs_re (copp (cmul a (cconj b)))) as X2.
  assert (Y : cabs (copp (cmul a (cconj b))) = cabs a * cabs b).
  { replace (copp (cmul a (cconj b))) with (cmul (copp a) (cconj b)) by (unfold copp, cmul, cconj; cbn; f_equal; ring). rewrite cabs_mul, cabs_conj. f_equal. unfold cabs, copp. cbn [fst snd]. f_equal. ring. }
  rewrite Y in X2. unfold copp, cmul, cconj in X2. cbn [fst snd] in X2.
  apply Rsqr_incr_0_var; [|lra]. unfold Rsqr. nra.
Qed.
Lemma cabs0 : cabs c0 = 0.
Proof. unfold cabs, c0. cbn [fst snd]. replace (0 * 0 + 0 * 0) with 0 by ring. apply sqrt_0. Qed.
Lemma cabs1 : cabs c1 = 1.
Proof. unfold cabs, c1. cbn [fst snd]. replace (1 * 1 + 0 * 0) with 1 by ring. apply sqrt_1. Qed.

(** a matrix whose rows and columns have absolute sums of at most B *)
Lemma schur : forall ds (H : list nat -> list nat -> cx) B, (forall c, In c (configs ds) -> rsum (configs ds) (fun c' => cabs (H c c')) <= B) ->
  (forall c', In c' (configs ds) -> rsum (configs ds) (fun c => cabs (H c c')) <= B) -> at_least ds H (- B).
Proof.
  intros ds H B HR HC psi. unfold expectation, norm_sq. rewrite !fst_lsum. set (w := fun c => cabs (psi c) * cabs (psi c)).
  assert (W : rsum (configs ds) (fun x => fst (cmul (cconj (psi x)) (psi x))) = rsum (configs ds) w).
  { apply rsum_ext. intros c _. unfold w. rewrite cabs_sq. unfold cmul, cconj. cbn [fst snd]. ring. }
  rewrite W. apply Rle_trans with (rsum (configs ds) (fun c' => rsum (configs ds) (fun c => - (/ 2 * (cabs (H c c') * w c') + / 2 * (cabs (H c c') * w c))))).
  2:{ apply rsum_le. intros c' _. rewrite fst_lsum. apply rsum_le. intros c _. eapply Rle_trans; [|apply cabs_re]. rewrite !cabs_mul, cabs_conj. unfold w.
      assert (Z : 0 <= cabs (H c c') * ((cabs (psi c) - cabs (psi c')) * (cabs (psi c) - cabs (psi c')))) by (apply Rmult_le_pos; [apply cabs_pos|apply (Rle_0_sqr (cabs (psi c) - cabs (psi c')))]).
      generalize dependent (cabs (H c c')). generalize (cabs (psi c)), (cabs (psi c')). intros x y h Z. ring_simplify in Z. nra. }
  assert (E : rsum (configs ds) (fun c' => rsum (configs ds) (fun c => - (/ 2 * (cabs (H c c') * w c') + / 2 * (cabs (H c c') * w c)))) =
    - / 2 * rsum (configs ds) (fun c' => rsum (configs ds) (fun c => cabs (H c c')) * w c') + - / 2 * rsum (configs ds) (fun c => rsum (configs ds) (fun c' => cabs (H c c')) * w c)).
  { rewrite <- !rsum_mul.
    rewrite (rsum_ext _ (configs ds) (fun c => - / 2 * (rsum (configs ds) (fun c' => cabs (H c c')) * w c)) (fun c => rsum (configs ds) (fun c' => - / 2 * (cabs (H c c') * w c)))) by (intros c _; rewrite rsum_mul, rsum_mulr; reflexivity).
    rewrite (rsum_swap _ _ (configs ds) (configs ds) (fun c c' => - / 2 * (cabs (H c c') * w c))). rewrite <- rsum_add. apply rsum_ext. intros c' _. rewrite <- rsum_mulr, <- rsum_mul, <- rsum_add. apply rsum_ext. intros c _. ring. }
  rewrite E. assert (P : forall c, 0 <= w c) by (intros; unfold w; apply Rmult_le_pos; apply cabs_pos).
  assert (X1 : rsum (configs ds) (fun c' => rsum (configs ds) (fun c => cabs (H c c')) * w c') <= rsum (configs ds) (fun c => B * w c)).
  { apply rsum_le. intros c' I. apply Rmult_le_compat_r; [apply P|apply HC; exact I]. }
  assert (X2 : rsum (configs ds) (fun c => rsum (configs ds) (fun c' => cabs (H c c')) * w c) <= rsum (configs ds) (fun c => B * w c)).
  { apply rsum_le. intros c I. apply Rmult_le_compat_r; [apply P|apply HR; exact I]. }
  rewrite rsum_mul in X1, X2. lra.
Qed.

(** sums over configurations of products *)
Definition pprod (n b : nat) (g : nat -> real) : real := fold_right (fun i a => g i * a) 1 (seq b n).
Lemma pprod_pos : forall n b g, (forall i, 0 <= g i) -> 0 <= pprod n b g.
Proof. unfold pprod. induction n as [|n IH]; intros b g P; cbn; [lra|]. apply Rmult_le_pos; auto. Qed.
Lemma pprod_ext : forall n b f g, (forall i, f i = g i) -> pprod n b f = pprod n b g.
Proof. unfold pprod. induction n as [|n IH]; intros b f g E; cbn [seq fold_right]; [reflexivity|]. rewrite E, (IH (S b) f g E). reflexivity. Qed.
Lemma prod_sum : forall ds b (g : nat -> nat -> real), (forall i s, 0 <= g i s) -> (forall i d, nth_error ds i = Some d -> rsum (seq 0 d) (g (b + i)%nat) <= 1) ->
  rsum (configs ds) (fun c => pprod (length ds) b (fun i => g i (nth (i - b) c 0%nat))) <= 1.
Proof.
  induction ds as [|d ds IH]; intros b g P HS; [cbn; lra|]. cbn [configs]. rewrite rsum_flat.
  rewrite (rsum_ext _ (seq 0 d) _ (fun s => g b s * rsum (configs ds) (fun c => pprod (length ds) (S b) (fun i => g i (nth (i - S b) c 0%nat))))).
  2:{ intros s _. rewrite rsum_map, <- rsum_mul. apply rsum_ext. intros c _. unfold pprod. cbn [length seq fold_right]. rewrite Nat.sub_diag. cbn [nth]. f_equal.
      assert (G : forall l, (forall i, In i l -> (S b <= i)%nat) -> fold_right (fun i a => g i (nth (i - b) (s :: c) 0%nat) * a) 1 l = fold_right (fun i a => g i (nth (i - S b) c 0%nat) * a) 1 l).
      { induction l as [|i l IHl]; intros HI; cbn [fold_right]; [reflexivity|]. rewrite IHl by (intros; apply HI; right; assumption). pose proof (HI i (or_introl eq_refl)) as Hi.
        replace (i - b)%nat with (S (i - S b))%nat by lia. reflexivity. }
      apply G. intros i Hi. apply in_seq in Hi. lia. }
  rewrite rsum_mulr. assert (A : rsum (seq 0 d) (g b) <= 1) by (specialize (HS 0%nat d eq_refl); rewrite Nat.add_0_r in HS; exact HS).
  assert (C : rsum (configs ds) (fun c => pprod (length ds) (S b) (fun i => g i (nth (i - S b) c 0%nat))) <= 1).
  { apply IH; [exact P|]. intros i d' E. specialize (HS (S i) d' E). rewrite Nat.add_succ_r in HS. exact HS. }
  assert (0 <= rsum (seq 0 d) (g b)) by (apply rsum_pos; intros; apply P).
  assert (0 <= rsum (configs ds) (fun c => pprod (length ds) (S b) (fun i => g i (nth (i - S b) c 0%nat)))) by (apply rsum_pos; intros; apply pprod_pos; intros; apply P).
  nra.
Qed.
Lemma abs_prod : forall n b (f : nat -> cx), cabs (rprod cx c1 cmul n b f) = pprod n b (fun i => cabs (f i)).
Proof. unfold pprod. induction n as [|n IH]; intros b f; cbn [rprod seq fold_right]; [apply cabs1|]. rewrite cabs_mul, IH. reflexivity. Qed.

Section Floor.
Variables (reqb : cx -> cx -> bool) (small : cx -> bool) (pd : nat -> nat) (phys : list nat).
Notation ds := (map pd phys).
Lemma total_abs : forall calls ops s s', cabs (total cx c0 c1 cmul reqb small phys cadd calls ops s s') <=
  rsum (filter (fun x => acounted cx c0 reqb small (fst x)) (combine calls ops)) (fun x => cabs (acoef cx (fst x)) * pprod (length phys) 0 (fun i => cabs (elem c0 (snd x i) (s i) (s' i)))).
Proof.
  induction calls as [|a calls IH]; intros [|op ops] s s'; cbn [total combine filter rsum]; try (rewrite cabs0; lra).
  cbn [fst]. eapply Rle_trans; [apply cabs_add|]. destruct (acounted cx c0 reqb small a); cbn [rsum fst snd].
  - apply Rplus_le_compat; [|apply IH]. unfold prod_elem. rewrite cabs_mul, abs_prod. lra.
  - rewrite cabs0, Rplus_0_l. apply IH.
Qed.
Theorem floor : forall calls ops, Forall2 (fun a op => acounted cx c0 reqb small a = true -> forall i ix, nth_error phys i = Some ix -> contraction (pd ix) (op i)) calls ops ->
  at_least ds (sum_of_terms reqb small phys calls ops) (- coef_sum reqb small calls).
Proof.
  intros calls ops F.
  assert (B : forall (g : (acall cx * (nat -> lop cx)) -> list nat -> real) , (forall x, In x (filter (fun x => acounted cx c0 reqb small (fst x)) (combine calls ops)) -> rsum (configs ds) (g x) <= 1) ->
    rsum (configs ds) (fun c => rsum (filter (fun x => acounted cx c0 reqb small (fst x)) (combine calls ops)) (fun x => cabs (acoef cx (fst x)) * g x c)) <= coef_sum reqb small calls).
  { intros g G. rewrite (rsum_swap _ _ (configs ds) _ (fun c x => cabs (acoef cx (fst x)) * g x c)).
    apply Rle_trans with (rsum (filter (fun x => acounted cx c0 reqb small (fst x)) (combine calls ops)) (fun x => cabs (acoef cx (fst x)))).
    - apply rsum_le. intros x I. rewrite rsum_mul. rewrite <- Rmult_1_r. apply Rmult_le_compat_l; [apply cabs_pos|apply G; exact I].
    - clear G. unfold coef_sum. induction F as [|a op calls ops F1 F IH]; [cbn; lra|]. cbn [combine filter fst]. destruct (acounted cx c0 reqb small a); [cbn [rsum fst]; lra|exact IH]. }
  assert (K : forall x, In x (filter (fun x => acounted cx c0 reqb small (fst x)) (combine calls ops)) -> forall i ix, nth_error phys i = Some ix -> contraction (pd ix) (snd x i)).
  { clear B. induction F as [|a op calls ops F1 F IH]; intros x I; [destruct I|]. cbn [combine filter fst] in I. destruct (acounted cx c0 reqb small a) eqn:E; [destruct I as [<-|I]; [exact (F1 eq_refl)|]|]; apply IH; exact I. }
  assert (IN : forall ds0 c, In c (configs ds0) -> forall i d, nth_error ds0 i = Some d -> (nth i c 0 < d)%nat).
  { induction ds0 as [|d0 ds0 IH]; intros c I i d E; [destruct i; discriminate|]. cbn [configs] in I. apply in_flat_map in I. destruct I as [s [I1 I2]]. apply in_map_iff in I2. destruct I2 as [c1 [<- I2]].
    destruct i as [|i]; cbn in E |- *; [injection E as <-; apply in_seq in I1; lia|apply (IH c1 I2 i d E)]. }
  assert (ND : forall i d, nth_error ds i = Some d -> exists ix, nth_error phys i = Some ix /\ d = pd ix).
  { intros i d E. rewrite nth_error_map in E. destruct (nth_error phys i) as [ix|]; [|discriminate]. injection E as <-. eauto. }
  assert (LD : length ds = length phys) by apply map_length.
  apply schur.
  - intros c I. eapply Rle_trans; [apply rsum_le; intros c' _; apply total_abs|].
    apply (B (fun x c' => pprod (length phys) 0 (fun i => cabs (elem c0 (snd x i) (nth i c 0%nat) (nth i c' 0%nat))))). intros x Ix.
    rewrite <- LD. rewrite (rsum_ext _ _ _ (fun c' => pprod (length ds) 0 (fun i => cabs (elem c0 (snd x i) (nth i c 0%nat) (nth (i - 0) c' 0%nat))))).
    + apply (prod_sum ds 0 (fun i s => cabs (elem c0 (snd x i) (nth i c 0%nat) s))); [intros; apply cabs_pos|]. intros i d E. destruct (ND i d E) as [ix [E1 ->]]. apply (proj1 (K x Ix i ix E1)). apply (IN ds c I i _ E).
    + intros c' _. apply pprod_ext. intros i. rewrite Nat.sub_0_r. reflexivity.
  - intros c' I. eapply Rle_trans; [apply rsum_le; intros c _; apply total_abs|].
    apply (B (fun x c => pprod (length phys) 0 (fun i => cabs (elem c0 (snd x i) (nth i c 0%nat) (nth i c' 0%nat))))). intros x Ix.
    rewrite <- LD. rewrite (rsum_ext _ _ _ (fun c => pprod (length ds) 0 (fun i => cabs (elem c0 (snd x i) (nth (i - 0) c 0%nat) (nth i c' 0%nat))))).
    + apply (prod_sum ds 0 (fun i s => cabs (elem c0 (snd x i) s (nth i c' 0%nat)))); [intros; apply cabs_pos|]. intros i d E. destruct (ND i d E) as [ix [E1 ->]]. apply (proj2 (K x Ix i ix E1)). apply (IN ds c' I i _ E).
    + intros c _. apply pprod_ext. intros i. rewrite Nat.sub_0_r. reflexivity.
Qed.
End Floor.
