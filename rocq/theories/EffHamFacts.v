(** Block operators are sums over configurations; the effective Hamiltonian is the projected Hamiltonian. *)
From Coq Require Import List Arith Lia Bool Ring.
From Verif Require Import Base FiniteMps FmpsSpec FmpsFacts EffHam EffHamSpec.
Import ListNotations.

Section Facts.
Variables (R : Type) (r0 r1 : R) (radd rmul rsub : R -> R -> R) (ropp : R -> R).
Variable Rth : ring_theory r0 r1 radd rmul rsub ropp (@eq R).
Variable conj : R -> R.
Hypothesis conj0 : conj r0 = r0.
Hypothesis conj1 : conj r1 = r1.
Hypothesis conj_add : forall x y, conj (radd x y) = radd (conj x) (conj y).
Hypothesis conj_mul : forall x y, conj (rmul x y) = rmul (conj x) (conj y).
Add Ring Rring : Rth.
Infix "+r" := radd (at level 50, left associativity).
Infix "*r" := rmul (at level 40, left associativity).
Notation ten := (ten R). Notation mposite := (mposite R). Notation op2 := (op2 R).
Notation sumn := (sumn R r0 radd). Notation delta := (delta R r0 r1).
Notation lsum := (lsum R r0 radd).
Notation mps_mat := (mps_mat R r0 r1 radd rmul). Notation mpo_mat := (mpo_mat R r0 r1 radd rmul). Notation mval := (mval R r0).
Notation fit := (fit R). Notation wfit := (wfit R).
Notation left_block := (left_block R r0 r1 radd rmul conj). Notation right_block := (right_block R r0 r1 radd rmul conj).
Notation accumulate := (accumulate R radd).

(** *** sums *)
Section Sums.
Context {A B : Type}.
Lemma lsum_ext : forall (l : list A) f g, (forall x, In x l -> f x = g x) -> lsum l f = lsum l g.
Proof. induction l as [|x l IH]; intros f g H; cbn; [auto|]. rewrite H by (left; auto). f_equal. apply IH. intros y Hy. apply H. right. auto. Qed.
Lemma lsum_mul_l : forall (l : list A) c f, c *r lsum l f = lsum l (fun x => c *r f x).
Proof. induction l as [|x l IH]; intros c f; cbn; [ring|]. fold (lsum l f). fold (lsum l (fun x => c *r f x)). rewrite <- IH. ring. Qed.
Lemma lsum_mul_r : forall (l : list A) c f, lsum l f *r c = lsum l (fun x => f x *r c).
Proof. induction l as [|x l IH]; intros c f; cbn; [ring|]. fold (lsum l f). fold (lsum l (fun x => f x *r c)). rewrite <- IH. ring. Qed.
Lemma lsum_add : forall (l : list A) f g, lsum l (fun x => f x +r g x) = lsum l f +r lsum l g.
Proof. induction l as [|x l IH]; intros f g; cbn; [ring|]. fold (lsum l (fun x => f x +r g x)). rewrite IH. fold (lsum l f) (lsum l g). ring. Qed.
Lemma lsum_0 : forall (l : list A) f, (forall x, In x l -> f x = r0) -> lsum l f = r0.
Proof. induction l as [|x l IH]; intros f H; cbn; [auto|]. fold (lsum l f). rewrite H by (left; auto). rewrite IH; [ring|]. intros y Hy. apply H. right. auto. Qed.
Lemma lsum_app : forall (l l' : list A) f, lsum (l ++ l') f = lsum l f +r lsum l' f.
Proof. induction l as [|x l IH]; intros l' f; cbn; [fold (lsum l' f); ring|]. fold (lsum (l ++ l') f). rewrite IH. fold (lsum l f). ring. Qed.
Lemma lsum_conj : forall (l : list A) f, conj (lsum l f) = lsum l (fun x => conj (f x)).
Proof. induction l as [|x l IH]; intros f; cbn; [auto|]. rewrite conj_add. f_equal. apply IH. Qed.
Lemma lsum_map : forall (l : list B) (h : B -> A) f, lsum (map h l) f = lsum l (fun x => f (h x)).
Proof. induction l as [|x l IH]; intros h f; cbn; [auto|]. f_equal. apply IH. Qed.
Lemma lsum_flat : forall (l : list B) (h : B -> list A) f, lsum (flat_map h l) f = lsum l (fun x => lsum (h x) f).
Proof. induction l as [|x l IH]; intros h f; [auto|]. cbn [flat_map]. rewrite lsum_app, IH. reflexivity. Qed.
End Sums.
Lemma lsum_swap : forall A B (l : list A) (m : list B) f, lsum l (fun x => lsum m (fun y => f x y)) = lsum m (fun y => lsum l (fun x => f x y)).
Proof.
  induction l as [|x l IH]; intros m f.
  - cbn. symmetry. apply lsum_0. auto.
  - change (lsum m (fun y => f x y) +r lsum l (fun x => lsum m (fun y => f x y)) = lsum m (fun y => f x y +r lsum l (fun x => f x y))). rewrite IH, lsum_add. auto.
Qed.
Lemma sumn_lsum : forall n f, sumn n f = lsum (seq 0 n) f.
Proof. induction n as [|n IH]; intros f; [auto|]. cbn [FmpsSpec.sumn]. rewrite IH. rewrite seq_S, lsum_app. cbn. ring. Qed.
Lemma lsum_one : forall n k f, k < n -> (forall i, i < n -> i <> k -> f i = r0) -> lsum (seq 0 n) f = f k.
Proof. intros. rewrite <- sumn_lsum. apply (sumn_one R r0 r1 radd rmul rsub ropp Rth); auto. Qed.

(** moving a sum to the front *)
Lemma pull2 : forall A B D (a : list A) (b : list B) (d : list D) f,
  lsum a (fun x => lsum b (fun y => lsum d (fun z => f x y z))) = lsum d (fun z => lsum a (fun x => lsum b (fun y => f x y z))).
Proof. intros. etransitivity; [|apply lsum_swap]. apply lsum_ext. intros. apply lsum_swap. Qed.
Lemma pull3 : forall A B D E (a : list A) (b : list B) (d : list D) (e : list E) f,
  lsum a (fun x => lsum b (fun y => lsum d (fun z => lsum e (fun w => f x y z w)))) = lsum e (fun w => lsum a (fun x => lsum b (fun y => lsum d (fun z => f x y z w)))).
Proof. intros. etransitivity; [|apply lsum_swap]. apply lsum_ext. intros. apply pull2. Qed.
Lemma pull4 : forall A B D E F (a : list A) (b : list B) (d : list D) (e : list E) (g : list F) f,
  lsum a (fun x => lsum b (fun y => lsum d (fun z => lsum e (fun w => lsum g (fun v => f x y z w v))))) =
  lsum g (fun v => lsum a (fun x => lsum b (fun y => lsum d (fun z => lsum e (fun w => f x y z w v))))).
Proof. intros. etransitivity; [|apply lsum_swap]. apply lsum_ext. intros. apply pull3. Qed.
Lemma pull5 : forall A B D E F G (a : list A) (b : list B) (d : list D) (e : list E) (g : list F) (h : list G) f,
  lsum a (fun x => lsum b (fun y => lsum d (fun z => lsum e (fun w => lsum g (fun v => lsum h (fun u => f x y z w v u)))))) =
  lsum h (fun u => lsum a (fun x => lsum b (fun y => lsum d (fun z => lsum e (fun w => lsum g (fun v => f x y z w v u)))))).
Proof. intros. etransitivity; [|apply lsum_swap]. apply lsum_ext. intros. apply pull4. Qed.

Lemma pull6 : forall A0 A1 A2 A3 A4 A5 A6 (l0 : list A0) (l1 : list A1) (l2 : list A2) (l3 : list A3) (l4 : list A4) (l5 : list A5) (l6 : list A6) f,
  lsum l0 (fun x0 => lsum l1 (fun x1 => lsum l2 (fun x2 => lsum l3 (fun x3 => lsum l4 (fun x4 => lsum l5 (fun x5 => lsum l6 (fun x6 => f x0 x1 x2 x3 x4 x5 x6))))))) =
  lsum l6 (fun x6 => lsum l0 (fun x0 => lsum l1 (fun x1 => lsum l2 (fun x2 => lsum l3 (fun x3 => lsum l4 (fun x4 => lsum l5 (fun x5 => f x0 x1 x2 x3 x4 x5 x6))))))).
Proof. intros. etransitivity; [|apply lsum_swap]. apply lsum_ext. intros. apply pull5. Qed.
Lemma pull7 : forall A0 A1 A2 A3 A4 A5 A6 A7 (l0 : list A0) (l1 : list A1) (l2 : list A2) (l3 : list A3) (l4 : list A4) (l5 : list A5) (l6 : list A6) (l7 : list A7) f,
  lsum l0 (fun x0 => lsum l1 (fun x1 => lsum l2 (fun x2 => lsum l3 (fun x3 => lsum l4 (fun x4 => lsum l5 (fun x5 => lsum l6 (fun x6 => lsum l7 (fun x7 => f x0 x1 x2 x3 x4 x5 x6 x7)))))))) =
  lsum l7 (fun x7 => lsum l0 (fun x0 => lsum l1 (fun x1 => lsum l2 (fun x2 => lsum l3 (fun x3 => lsum l4 (fun x4 => lsum l5 (fun x5 => lsum l6 (fun x6 => f x0 x1 x2 x3 x4 x5 x6 x7)))))))).
Proof. intros. etransitivity; [|apply lsum_swap]. apply lsum_ext. intros. apply pull6. Qed.
Lemma pull8 : forall A0 A1 A2 A3 A4 A5 A6 A7 A8 (l0 : list A0) (l1 : list A1) (l2 : list A2) (l3 : list A3) (l4 : list A4) (l5 : list A5) (l6 : list A6) (l7 : list A7) (l8 : list A8) f,
  lsum l0 (fun x0 => lsum l1 (fun x1 => lsum l2 (fun x2 => lsum l3 (fun x3 => lsum l4 (fun x4 => lsum l5 (fun x5 => lsum l6 (fun x6 => lsum l7 (fun x7 => lsum l8 (fun x8 => f x0 x1 x2 x3 x4 x5 x6 x7 x8))))))))) =
  lsum l8 (fun x8 => lsum l0 (fun x0 => lsum l1 (fun x1 => lsum l2 (fun x2 => lsum l3 (fun x3 => lsum l4 (fun x4 => lsum l5 (fun x5 => lsum l6 (fun x6 => lsum l7 (fun x7 => f x0 x1 x2 x3 x4 x5 x6 x7 x8))))))))).
Proof. intros. etransitivity; [|apply lsum_swap]. apply lsum_ext. intros. apply pull7. Qed.
Lemma pull9 : forall A0 A1 A2 A3 A4 A5 A6 A7 A8 A9 (l0 : list A0) (l1 : list A1) (l2 : list A2) (l3 : list A3) (l4 : list A4) (l5 : list A5) (l6 : list A6) (l7 : list A7) (l8 : list A8) (l9 : list A9) f,
  lsum l0 (fun x0 => lsum l1 (fun x1 => lsum l2 (fun x2 => lsum l3 (fun x3 => lsum l4 (fun x4 => lsum l5 (fun x5 => lsum l6 (fun x6 => lsum l7 (fun x7 => lsum l8 (fun x8 => lsum l9 (fun x9 => f x0 x1 x2 x3 x4 x5 x6 x7 x8 x9)))))))))) =
  lsum l9 (fun x9 => lsum l0 (fun x0 => lsum l1 (fun x1 => lsum l2 (fun x2 => lsum l3 (fun x3 => lsum l4 (fun x4 => lsum l5 (fun x5 => lsum l6 (fun x6 => lsum l7 (fun x7 => lsum l8 (fun x8 => f x0 x1 x2 x3 x4 x5 x6 x7 x8 x9)))))))))).
Proof. intros. etransitivity; [|apply lsum_swap]. apply lsum_ext. intros. apply pull8. Qed.
Lemma pull10 : forall A0 A1 A2 A3 A4 A5 A6 A7 A8 A9 A10 (l0 : list A0) (l1 : list A1) (l2 : list A2) (l3 : list A3) (l4 : list A4) (l5 : list A5) (l6 : list A6) (l7 : list A7) (l8 : list A8) (l9 : list A9) (l10 : list A10) f,
  lsum l0 (fun x0 => lsum l1 (fun x1 => lsum l2 (fun x2 => lsum l3 (fun x3 => lsum l4 (fun x4 => lsum l5 (fun x5 => lsum l6 (fun x6 => lsum l7 (fun x7 => lsum l8 (fun x8 => lsum l9 (fun x9 => lsum l10 (fun x10 => f x0 x1 x2 x3 x4 x5 x6 x7 x8 x9 x10))))))))))) =
  lsum l10 (fun x10 => lsum l0 (fun x0 => lsum l1 (fun x1 => lsum l2 (fun x2 => lsum l3 (fun x3 => lsum l4 (fun x4 => lsum l5 (fun x5 => lsum l6 (fun x6 => lsum l7 (fun x7 => lsum l8 (fun x8 => lsum l9 (fun x9 => f x0 x1 x2 x3 x4 x5 x6 x7 x8 x9 x10))))))))))).
Proof. intros. etransitivity; [|apply lsum_swap]. apply lsum_ext. intros. apply pull9. Qed.

(** *** configurations *)
Lemma configs_len : forall ds c, In c (configs ds) -> length c = length ds.
Proof.
  induction ds as [|d ds IH]; intros c H; cbn in H; [destruct H as [<-|[]]; auto|].
  apply in_flat_map in H. destruct H as [s [_ H]]. apply in_map_iff in H. destruct H as [c' [<- H]]. cbn. f_equal. apply IH. auto.
Qed.
Lemma configs_app : forall ds ds' f, lsum (configs (ds ++ ds')) f = lsum (configs ds) (fun c => lsum (configs ds') (fun c' => f (c ++ c'))).
Proof.
  induction ds as [|d ds IH]; intros ds' f; cbn [configs app].
  - change (lsum (configs ds') f = lsum (configs ds') f +r r0). ring.
  - rewrite !lsum_flat. apply lsum_ext. intros s _. rewrite !lsum_map. rewrite IH. reflexivity.
Qed.
Lemma configs_one : forall d f, lsum (configs [d]) f = lsum (seq 0 d) (fun s => f [s]).
Proof. intros d f. cbn [configs]. rewrite lsum_flat. apply lsum_ext. intros s _. cbn. ring. Qed.

(** *** matrix products *)
Lemma delta_l : forall n x f, x < n -> lsum (seq 0 n) (fun z => delta x z *r f z) = f x.
Proof.
  intros n x f H. rewrite (lsum_one n x); auto.
  - unfold FmpsSpec.delta. rewrite Nat.eqb_refl. ring.
  - intros i Hi Hn. unfold FmpsSpec.delta. replace (x =? i) with false by (symmetry; apply Nat.eqb_neq; auto). ring.
Qed.
Lemma delta_r : forall n y f, y < n -> lsum (seq 0 n) (fun z => f z *r delta z y) = f y.
Proof.
  intros n y f H. rewrite (lsum_one n y); auto.
  - unfold FmpsSpec.delta. rewrite Nat.eqb_refl. ring.
  - intros i Hi Hn. unfold FmpsSpec.delta. replace (i =? y) with false by (symmetry; apply Nat.eqb_neq; auto). ring.
Qed.
Lemma mps_mat_app : forall ts ts' c c' X D x y, fit X ts D -> x < X -> length c = length ts ->
  mps_mat (ts ++ ts') (c ++ c') x y = lsum (seq 0 D) (fun z => mps_mat ts c x z *r mps_mat ts' c' z y).
Proof.
  induction ts as [|t ts IH]; intros ts' [|s c] c' X D x y HF HX HL; try discriminate; cbn [app EffHamSpec.mps_mat].
  - cbn in HF. subst D. symmetry. apply (delta_l X x (fun z => mps_mat ts' c' z y)). auto.
  - destruct HF as [HF1 HF2]. rewrite sumn_lsum. etransitivity.
    + apply lsum_ext. intros z Hz. apply in_seq in Hz. rewrite (IH ts' c c' (d2 t) D z y HF2) by (try lia; auto). rewrite lsum_mul_l. reflexivity.
    + rewrite lsum_swap. apply lsum_ext. intros w _. rewrite sumn_lsum, lsum_mul_r. apply lsum_ext. intros z _. ring.
Qed.
Lemma mpo_mat_app : forall ws ws' c c' e e' X D x y, wfit X ws D -> x < X -> length c = length ws -> length e = length ws ->
  mpo_mat (ws ++ ws') (c ++ c') (e ++ e') x y = lsum (seq 0 D) (fun z => mpo_mat ws c e x z *r mpo_mat ws' c' e' z y).
Proof.
  induction ws as [|t ws IH]; intros ws' [|s c] c' [|s' e] e' X D x y HF HX HL HL'; try discriminate; cbn [app EffHamSpec.mpo_mat].
  - cbn in HF. subst D. symmetry. apply (delta_l X x (fun z => mpo_mat ws' c' e' z y)). auto.
  - destruct HF as [HF1 HF2]. rewrite sumn_lsum. etransitivity.
    + apply lsum_ext. intros z Hz. apply in_seq in Hz. rewrite (IH ws' c c' e e' (mcols t) D z y HF2) by (try lia; auto). rewrite lsum_mul_l. reflexivity.
    + rewrite lsum_swap. apply lsum_ext. intros w _. rewrite sumn_lsum, lsum_mul_r. apply lsum_ext. intros z _. ring.
Qed.
Lemma mps_one : forall t s x y, y < d2 t -> mps_mat [t] [s] x y = el t x s y.
Proof. intros t s x y H. cbn [EffHamSpec.mps_mat]. rewrite sumn_lsum. apply (delta_r (d2 t) y (fun z => el t x s z)). auto. Qed.
Lemma mpo_one : forall t s s' x y, y < mcols t -> mpo_mat [t] [s] [s'] x y = mval t x y s s'.
Proof. intros t s s' x y H. cbn [EffHamSpec.mpo_mat]. rewrite sumn_lsum. apply (delta_r (mcols t) y (fun z => mval t x z s s')). auto. Qed.

(** *** accumulation loops *)
Lemma acc_some : forall l x, exists y, fold_left (fun acc x => match acc with None => Some x | Some y => Some (add4 R radd y x) end) l (Some x) = Some y /\
  forall a b c d, y a b c d = x a b c d +r lsum l (fun z => z a b c d).
Proof.
  induction l as [|z l IH]; intros x; cbn [fold_left].
  - exists x. split; auto. intros. cbn. ring.
  - destruct (IH (add4 R radd x z)) as [y [H1 H2]]. exists y. split; [auto|]. intros. rewrite H2. unfold add4. cbn [EffHamSpec.lsum fold_right]. fold (lsum l (fun z => z a b c d)). ring.
Qed.
Lemma acc_ok : forall l, l <> [] -> exists y, accumulate l = Some y /\ forall a b c d, y a b c d = lsum l (fun z => z a b c d).
Proof.
  intros [|x l] H; [congruence|]. destruct (acc_some l x) as [y [H1 H2]]. exists y. split; [exact H1|]. intros. rewrite H2. reflexivity.
Qed.
Lemma mapM_ok : forall A B (f : A -> res B) (P : A -> B -> Prop) l, (forall x, In x l -> exists y, f x = Ok y /\ P x y) ->
  exists ys, mapM f l = Ok ys /\ length ys = length l /\ forall i x, nth_error l i = Some x -> exists y, nth_error ys i = Some y /\ P x y.
Proof.
  induction l as [|x l IH]; intros H; cbn [mapM].
  - exists []. split; [auto|]. split; [auto|]. intros [|i] y E; discriminate.
  - destruct (H x ltac:(left; auto)) as [y [E1 E2]]. rewrite E1. cbn [bind].
    destruct IH as [ys [F1 [F2 F3]]]; [intros z Hz; apply H; right; auto|]. rewrite F1. cbn [bind]. exists (y :: ys). split; [auto|]. split; [cbn; auto|].
    intros [|i] z E; cbn in *; [inversion E; subst; eauto|eauto].
Qed.
Lemma seq_nth : forall n i, i < n -> nth_error (seq 0 n) i = Some i.
Proof. intros n i H. rewrite (nth_error_nth' _ 0) by (rewrite seq_length; auto). rewrite seq_nth by auto. auto. Qed.

(** the terms of a column and of a row *)
Lemma left_terms_some : forall g w j, length g = mrows w -> (exists i, i < mrows w /\ ent w i j <> None) -> left_terms R g w j <> [].
Proof.
  intros g w j HL [i [Hi He]] E. unfold left_terms in E. destruct (ent w i j) as [o|] eqn:EO; [|congruence].
  destruct (nth_error g i) as [l|] eqn:EG; [|apply nth_error_None in EG; lia].
  assert (In (l, o) []) as []. rewrite <- E. apply in_flat_map. exists i. split; [apply in_seq; lia|]. rewrite EO, EG. left. auto.
Qed.
Lemma right_terms_some : forall g w j, length g = mcols w -> (exists k, k < mcols w /\ ent w j k <> None) -> right_terms R g w j <> [].
Proof.
  intros g w j HL [i [Hi He]] E. unfold right_terms in E. destruct (ent w j i) as [o|] eqn:EO; [|congruence].
  destruct (nth_error g i) as [l|] eqn:EG; [|apply nth_error_None in EG; lia].
  assert (In (o, l) []) as []. rewrite <- E. apply in_flat_map. exists i. split; [apply in_seq; lia|]. rewrite EO, EG. left. auto.
Qed.
(** a sum over the terms is a sum over all indices, null elements counting 0 *)
Lemma left_terms_sum : forall g w j (B : nat -> op2) a a' (F : R -> R -> R) s s',
  length g = mrows w -> (forall i o, nth_error g i = Some o -> o a a' = B i a a') -> (forall x, F x r0 = r0) ->
  lsum (left_terms R g w j) (fun p => F (fst p a a') (snd p s s')) = lsum (seq 0 (mrows w)) (fun i => F (B i a a') (mval w i j s s')).
Proof.
  intros g w j B a a' F s s' HL HB HF. unfold left_terms. unfold EffHam.op2 in *. rewrite lsum_flat. apply lsum_ext. intros i Hi. apply in_seq in Hi.
  cbv beta. unfold EffHamSpec.mval. destruct (ent w i j) as [o|]; [|cbn; rewrite HF; auto]. destruct (nth_error g i) as [l|] eqn:EG; [|apply nth_error_None in EG; lia].
  cbn. rewrite <- (HB _ _ EG). ring.
Qed.
Lemma right_terms_sum : forall g w j (B : nat -> op2) b b' (F : R -> R -> R) s s',
  length g = mcols w -> (forall i o, nth_error g i = Some o -> o b b' = B i b b') -> (forall x, F r0 x = r0) ->
  lsum (right_terms R g w j) (fun p => F (fst p s s') (snd p b b')) = lsum (seq 0 (mcols w)) (fun k => F (mval w j k s s') (B k b b')).
Proof.
  intros g w j B a a' F s s' HL HB HF. unfold right_terms. unfold EffHam.op2 in *. rewrite lsum_flat. apply lsum_ext. intros i Hi. apply in_seq in Hi.
  cbv beta. unfold EffHamSpec.mval. destruct (ent w j i) as [o|]; [|cbn; rewrite HF; auto]. destruct (nth_error g i) as [l|] eqn:EG; [|apply nth_error_None in EG; lia].
  cbn. rewrite <- (HB _ _ EG). ring.
Qed.

Ltac flat := repeat (first [rewrite lsum_mul_l | rewrite lsum_mul_r | rewrite lsum_conj | (eapply lsum_ext; intros ? ?)]); reflexivity.

(** *** blocks *)
Definition is_left (g : list op2) (ts : list ten) (ws : list mposite) (D : nat) : Prop :=
  forall i o, nth_error g i = Some o -> forall b b', b < D -> b' < D -> o b b' = left_block ts ws i b b'.
Definition is_right (g : list op2) (ts : list ten) (ws : list mposite) (D : nat) : Prop :=
  forall i o, nth_error g i = Some o -> forall b b', b < D -> b' < D -> o b b' = right_block ts ws i b b'.

Lemma left_block_snoc : forall ts ws t w D M col b b', fit 1 ts D -> wfit 1 ws M -> d0 t = D -> mrows w = M -> length ws = length ts -> b < d2 t -> b' < d2 t -> col < mcols w ->
  left_block (ts ++ [t]) (ws ++ [w]) col b b' =
  lsum (seq 0 (d0 t)) (fun a' => lsum (seq 0 (d1 t)) (fun s' => lsum (seq 0 (d0 t)) (fun a => lsum (seq 0 (d1 t)) (fun s =>
    lsum (seq 0 (mrows w)) (fun i => left_block ts ws i a a' *r mval w i col s s') *r el t a s b)) *r conj (el t a' s' b'))).
Proof.
  intros ts ws t w D M col b b' HF HW H0 HM HL Hb Hb' Hc. unfold EffHamSpec.left_block. rewrite map_app. cbn [map]. rewrite configs_app.
  etransitivity.
  { apply lsum_ext. intros c Ic. rewrite configs_one. apply lsum_ext. intros s Is. rewrite configs_app. apply lsum_ext. intros c' Ic'. rewrite configs_one. apply lsum_ext. intros s' Is'.
    apply configs_len in Ic, Ic'. rewrite map_length in Ic, Ic'.
    rewrite (mps_mat_app ts [t] c [s] 1 D 0 b HF) by (try lia; auto). rewrite (mps_mat_app ts [t] c' [s'] 1 D 0 b' HF) by (try lia; auto).
    rewrite (mpo_mat_app ws [w] c [s] c' [s'] 1 M 0 col HW) by (try lia; congruence).
    rewrite (lsum_ext _ _ (fun z => mps_mat ts c 0 z *r el t z s b)) by (intros; rewrite mps_one by auto; auto).
    rewrite (lsum_ext _ (fun z => mps_mat ts c' 0 z *r mps_mat [t] [s'] z b') (fun z => mps_mat ts c' 0 z *r el t z s' b')) by (intros; rewrite mps_one by auto; auto).
    rewrite (lsum_ext _ (fun z => mpo_mat ws c c' 0 z *r mpo_mat [w] [s] [s'] z col) (fun z => mpo_mat ws c c' 0 z *r mval w z col s s')) by (intros; rewrite mpo_one by auto; auto).
    rewrite lsum_conj. flat. }
  cbv beta. rewrite H0, HM. symmetry. etransitivity; [flat|]. cbv beta.
  (* order: a' s' a s i c c'; wanted: c s c' s' a i a' or similar *)
  etransitivity; [apply pull5|]. apply lsum_ext. intros c _.
  etransitivity; [apply pull3|]. apply lsum_ext. intros s _.
  etransitivity; [apply pull4|]. apply lsum_ext. intros c' _.
  etransitivity; [apply lsum_swap|]. apply lsum_ext. intros s' _.
  apply lsum_ext. intros a' _. etransitivity; [apply lsum_swap|]. apply lsum_ext. intros i _. apply lsum_ext. intros a _. rewrite conj_mul. ring.
Qed.
Lemma right_block_cons : forall ts ws t w M row a a', d2 t < S (d2 t) -> length ws = length ts -> mcols w = M ->
  right_block (t :: ts) (w :: ws) row a a' =
  lsum (seq 0 (d1 t)) (fun s' => lsum (seq 0 (d2 t)) (fun b' => lsum (seq 0 (d1 t)) (fun s => lsum (seq 0 (d2 t)) (fun b =>
    el t a s b *r lsum (seq 0 (mcols w)) (fun k => mval w row k s s' *r right_block ts ws k b b'))) *r conj (el t a' s' b'))).
Proof.
  intros ts ws t w M row a a' _ HL HM. unfold EffHamSpec.right_block. cbn [map].
  change (d1 t :: map (@d1 R) ts) with ([d1 t] ++ map (@d1 R) ts). rewrite configs_app, configs_one.
  etransitivity.
  { apply lsum_ext. intros s Is. apply lsum_ext. intros c Ic. rewrite configs_app, configs_one. apply lsum_ext. intros s' Is'. apply lsum_ext. intros c' Ic'.
    cbn [app EffHamSpec.mps_mat EffHamSpec.mpo_mat]. rewrite !sumn_lsum. flat. }
  cbv beta. symmetry. etransitivity; [flat|]. cbv beta.
  (* order: s' b' s b k c c'; wanted: s c s' c' ... *)
  etransitivity; [apply pull2|]. apply lsum_ext. intros s _.
  etransitivity; [apply pull4|]. apply lsum_ext. intros c _.
  apply lsum_ext. intros s' _.
  etransitivity; [apply pull3|]. apply lsum_ext. intros c' _.
  rewrite sumn_lsum. etransitivity; [apply pull2|]. apply lsum_ext. intros k _. apply lsum_ext. intros b' _. apply lsum_ext. intros b _. rewrite conj_mul. ring.
Qed.

Lemma grow_left_ok : forall g ts ws t w D M, fit 1 ts D -> wfit 1 ws M -> d0 t = D -> mrows w = M -> length ws = length ts -> length g = M -> cols_used R w ->
  is_left g ts ws D -> exists g', grow_left R r0 radd rmul conj g t w = Ok g' /\ length g' = mcols w /\ is_left g' (ts ++ [t]) (ws ++ [w]) (d2 t).
Proof.
  intros g ts ws t w D M HF HW H0 HM HL HG HU HI. unfold grow_left. replace (length g =? mrows w) with true by (symmetry; apply Nat.eqb_eq; congruence). cbn [negb].
  match goal with |- context [mapM ?f ?l] => destruct (mapM_ok nat op2 f (fun col o => forall b b', b < d2 t -> b' < d2 t -> o b b' = left_block (ts ++ [t]) (ws ++ [w]) col b b') l) as [g' [G1 [G2 G3]]] end.
  - intros col Hcol. apply in_seq in Hcol.
    destruct (acc_ok (map (fun p => outer R rmul (fst p) (snd p)) (left_terms R g w col))) as [bs [B1 B2]].
    { intros E. apply map_eq_nil in E. revert E. apply left_terms_some; [transitivity M; auto|]. apply HU. lia. }
    rewrite B1. cbn [usable bind]. eexists. split; [reflexivity|]. intros b b' Hb Hb'.
    rewrite (left_block_snoc ts ws t w D M col b b') by (auto; lia).
    rewrite sumn_lsum. apply lsum_ext. intros a' Ia'. rewrite sumn_lsum. apply lsum_ext. intros s' _. f_equal.
    rewrite sumn_lsum. apply lsum_ext. intros a Ia. rewrite sumn_lsum. apply lsum_ext. intros s _. f_equal.
    rewrite B2, lsum_map. unfold outer. apply in_seq in Ia, Ia'.
    apply (left_terms_sum g w col (left_block ts ws) a a' rmul s s'); [first [exact HG|transitivity M; auto]| |intros; ring]. intros i o E. apply (HI i o E); lia.
  - exists g'. split; [auto|]. split; [rewrite G2, seq_length; auto|]. intros i o E. 
    assert (Hi : i < mcols w) by (rewrite <- (seq_length (mcols w) 0), <- G2; apply nth_error_Some; congruence).
    destruct (G3 i i (seq_nth _ _ Hi)) as [o' [E1 E2]]. rewrite E in E1. inversion E1; subst. auto.
Qed.
Lemma grow_right_ok : forall g ts ws t w, length ws = length ts -> length g = mcols w -> rows_used R w ->
  is_right g ts ws (d2 t) -> exists g', grow_right R r0 radd rmul conj g t w = Ok g' /\ length g' = mrows w /\ is_right g' (t :: ts) (w :: ws) (d0 t).
Proof.
  intros g ts ws t w HL HG HU HI. unfold grow_right. replace (length g =? mcols w) with true by (symmetry; apply Nat.eqb_eq; congruence). cbn [negb].
  match goal with |- context [mapM ?f ?l] => destruct (mapM_ok nat op2 f (fun row o => forall a a', a < d0 t -> a' < d0 t -> o a a' = right_block (t :: ts) (w :: ws) row a a') l) as [g' [G1 [G2 G3]]] end.
  - intros row Hrow. apply in_seq in Hrow.
    destruct (acc_ok (map (fun p => outer R rmul (fst p) (snd p)) (right_terms R g w row))) as [bs [B1 B2]].
    { intros E. apply map_eq_nil in E. revert E. apply right_terms_some; [auto|]. apply HU. lia. }
    rewrite B1. cbn [usable bind]. eexists. split; [reflexivity|]. intros a a' Ha Ha'.
    rewrite (right_block_cons ts ws t w (mcols w) row a a') by (auto; lia).
    rewrite sumn_lsum. apply lsum_ext. intros s' Is'. rewrite sumn_lsum. apply lsum_ext. intros b' Ib'. f_equal.
    rewrite sumn_lsum. apply lsum_ext. intros s Is. rewrite sumn_lsum. apply lsum_ext. intros b Ib. f_equal.
    rewrite B2, lsum_map. unfold outer. apply in_seq in Ib, Ib'.
    apply (right_terms_sum g w row (right_block ts ws) b b' rmul s s'); [first [exact HG|transitivity M; auto]| |intros; ring]. intros i o E. apply (HI i o E); lia.
  - exists g'. split; [auto|]. split; [rewrite G2, seq_length; auto|]. intros i o E. 
    assert (Hi : i < mrows w) by (rewrite <- (seq_length (mrows w) 0), <- G2; apply nth_error_Some; congruence).
    destruct (G3 i i (seq_nth _ _ Hi)) as [o' [E1 E2]]. rewrite E in E1. inversion E1; subst. auto.
Qed.
Lemma fit_app : forall ts ts' X D Y, fit X ts D -> fit D ts' Y -> fit X (ts ++ ts') Y.
Proof. induction ts as [|t ts IH]; intros ts' X D Y H1 H2; cbn in *; [subst; auto|]. destruct H1 as [H1 H3]. split; auto. eapply IH; eauto. Qed.
Lemma wfit_app : forall ts ts' X D Y, wfit X ts D -> wfit D ts' Y -> wfit X (ts ++ ts') Y.
Proof. induction ts as [|t ts IH]; intros ts' X D Y H1 H2; cbn in *; [subst; auto|]. destruct H1 as [H1 H3]. split; auto. eapply IH; eauto. Qed.
Lemma left_ops_from : forall ts2 ws2 ts ws g D M D' M', fit 1 ts D -> wfit 1 ws M -> length ws = length ts -> length g = M -> is_left g ts ws D ->
  fit D ts2 D' -> wfit M ws2 M' -> length ws2 = length ts2 -> Forall (cols_used R) ws2 ->
  exists g', left_ops R r0 radd rmul conj g ts2 ws2 = Ok g' /\ length g' = M' /\ is_left g' (ts ++ ts2) (ws ++ ws2) D'.
Proof.
  induction ts2 as [|t ts2 IH]; intros [|w ws2] ts ws g D M D' M' HF HW HL HG HI HF2 HW2 HL2 HU; try discriminate.
  - cbn in HF2, HW2. subst D' M'. exists g. rewrite !app_nil_r. auto.
  - destruct HF2 as [F1 F2], HW2 as [W1 W2]. inversion HU as [|x y U1 U2]; subst x y.
    cbn [left_ops]. destruct (grow_left_ok g ts ws t w D M HF HW F1 W1 HL HG U1 HI) as [g1 [A1 [A2 A3]]]. rewrite A1. cbn [bind].
    destruct (IH ws2 (ts ++ [t]) (ws ++ [w]) g1 (d2 t) (mcols w) D' M') as [g' [B1 [B2 B3]]]; auto.
    { eapply fit_app; eauto. cbn. auto. } { eapply wfit_app; eauto. cbn. auto. } { rewrite !app_length. cbn. lia. }
    exists g'. rewrite <- !app_assoc in B3. auto.
Qed.
Lemma triv_left : is_left (triv_group R r1) [] [] 1.
Proof.
  intros [|i] o E b b' Hb Hb'; [|destruct i; discriminate]. inversion E; subst. replace b with 0 by lia. replace b' with 0 by lia.
  unfold EffHamSpec.left_block. cbn. rewrite conj1. ring.
Qed.
Lemma triv_right : is_right (triv_group R r1) [] [] 1.
Proof.
  intros [|i] o E b b' Hb Hb'; [|destruct i; discriminate]. inversion E; subst. replace b with 0 by lia. replace b' with 0 by lia.
  unfold EffHamSpec.right_block. cbn. rewrite conj1. ring.
Qed.
Lemma left_ops_ok : forall ts ws D M, fit 1 ts D -> wfit 1 ws M -> length ws = length ts -> Forall (cols_used R) ws ->
  exists g, left_ops R r0 radd rmul conj (triv_group R r1) ts ws = Ok g /\ length g = M /\ is_left g ts ws D.
Proof. intros ts ws D M HF HW HL HU. apply (left_ops_from ts ws [] [] (triv_group R r1) 1 1 D M); cbn; auto. apply triv_left. Qed.
Lemma right_ops_ok : forall ts ws D M, fit D ts 1 -> wfit M ws 1 -> length ws = length ts -> Forall (rows_used R) ws ->
  exists g, right_ops R r0 r1 radd rmul conj ts ws = Ok g /\ length g = M /\ is_right g ts ws D.
Proof.
  induction ts as [|t ts IH]; intros [|w ws] D M HF HW HL HU; try discriminate.
  - cbn in HF, HW. subst. eexists. split; [reflexivity|]. split; [reflexivity|]. apply triv_right.
  - destruct HF as [F1 F2], HW as [W1 W2]. inversion HU as [|x y U1 U2]; subst x y. cbn [right_ops].
    destruct (IH ws (d2 t) (mcols w) F2 W2) as [g [A1 [A2 A3]]]; auto. rewrite A1. cbn [bind].
    destruct (grow_right_ok g ts ws t w) as [g' [B1 [B2 B3]]]; auto. exists g'. subst. auto.
Qed.

(** *** the effective Hamiltonian *)
Notation left_terms := (left_terms R). Notation right_terms := (right_terms R).
Lemma mul_left_ok : forall gl ts ws w D M p1 j x, length gl = M -> mrows w = M -> (exists i, i < mrows w /\ ent w i j <> None) -> is_left gl ts ws D ->
  exists y, mul_terms R r0 radd rmul D p1 (left_terms gl w j) x = Some y /\
  forall s2 b a' s1', a' < D -> y s2 b a' s1' = lsum (seq 0 p1) (fun s1 => lsum (seq 0 D) (fun a => x a s1 s2 b *r lsum (seq 0 (mrows w)) (fun i => left_block ts ws i a a' *r mval w i j s1 s1'))).
Proof.
  intros gl ts ws w D M p1 j x HG HM HU HI. unfold mul_terms.
  destruct (acc_ok (map (fun p => rot R r0 radd rmul p1 (rot R r0 radd rmul D x (fst p)) (snd p)) (left_terms gl w j))) as [y [B1 B2]].
  { intros E. apply map_eq_nil in E. revert E. apply left_terms_some; [transitivity M; auto|auto]. }
  exists y. split; [exact B1|]. intros s2 b a' s1' Ha'. rewrite B2, lsum_map. unfold rot.
  etransitivity. { apply lsum_ext. intros p _. rewrite sumn_lsum. apply lsum_ext. intros s1 _. rewrite sumn_lsum, lsum_mul_r. reflexivity. }
  cbv beta. etransitivity; [apply lsum_swap|]. apply lsum_ext. intros s1 _. etransitivity; [apply lsum_swap|]. apply lsum_ext. intros a Ia. apply in_seq in Ia.
  rewrite (left_terms_sum gl w j (left_block ts ws) a a' (fun u v => x a s1 s2 b *r u *r v) s1 s1').
  - rewrite lsum_mul_l. apply lsum_ext. intros. ring.
  - transitivity M; auto.
  - intros i o E. apply (HI i o E); lia.
  - intros. ring.
Qed.
Lemma mul_right_ok : forall gr ts ws w D p2 j x, length gr = mcols w -> (exists k, k < mcols w /\ ent w j k <> None) -> is_right gr ts ws D ->
  exists y, mul_terms R r0 radd rmul p2 D (right_terms gr w j) x = Some y /\
  forall a' s1' s2' b', b' < D -> y a' s1' s2' b' = lsum (seq 0 D) (fun b => lsum (seq 0 p2) (fun s2 => x s2 b a' s1' *r lsum (seq 0 (mcols w)) (fun k => mval w j k s2 s2' *r right_block ts ws k b b'))).
Proof.
  intros gr ts ws w D p2 j x HG HU HI. unfold mul_terms.
  destruct (acc_ok (map (fun p => rot R r0 radd rmul D (rot R r0 radd rmul p2 x (fst p)) (snd p)) (right_terms gr w j))) as [y [B1 B2]].
  { intros E. apply map_eq_nil in E. revert E. apply right_terms_some; auto. }
  exists y. split; [exact B1|]. intros a' s1' s2' b' Hb'. rewrite B2, lsum_map. unfold rot.
  etransitivity. { apply lsum_ext. intros p _. rewrite sumn_lsum. apply lsum_ext. intros b _. rewrite sumn_lsum, lsum_mul_r. reflexivity. }
  cbv beta. etransitivity; [apply lsum_swap|]. apply lsum_ext. intros b Ib. apply in_seq in Ib. etransitivity; [apply lsum_swap|]. apply lsum_ext. intros s2 _.
  rewrite (right_terms_sum gr w j (right_block ts ws) b b' (fun u v => x s2 b a' s1' *r u *r v) s2 s2').
  - rewrite lsum_mul_l. apply lsum_ext. intros. ring.
  - auto.
  - intros i o E. apply (HI i o E); lia.
  - intros. ring.
Qed.
(** what both ways of multiplying compute *)
Definition heff (tl tr : list ten) (wl : list mposite) (w1 w2 : mposite) (wr : list mposite) (D0 p1 p2 D3 : nat) (x : nat -> nat -> nat -> nat -> R) (a' s1' s2' b' : nat) : R :=
  lsum (seq 0 (mcols w1)) (fun j => lsum (seq 0 D3) (fun b => lsum (seq 0 p2) (fun s2 =>
    lsum (seq 0 p1) (fun s1 => lsum (seq 0 D0) (fun a => x a s1 s2 b *r lsum (seq 0 (mrows w1)) (fun i => left_block tl wl i a a' *r mval w1 i j s1 s1'))) *r
    lsum (seq 0 (mcols w2)) (fun k => mval w2 j k s2 s2' *r right_block tr wr k b b')))).
Lemma lsum_nth : forall (parts : list (nat -> nat -> nat -> nat -> R)) n (P : nat -> R) a b c d, length parts = n ->
  (forall i y, nth_error parts i = Some y -> y a b c d = P i) -> lsum parts (fun z => z a b c d) = lsum (seq 0 n) P.
Proof.
  intros parts n P a b c d <-. clear. revert P. 
  assert (G : forall l s P, (forall i y, nth_error l i = Some y -> y a b c d = P (s + i)) -> lsum l (fun z : nat -> nat -> nat -> nat -> R => z a b c d) = lsum (seq s (length l)) P).
  { induction l as [|y l IH]; intros s P H; [auto|]. cbn [length seq]. change (y a b c d +r lsum l (fun z => z a b c d) = P s +r lsum (seq (S s) (length l)) P). f_equal.
    - rewrite (H 0 y eq_refl). f_equal. lia.
    - apply IH. intros i z E. rewrite (H (S i) z E). f_equal. lia. }
  intros P H. apply (G parts 0 P). auto.
Qed.
Lemma eff_mul_heff : forall tl tr wl w1 w2 wr gl gr D0 p1 p2 D3 x, length gl = mrows w1 -> length gr = mcols w2 -> mcols w1 = mrows w2 -> 0 < mcols w1 ->
  cols_used R w1 -> rows_used R w2 -> is_left gl tl wl D0 -> is_right gr tr wr D3 ->
  exists y, eff_mul R r0 radd rmul gl gr w1 w2 D0 p1 p2 D3 x = Ok y /\
  forall a' s1' s2' b', a' < D0 -> b' < D3 -> y a' s1' s2' b' = heff tl tr wl w1 w2 wr D0 p1 p2 D3 x a' s1' s2' b'.
Proof.
  intros tl tr wl w1 w2 wr gl gr D0 p1 p2 D3 x HL HR HM HP HU1 HU2 IL IR. unfold eff_mul.
  rewrite HL, HR, HM, !Nat.eqb_refl. cbn [andb negb].
  match goal with |- context [mapM ?f ?l] => destruct (mapM_ok nat _ f (fun j y => forall a' s1' s2' b', a' < D0 -> b' < D3 -> y a' s1' s2' b' =
    lsum (seq 0 D3) (fun b => lsum (seq 0 p2) (fun s2 =>
    lsum (seq 0 p1) (fun s1 => lsum (seq 0 D0) (fun a => x a s1 s2 b *r lsum (seq 0 (mrows w1)) (fun i => left_block tl wl i a a' *r mval w1 i j s1 s1'))) *r
    lsum (seq 0 (mcols w2)) (fun k => mval w2 j k s2 s2' *r right_block tr wr k b b')))) l) as [ys [G1 [G2 G3]]] end.
  - intros j Ij. apply in_seq in Ij.
    destruct (mul_left_ok gl tl wl w1 D0 (mrows w1) p1 j x HL eq_refl (HU1 j ltac:(lia)) IL) as [y [Y1 Y2]]. rewrite Y1. cbn [usable bind].
    destruct (mul_right_ok gr tr wr w2 D3 p2 j y HR (HU2 j ltac:(lia)) IR) as [z [Z1 Z2]]. rewrite Z1. cbn [usable]. exists z. split; [auto|].
    intros a' s1' s2' b' Ha Hb. rewrite Z2 by auto. apply lsum_ext. intros b _. apply lsum_ext. intros s2 _. rewrite Y2 by auto. auto.
  - rewrite G1. cbn [bind]. rewrite seq_length in G2.
    destruct (acc_ok ys) as [y [B1 B2]]; [destruct ys; [cbn in G2; lia|discriminate]|]. rewrite B1. cbn [usable]. exists y. split; [auto|].
    intros a' s1' s2' b' Ha Hb. rewrite B2. unfold heff. rewrite HM. apply lsum_nth; [auto|]. intros i z E.
    assert (Hi : i < mrows w2) by (rewrite <- G2; apply nth_error_Some; intros C; unfold t4 in *; congruence).
    destruct (G3 i i (seq_nth _ _ Hi)) as [z' [E1 E2]]. assert (z' = z) by (unfold t4 in *; congruence). subst z'. apply E2; auto.
Qed.
Lemma comb_mul_heff : forall tl tr wl w1 w2 wr gl gr D0 p1 p2 D3 x, length gl = mrows w1 -> length gr = mcols w2 -> mcols w1 = mrows w2 -> 0 < mcols w1 ->
  cols_used R w1 -> rows_used R w2 -> is_left gl tl wl D0 -> is_right gr tr wr D3 ->
  exists y, comb_mul R r0 radd rmul gl gr w1 w2 D0 p1 p2 D3 x = Ok y /\
  forall a' s1' s2' b', a' < D0 -> b' < D3 -> y a' s1' s2' b' = heff tl tr wl w1 w2 wr D0 p1 p2 D3 x a' s1' s2' b'.
Proof.
  intros tl tr wl w1 w2 wr gl gr D0 p1 p2 D3 x HL HR HM HP HU1 HU2 IL IR. unfold comb_mul. cbv zeta.
  rewrite HL, HR, HM, !Nat.eqb_refl. cbn [andb negb].
  match goal with |- context [mapM ?f ?l] => destruct (mapM_ok nat _ f (fun j y => forall a' s1' s2' b', a' < D0 -> b' < D3 -> y a' s1' s2' b' =
    lsum (seq 0 D3) (fun b => lsum (seq 0 p2) (fun s2 =>
    lsum (seq 0 p1) (fun s1 => lsum (seq 0 D0) (fun a => x a s1 s2 b *r lsum (seq 0 (mrows w1)) (fun i => left_block tl wl i a a' *r mval w1 i j s1 s1'))) *r
    lsum (seq 0 (mcols w2)) (fun k => mval w2 j k s2 s2' *r right_block tr wr k b b')))) l) as [ys [G1 [G2 G3]]] end.
  - intros j Ij. apply in_seq in Ij.
    destruct (acc_ok (map (fun p => outer R rmul (fst p) (snd p)) (left_terms gl w1 j))) as [bs [B1 B2]].
    { intros E. apply map_eq_nil in E. revert E. apply left_terms_some; [auto|]. apply HU1. lia. }
    destruct (acc_ok (map (fun p => outer R rmul (fst p) (snd p)) (right_terms gr w2 j))) as [sb [C1 C2]].
    { intros E. apply map_eq_nil in E. revert E. apply right_terms_some; [auto|]. apply HU2. lia. }
    rewrite B1, C1. cbn [usable bind]. eexists. split; [reflexivity|]. intros a' s1' s2' b' Ha Hb. cbv beta.
    rewrite sumn_lsum. etransitivity; [apply lsum_ext; intros s2 _; rewrite sumn_lsum; reflexivity|]. cbv beta. etransitivity; [apply lsum_swap|].
    apply lsum_ext. intros b Ib. apply lsum_ext. intros s2 _. apply in_seq in Ib. f_equal.
    + rewrite sumn_lsum. etransitivity; [apply lsum_ext; intros a _; rewrite sumn_lsum; reflexivity|]. cbv beta. etransitivity; [apply lsum_swap|].
      apply lsum_ext. intros s1 _. apply lsum_ext. intros a Ia. apply in_seq in Ia. rewrite B2, lsum_map. unfold outer.
      rewrite (left_terms_sum gl w1 j (left_block tl wl) a a' rmul s1 s1'); [ring|auto| |intros; ring]. intros i o E. apply (IL i o E); lia.
    + rewrite C2, lsum_map. unfold outer. apply (right_terms_sum gr w2 j (right_block tr wr) b b' rmul s2 s2'); [auto| |intros; ring]. intros i o E. apply (IR i o E); lia.
  - rewrite G1. cbn [bind]. rewrite seq_length in G2.
    destruct (acc_ok ys) as [y [B1 B2]]; [destruct ys; [cbn in G2; lia|discriminate]|]. rewrite B1. cbn [usable]. exists y. split; [auto|].
    intros a' s1' s2' b' Ha Hb. rewrite B2. unfold heff. rewrite HM. apply lsum_nth; [auto|]. intros i z E.
    assert (Hi : i < mrows w2) by (rewrite <- G2; apply nth_error_Some; intros C; unfold t4 in *; congruence).
    destruct (G3 i i (seq_nth _ _ Hi)) as [z' [E1 E2]]. assert (z' = z) by (unfold t4 in *; congruence). subst z'. apply E2; auto.
Qed.
Lemma mpo_mid : forall wl w1 w2 wr cl s1 s2 cr cl' s1' s2' cr', wfit 1 wl (mrows w1) -> length cl = length wl -> length cl' = length wl ->
  mpo_mat (wl ++ [w1; w2] ++ wr) (cl ++ [s1; s2] ++ cr) (cl' ++ [s1'; s2'] ++ cr') 0 0 =
  lsum (seq 0 (mrows w1)) (fun i => lsum (seq 0 (mcols w1)) (fun j => lsum (seq 0 (mcols w2)) (fun k =>
    mpo_mat wl cl cl' 0 i *r mval w1 i j s1 s1' *r mval w2 j k s2 s2' *r mpo_mat wr cr cr' k 0))).
Proof.
  intros wl w1 w2 wr cl s1 s2 cr cl' s1' s2' cr' HW H1 H2.
  rewrite (mpo_mat_app wl ([w1; w2] ++ wr) cl ([s1; s2] ++ cr) cl' ([s1'; s2'] ++ cr') 1 (mrows w1) 0 0 HW) by (try lia; auto).
  apply lsum_ext. intros i _. cbn [app EffHamSpec.mpo_mat]. rewrite sumn_lsum, lsum_mul_l. apply lsum_ext. intros j _. rewrite sumn_lsum, !lsum_mul_l. apply lsum_ext. intros k _. ring.
Qed.
Lemma heff_projected : forall tl tr wl w1 w2 wr D0 p1 p2 D3 x a' s1' s2' b', wfit 1 wl (mrows w1) -> length wl = length tl ->
  heff tl tr wl w1 w2 wr D0 p1 p2 D3 x a' s1' s2' b' = projected R r0 r1 radd rmul conj tl tr wl w1 w2 wr D0 p1 p2 D3 x a' s1' s2' b'.
Proof.
  intros tl tr wl w1 w2 wr D0 p1 p2 D3 x a' s1' s2' b' HW HL. unfold heff, projected, whole, EffHamSpec.left_block, EffHamSpec.right_block.
  symmetry. etransitivity.
  { apply lsum_ext. intros cl' Il'. apply lsum_ext. intros cr' Ir'. rewrite lsum_mul_l. apply lsum_ext. intros cl Il. rewrite sumn_lsum, lsum_mul_l. apply lsum_ext. intros s1 _. rewrite sumn_lsum, lsum_mul_l. apply lsum_ext. intros s2 _.
    rewrite lsum_mul_l. apply lsum_ext. intros cr Ir. apply configs_len in Il, Il'. rewrite map_length in Il, Il'.
    rewrite mpo_mid by (auto; congruence). rewrite sumn_lsum.
    rewrite (lsum_ext (seq 0 D0) _ (fun a => lsum (seq 0 D3) (fun b => mps_mat tl cl 0 a *r x a s1 s2 b *r mps_mat tr cr b 0))) by (intros; rewrite sumn_lsum; reflexivity).
    rewrite (lsum_mul_l (seq 0 D0)). rewrite lsum_mul_l. eapply lsum_ext. intros a _. flat. }
  cbv beta. symmetry. etransitivity; [flat|]. cbv beta.
  (* order: j b s2 k cr cr' s1 a i cl cl' *)
  etransitivity; [apply pull10|]. apply lsum_ext. intros cl' _.
  etransitivity; [apply pull5|]. apply lsum_ext. intros cr' _.
  etransitivity; [apply pull8|]. apply lsum_ext. intros cl _.
  etransitivity; [apply pull5|]. apply lsum_ext. intros s1 _.
  etransitivity; [apply pull2|]. apply lsum_ext. intros s2 _.
  etransitivity; [apply pull3|]. apply lsum_ext. intros cr _.
  etransitivity; [apply pull3|]. apply lsum_ext. intros a _.
  etransitivity; [apply lsum_swap|]. apply lsum_ext. intros b _.
  etransitivity; [apply pull2|]. apply lsum_ext. intros i _.
  apply lsum_ext. intros j _. apply lsum_ext. intros k _. ring.
Qed.

(** *** main statements *)
(** the cut of a chain [tl ++ two sites ++ tr] *)
Record cut (tl tr : list ten) (wl : list mposite) (w1 w2 : mposite) (wr : list mposite) (D0 D3 : nat) : Prop := {
  cut_l : fit 1 tl D0; cut_r : fit D3 tr 1;
  cut_wl : wfit 1 wl (mrows w1); cut_m : mcols w1 = mrows w2; cut_wr : wfit (mcols w2) wr 1;
  cut_len : length wl = length tl /\ length wr = length tr;
  cut_use : Forall (cols_used R) (wl ++ [w1]) /\ Forall (rows_used R) (w2 :: wr);
  cut_pos : 0 < mcols w1 }.
Lemma eff_ham_ok : forall tl tr wl w1 w2 wr D0 D3, cut tl tr wl w1 w2 wr D0 D3 ->
  exists gl gr, left_ops R r0 radd rmul conj (triv_group R r1) tl wl = Ok gl /\ right_ops R r0 r1 radd rmul conj tr wr = Ok gr /\
  forall p1 p2 x, exists y z, eff_mul R r0 radd rmul gl gr w1 w2 D0 p1 p2 D3 x = Ok y /\ comb_mul R r0 radd rmul gl gr w1 w2 D0 p1 p2 D3 x = Ok z /\
  forall a' s1' s2' b', a' < D0 -> b' < D3 ->
    y a' s1' s2' b' = projected R r0 r1 radd rmul conj tl tr wl w1 w2 wr D0 p1 p2 D3 x a' s1' s2' b' /\ z a' s1' s2' b' = y a' s1' s2' b'.
Proof.
  intros tl tr wl w1 w2 wr D0 D3 [HL HR WL HM WR [LL LR] [UL UR] HP].
  apply Forall_app in UL. destruct UL as [UL U1]. inversion U1 as [|? ? U1' _]; subst. inversion UR as [|? ? U2 UR']; subst.
  destruct (left_ops_ok tl wl D0 (mrows w1) HL WL LL UL) as [gl [A1 [A2 A3]]]. destruct (right_ops_ok tr wr D3 (mcols w2) HR WR LR UR') as [gr [B1 [B2 B3]]].
  exists gl, gr. split; [auto|]. split; [auto|]. intros p1 p2 x.
  destruct (eff_mul_heff tl tr wl w1 w2 wr gl gr D0 p1 p2 D3 x A2 B2 HM HP U1' U2 A3 B3) as [y [Y1 Y2]].
  destruct (comb_mul_heff tl tr wl w1 w2 wr gl gr D0 p1 p2 D3 x A2 B2 HM HP U1' U2 A3 B3) as [z [Z1 Z2]].
  exists y, z. split; [auto|]. split; [auto|]. intros a' s1' s2' b' Ha Hb. rewrite Z2, Y2 by auto. split; [|auto]. apply heff_projected; auto.
Qed.
(** only the amplitudes of the block matter: changing the gauge of bonds inside a block does not change its operators *)
Lemma right_gauge : forall ts ts' ws D M, fit D ts 1 -> fit D ts' 1 -> wfit M ws 1 -> length ws = length ts -> Forall (rows_used R) ws -> map (@d1 R) ts' = map (@d1 R) ts ->
  (forall c a, In c (configs (map (@d1 R) ts)) -> a < D -> mps_mat ts' c a 0 = mps_mat ts c a 0) ->
  exists g g', right_ops R r0 r1 radd rmul conj ts ws = Ok g /\ right_ops R r0 r1 radd rmul conj ts' ws = Ok g' /\ length g' = length g /\
  forall i o o', nth_error g i = Some o -> nth_error g' i = Some o' -> forall a a', a < D -> a' < D -> o' a a' = o a a'.
Proof.
  intros ts ts' ws D M HF HF' HW HL HU HD HE.
  destruct (right_ops_ok ts ws D M HF HW HL HU) as [g [A1 [A2 A3]]].
  destruct (right_ops_ok ts' ws D M HF' HW) as [g' [B1 [B2 B3]]]; auto.
  { rewrite HL. rewrite <- (map_length (@d1 R) ts'), HD, map_length. auto. }
  exists g, g'. split; [auto|]. split; [auto|]. split; [transitivity M; auto|]. intros i o o' E E' a a' Ha Ha'. rewrite (A3 i o E a a' Ha Ha'), (B3 i o' E' a a' Ha Ha').
  unfold EffHamSpec.right_block. rewrite HD. apply lsum_ext. intros c Ic. apply lsum_ext. intros c' Ic'. rewrite !HE by auto. auto.
Qed.

Lemma whole_mps : forall tl t1 t2 tr cl s1 s2 cr, fit 1 tl (d0 t1) -> d2 t1 = d0 t2 -> length cl = length tl ->
  whole R r0 r1 radd rmul tl tr (d0 t1) (d2 t2) (two_site R r0 radd rmul t1 t2) cl s1 s2 cr = mps_mat (tl ++ [t1; t2] ++ tr) (cl ++ [s1; s2] ++ cr) 0 0.
Proof.
  intros tl t1 t2 tr cl s1 s2 cr HF H12 HL. rewrite (mps_mat_app tl ([t1; t2] ++ tr) cl ([s1; s2] ++ cr) 1 (d0 t1) 0 0 HF) by (try lia; auto).
  unfold whole, two_site. rewrite sumn_lsum. apply lsum_ext. intros a _. cbn [app EffHamSpec.mps_mat]. rewrite !sumn_lsum.
  etransitivity; [eapply lsum_ext; intros b _; rewrite sumn_lsum; flat|]. cbv beta. etransitivity; [apply lsum_swap|]. symmetry.
  etransitivity; [rewrite lsum_mul_l; eapply lsum_ext; intros m _; rewrite sumn_lsum; flat|]. cbv beta. apply lsum_ext. intros m _. apply lsum_ext. intros b _. ring.
Qed.
Lemma energy_cut_fit : forall tl t1 t2 tr wl w1 w2 wr, fit 1 tl (d0 t1) -> d2 t1 = d0 t2 ->
  dot4 R r0 radd rmul conj (d0 t1) (d1 t1) (d1 t2) (d2 t2) (two_site R r0 radd rmul t1 t2)
    (projected R r0 r1 radd rmul conj tl tr wl w1 w2 wr (d0 t1) (d1 t1) (d1 t2) (d2 t2) (two_site R r0 radd rmul t1 t2)) =
  energy R r0 r1 radd rmul conj (tl ++ [t1; t2] ++ tr) (wl ++ [w1; w2] ++ wr).
Proof.
  intros tl t1 t2 tr wl w1 w2 wr HC H12. set (x := two_site R r0 radd rmul t1 t2). unfold energy. rewrite !map_app. cbn [map].
  (* the result *)
  set (G := fun cl' s1' s2' cr' => lsum (configs (map (@d1 R) tl)) (fun cl => sumn (d1 t1) (fun s1 => sumn (d1 t2) (fun s2 => lsum (configs (map (@d1 R) tr)) (fun cr =>
      mpo_mat (wl ++ [w1; w2] ++ wr) (cl ++ [s1; s2] ++ cr) (cl' ++ [s1'; s2'] ++ cr') 0 0 *r whole R r0 r1 radd rmul tl tr (d0 t1) (d2 t2) x cl s1 s2 cr))))).
  assert (CF : forall f, lsum (configs (map (@d1 R) tl ++ [d1 t1; d1 t2] ++ map (@d1 R) tr)) f =
     lsum (configs (map (@d1 R) tl)) (fun cl => lsum (seq 0 (d1 t1)) (fun s1 => lsum (seq 0 (d1 t2)) (fun s2 => lsum (configs (map (@d1 R) tr)) (fun cr => f (cl ++ [s1; s2] ++ cr)))))).
  { intros f. rewrite configs_app. apply lsum_ext. intros cl _. change ([d1 t1; d1 t2] ++ map (@d1 R) tr) with ([d1 t1] ++ [d1 t2] ++ map (@d1 R) tr).
    rewrite configs_app, configs_one. apply lsum_ext. intros s1 _. rewrite configs_app, configs_one. auto. }
  rewrite CF. transitivity (lsum (configs (map (@d1 R) tl)) (fun cl' => lsum (seq 0 (d1 t1)) (fun s1' => lsum (seq 0 (d1 t2)) (fun s2' => lsum (configs (map (@d1 R) tr)) (fun cr' =>
    conj (whole R r0 r1 radd rmul tl tr (d0 t1) (d2 t2) x cl' s1' s2' cr') *r G cl' s1' s2' cr'))))).
  - unfold dot4, projected, whole. fold G. rewrite sumn_lsum.
    etransitivity.
    { eapply lsum_ext. intros a' _. rewrite sumn_lsum. eapply lsum_ext. intros s1' _. rewrite sumn_lsum. eapply lsum_ext. intros s2' _. rewrite sumn_lsum. eapply lsum_ext. intros b' _.
      fold (G). rewrite lsum_mul_l. eapply lsum_ext. intros cl' _. rewrite lsum_mul_l. eapply lsum_ext. intros cr' _. change (lsum (configs (map d1 tl)) _) with (G cl' s1' s2' cr'). reflexivity. }
    cbv beta. etransitivity; [apply pull4|]. apply lsum_ext. intros cl' _. etransitivity; [apply lsum_swap|]. apply lsum_ext. intros s1' _. etransitivity; [apply lsum_swap|]. apply lsum_ext. intros s2' _.
    etransitivity; [apply pull2|]. apply lsum_ext. intros cr' _. rewrite sumn_lsum, lsum_conj, lsum_mul_r. apply lsum_ext. intros a' _. rewrite sumn_lsum, lsum_conj, lsum_mul_r. apply lsum_ext. intros b' _.
    rewrite !conj_mul. ring.
  - apply lsum_ext. intros cl' Il'. apply lsum_ext. intros s1' _. apply lsum_ext. intros s2' _. apply lsum_ext. intros cr' Ir'.
    apply configs_len in Il'. rewrite map_length in Il'. unfold x. rewrite whole_mps; [|exact HC|auto|auto].
    rewrite CF. unfold G. rewrite lsum_mul_l. apply lsum_ext. intros cl Il. rewrite sumn_lsum, lsum_mul_l. apply lsum_ext. intros s1 _. rewrite sumn_lsum, lsum_mul_l. apply lsum_ext. intros s2 _. rewrite lsum_mul_l. apply lsum_ext. intros cr _.
    apply configs_len in Il. rewrite map_length in Il. unfold x. rewrite whole_mps; [|exact HC|auto|auto]. ring.
Qed.
Lemma energy_cut : forall tl t1 t2 tr wl w1 w2 wr, cut tl tr wl w1 w2 wr (d0 t1) (d2 t2) -> d2 t1 = d0 t2 ->
  dot4 R r0 radd rmul conj (d0 t1) (d1 t1) (d1 t2) (d2 t2) (two_site R r0 radd rmul t1 t2)
    (projected R r0 r1 radd rmul conj tl tr wl w1 w2 wr (d0 t1) (d1 t1) (d1 t2) (d2 t2) (two_site R r0 radd rmul t1 t2)) =
  energy R r0 r1 radd rmul conj (tl ++ [t1; t2] ++ tr) (wl ++ [w1; w2] ++ wr).
Proof. intros tl t1 t2 tr wl w1 w2 wr HC. apply energy_cut_fit. apply (cut_l _ _ _ _ _ _ _ _ HC). Qed.
(** the value computed from the block operators *)
Lemma energy_by_ops : forall tl t1 t2 tr wl w1 w2 wr, cut tl tr wl w1 w2 wr (d0 t1) (d2 t2) -> d2 t1 = d0 t2 ->
  exists gl gr y, left_ops R r0 radd rmul conj (triv_group R r1) tl wl = Ok gl /\ right_ops R r0 r1 radd rmul conj tr wr = Ok gr /\
    eff_mul R r0 radd rmul gl gr w1 w2 (d0 t1) (d1 t1) (d1 t2) (d2 t2) (two_site R r0 radd rmul t1 t2) = Ok y /\
    dot4 R r0 radd rmul conj (d0 t1) (d1 t1) (d1 t2) (d2 t2) (two_site R r0 radd rmul t1 t2) y = energy R r0 r1 radd rmul conj (tl ++ [t1; t2] ++ tr) (wl ++ [w1; w2] ++ wr).
Proof.
  intros tl t1 t2 tr wl w1 w2 wr HC H12. destruct (eff_ham_ok _ _ _ _ _ _ _ _ HC) as [gl [gr [A [B X]]]].
  destruct (X (d1 t1) (d1 t2) (two_site R r0 radd rmul t1 t2)) as [y [z [Y [_ E]]]]. exists gl, gr, y. split; [auto|]. split; [auto|]. split; [auto|].
  rewrite <- energy_cut by auto. unfold dot4. rewrite !sumn_lsum. apply lsum_ext. intros a Ia. apply in_seq in Ia.
  rewrite !sumn_lsum. apply lsum_ext. intros s1 _. rewrite !sumn_lsum. apply lsum_ext. intros s2 _. rewrite !sumn_lsum. apply lsum_ext. intros b Ib. apply in_seq in Ib.
  destruct (E a s1 s2 b) as [E1 _]; [lia|lia|]. rewrite E1. reflexivity.
Qed.
Lemma left_gauge : forall ts ts' ws D M, fit 1 ts D -> fit 1 ts' D -> wfit 1 ws M -> length ws = length ts -> Forall (cols_used R) ws -> map (@d1 R) ts' = map (@d1 R) ts ->
  (forall c a, In c (configs (map (@d1 R) ts)) -> a < D -> mps_mat ts' c 0 a = mps_mat ts c 0 a) ->
  exists g g', left_ops R r0 radd rmul conj (triv_group R r1) ts ws = Ok g /\ left_ops R r0 radd rmul conj (triv_group R r1) ts' ws = Ok g' /\ length g' = length g /\
  forall i o o', nth_error g i = Some o -> nth_error g' i = Some o' -> forall a a', a < D -> a' < D -> o' a a' = o a a'.
Proof.
  intros ts ts' ws D M HF HF' HW HL HU HD HE.
  destruct (left_ops_ok ts ws D M HF HW HL HU) as [g [A1 [A2 A3]]].
  destruct (left_ops_ok ts' ws D M HF' HW) as [g' [B1 [B2 B3]]]; auto.
  { rewrite HL. rewrite <- (map_length (@d1 R) ts'), HD, map_length. auto. }
  exists g, g'. split; [auto|]. split; [auto|]. split; [transitivity M; auto|]. intros i o o' E E' a a' Ha Ha'. rewrite (A3 i o E a a' Ha Ha'), (B3 i o' E' a a' Ha Ha').
  unfold EffHamSpec.left_block. rewrite HD. apply lsum_ext. intros c Ic. apply lsum_ext. intros c' Ic'. rewrite !HE by auto. auto.
Qed.
End Facts.
