(** Value of a chain of operator matrices, and its preservation by the compression steps.

    Values are taken in an arbitrary commutative ring: [cv l] is the number the coefficient label [l] stands
    for (label 0 stands for 1, mpogen_impl.h 63-79) and [ev k l] the value of operator label [l] on site [k].
    Taking for [ev k] the matrix elements <s'|op|s> on site [k] for given configurations s, s' turns the
    chain value into the matrix element of the MPO; so equal chain values for all [ev] means equal operators. *)
From Coq Require Import List Arith Lia Bool Permutation Ring.
From Verif Require Import Base SparMat SparMatFacts CoefOp CoefOpAlg CoefOpFacts Compress Fsm.
Import ListNotations.

Section Num.
Variable R : Type.
Variables (r0 r1 : R) (radd rmul rsub : R -> R -> R) (ropp : R -> R).
Variable Rth : ring_theory r0 r1 radd rmul rsub ropp (@eq R).
Add Ring Rring : Rth.
Variable cv : nat -> R.
Hypothesis cv_id : cv 0 = r1.

Notation "0" := r0.
Notation "1" := r1.
Infix "+" := radd.
Infix "*" := rmul.

Notation cval := (cval R r0 radd cv).
Notation oval := (oval R r0 radd rmul cv).

Fixpoint nsum (n : nat) (f : nat -> R) : R :=
  match n with O => 0 | S k => nsum k f + f k end.

Lemma nsum_ext : forall n f g, (forall i, i < n -> f i = g i) -> nsum n f = nsum n g.
Proof. induction n; intros f g H; simpl; auto. rewrite H, (IHn f g); auto. Qed.
Lemma nsum_0 : forall n f, (forall i, i < n -> f i = 0) -> nsum n f = 0.
Proof. induction n; intros f H; simpl; auto. rewrite H, IHn; auto. ring. Qed.
Lemma nsum_add : forall n f g, nsum n (fun i => f i + g i) = nsum n f + nsum n g.
Proof. induction n; intros; simpl; [ring|]. rewrite IHn. ring. Qed.
Lemma nsum_mul_l : forall n c f, c * nsum n f = nsum n (fun i => c * f i).
Proof. induction n; intros; simpl; [ring|]. rewrite <- IHn. ring. Qed.
Lemma nsum_mul_r : forall n c f, nsum n f * c = nsum n (fun i => f i * c).
Proof. induction n; intros; simpl; [ring|]. rewrite <- IHn. ring. Qed.
Lemma nsum_swap : forall n m (f : nat -> nat -> R),
  nsum n (fun i => nsum m (fun j => f i j)) = nsum m (fun j => nsum n (fun i => f i j)).
Proof.
  induction n; intros; simpl.
  - symmetry. apply nsum_0. auto.
  - rewrite IHn, nsum_add. reflexivity.
Qed.
Lemma nsum_one : forall n k f, k < n -> (forall i, i < n -> i <> k -> f i = 0) -> nsum n f = f k.
Proof.
  induction n; intros k f Hk H; [lia|]. simpl. destruct (Nat.eq_dec k n).
  - subst k. rewrite nsum_0; [ring|]. intros. apply H; lia.
  - rewrite (H n) by lia. rewrite (IHn k); auto; [ring|lia].
Qed.

Lemma nsum_list : forall n f, nsum n f = fold_right (fun i a => f i + a) 0 (seq O n).
Proof.
  intros n f. assert (forall l a, fold_right (fun i a => f i + a) a l = fold_right (fun i a => f i + a) 0 l + a).
  { induction l; intros; simpl; [ring|]. rewrite (IHl a0). ring. }
  induction n; [reflexivity|]. rewrite seq_S, fold_right_app. simpl. rewrite H, IHn. ring.
Qed.
Lemma fold_sum_perm : forall (f : nat -> R) l l', Permutation l l' ->
  fold_right (fun i a => f i + a) 0 l = fold_right (fun i a => f i + a) 0 l'.
Proof. induction 1; simpl; try congruence. ring. Qed.
Lemma nsum_perm : forall n p f, is_perm n p -> nsum n (fun i => f (pget p i)) = nsum n f.
Proof.
  intros n p f [Hl [Hd Hb]]. rewrite !nsum_list.
  transitivity (fold_right (fun i a => f i + a) 0 p).
  - assert (Hp : map (pget p) (seq O n) = p).
    { apply nth_error_ext. intros i. destruct (lt_dec i n).
      - rewrite nth_error_map_seq by auto. unfold pget. symmetry. apply nth_error_nth'. lia.
      - rewrite !(proj2 (nth_error_None _ _)); auto; rewrite ?map_length, ?seq_length; lia. }
    transitivity (fold_right (fun i a => f i + a) 0 (map (pget p) (seq O n))); [|rewrite Hp; reflexivity].
    generalize (seq O n). induction l; simpl; congruence.
  - apply fold_sum_perm. apply NoDup_Permutation; auto; [apply seq_NoDup|].
    intros x. rewrite in_seq. split; [intros H; apply Hb in H; lia|].
    intros H. assert (HI : incl (seq O n) p); [|apply HI; apply in_seq; lia].
    apply NoDup_length_incl; auto; [rewrite seq_length; lia|].
    intros y Hy. apply in_seq. apply Hb in Hy. lia.
Qed.

Lemma oval_psum : forall ev n f, oval ev (psum n f) = nsum n (fun i => oval ev (f i)).
Proof.
  intros ev. induction n; intros f; [reflexivity|].
  rewrite psum_S. rewrite (oval_add _ _ _ _ _ _ _ Rth). rewrite IHn. reflexivity.
Qed.

Lemma oval_pm : forall ev c o, (c <> [] -> mulok c o) -> oval ev (pm c o) = cval c * oval ev o.
Proof.
  intros ev c o H. unfold pm. destruct (coef_isnull c) eqn:E.
  - apply coef_isnull_spec in E. rewrite E. unfold CoefOpAlg.cval. simpl. ring.
  - apply coef_isnull_false in E. destruct (H E) as [->|Ha].
    + rewrite coef_eq_refl. rewrite (cval_id _ _ _ _ _ _ _ Rth _ cv_id). ring.
    + destruct (coef_eq c kId) eqn:Ec.
      * apply coef_eq_id in Ec. subst c. rewrite (cval_id _ _ _ _ _ _ _ Rth _ cv_id). ring.
      * apply (oval_set_coefs _ _ _ _ _ _ _ Rth _ cv_id). auto.
Qed.

Lemma oval_sepd : forall ev l e, In e l ->
  cval (dcoef (common_coef l)) * oval ev (sepd (common_coef l) e) = oval ev e.
Proof.
  intros ev l e He. unfold sepd. destruct (nontriv (common_coef l)) eqn:En.
  - assert (Hd : dcoef (common_coef l) = common_coef l).
    { unfold nontriv, dcoef in *. destruct (coef_eq _ kNull); auto. discriminate. }
    rewrite Hd. destruct e as [|kc t].
    + simpl. ring.
    + destruct (common_coef_spec l) as [H|H].
      * rewrite H in En. discriminate.
      * rewrite <- (cval_eq _ _ _ _ _ _ _ Rth _ _ _ (H _ He ltac:(discriminate))).
        apply (oval_separate _ _ _ _ _ _ _ Rth _ cv_id).
  - rewrite dcoef_triv by auto. rewrite (cval_id _ _ _ _ _ _ _ Rth _ cv_id). ring.
Qed.

(** One compression step preserves the product of target and follower. *)
Lemma ccomp_num : forall evT evF Rr n T k T' p cy tr kept C F,
  ccomp Rr n T k T' p cy tr kept -> ok1 n C F p cy -> ok2 n k C F p cy tr ->
  forall x z, x < Rr -> z < C ->
  nsum k (fun j => oval evT (T' x j) * oval evF (Fnew n F p cy tr j z)) =
  nsum n (fun y => oval evT (T x y) * oval evF (F y z)).
Proof.
  intros evT evF Rr n T k T' p cy tr kept C F CC O1 O2 x z Hx Hz.
  transitivity (nsum k (fun j => nsum n (fun o => oval evT (T' x j) * (cval (tr j o) * oval evF (F2 F p cy o z))))).
  { apply nsum_ext. intros j Hj. unfold Fnew. rewrite oval_psum, nsum_mul_l. apply nsum_ext. intros o Ho.
    rewrite (oval_pm evF (tr j o)); auto. }
  rewrite nsum_swap.
  transitivity (nsum n (fun o => oval evT (sepd (cy o) (T x (pget p o))) * oval evF (F2 F p cy o z))).
  { apply nsum_ext. intros o Ho.
    rewrite <- (oval_eq _ _ _ _ _ _ _ Rth _ _ _ _ (cc_sum _ _ _ _ _ _ _ _ _ CC o x Ho Hx)).
    rewrite oval_psum, nsum_mul_r. apply nsum_ext. intros j Hj.
    rewrite (oval_pm evT (tr j o)); [ring|]. intros Hn.
    destruct (ovrel_base_id _ _ _ _ x (cc_ov _ _ _ _ _ _ _ _ _ CC o j Ho Hj Hn) Hx); [left|right]; auto. }
  transitivity (nsum n (fun o => oval evT (T x (pget p o)) * oval evF (F (pget p o) z))).
  { apply nsum_ext. intros o Ho. unfold F2. rewrite (oval_pm evF (dcoef (cy o))) by (intros; apply O1; auto).
    rewrite (cc_cy _ _ _ _ _ _ _ _ _ CC o Ho).
    rewrite <- (oval_sepd evT (map (fun x0 => T x0 (pget p o)) (seq O Rr)) (T x (pget p o))).
    - ring.
    - apply in_map_iff. exists x. split; auto. apply in_seq. lia. }
  apply (nsum_perm n p (fun y => oval evT (T x y) * oval evF (F y z)) (cc_p _ _ _ _ _ _ _ _ _ CC)).
Qed.
End Num.
