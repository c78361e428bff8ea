(** Algebraic facts about symbolic coefficients and operators, and their value in a commutative ring. *)
From Coq Require Import List Arith Lia Bool Permutation Ring.
From Verif Require Import Base SparMat CoefOp.
Import ListNotations.

Lemma remove1_some : forall x l l', remove1 x l = Some l' -> Permutation l (x :: l').
Proof.
  induction l as [|y t IH]; simpl; intros l' H; try discriminate.
  destruct (Nat.eqb_spec x y).
  - inversion H; subst. auto.
  - destruct (remove1 x t) eqn:E; simpl in H; inversion H; subst.
    rewrite (IH l eq_refl). apply perm_swap.
Qed.

Lemma remove1_in : forall x l, In x l -> exists l', remove1 x l = Some l'.
Proof.
  induction l as [|y t IH]; simpl; intros H; [contradiction|].
  destruct (Nat.eqb_spec x y).
  - eauto.
  - destruct H; [congruence|]. destruct (IH H) as [l' ->]. simpl. eauto.
Qed.

Lemma coef_eq_perm : forall a b, coef_eq a b = true <-> Permutation a b.
Proof.
  induction a as [|x t IH]; intros b; simpl.
  - destruct b; split; intros H; auto; try discriminate.
    apply Permutation_nil in H. discriminate.
  - split; intros H.
    + destruct (remove1 x b) eqn:E; try discriminate.
      apply remove1_some in E. rewrite E. apply perm_skip. apply IH. auto.
    + destruct (remove1_in x b) as [l' E].
      { eapply Permutation_in; eauto. left. auto. }
      rewrite E. apply IH. apply remove1_some in E.
      rewrite E in H. eapply Permutation_cons_inv. eauto.
Qed.

Lemma coef_eq_refl : forall a, coef_eq a a = true.
Proof. intros. apply coef_eq_perm. auto. Qed.
Lemma coef_eq_sym : forall a b, coef_eq a b = coef_eq b a.
Proof.
  intros. destruct (coef_eq a b) eqn:E; destruct (coef_eq b a) eqn:E'; auto.
  - apply coef_eq_perm in E. apply Permutation_sym in E. apply coef_eq_perm in E. congruence.
  - apply coef_eq_perm in E'. apply Permutation_sym in E'. apply coef_eq_perm in E'. congruence.
Qed.
Lemma coef_eq_trans : forall a b c, coef_eq a b = true -> coef_eq b c = true -> coef_eq a c = true.
Proof. intros. rewrite coef_eq_perm in *. etransitivity; eauto. Qed.
Lemma coef_eq_null : forall a, coef_eq a kNull = true <-> a = [].
Proof.
  intros. rewrite coef_eq_perm. split; intros H; subst; auto.
  apply Permutation_sym, Permutation_nil in H. auto.
Qed.
Lemma coef_eq_id : forall a, coef_eq a kId = true <-> a = kId.
Proof.
  intros. rewrite coef_eq_perm. split; intros H; subst; auto.
  apply Permutation_sym, Permutation_length_1_inv in H. auto.
Qed.

Lemma op_eq_refl : forall a, op_eq a a = true.
Proof. induction a as [|[k c] t IH]; simpl; auto. rewrite Nat.eqb_refl, coef_eq_refl, IH. auto. Qed.
Lemma op_eq_sym : forall a b, op_eq a b = op_eq b a.
Proof.
  induction a as [|[k c] t IH]; intros [|[k' c'] t']; simpl; auto.
  rewrite IH, (Nat.eqb_sym k k'), (coef_eq_sym c c'). auto.
Qed.
Lemma op_eq_trans : forall a b c, op_eq a b = true -> op_eq b c = true -> op_eq a c = true.
Proof.
  induction a as [|[k x] t IH]; intros [|[k' x'] t'] [|[k'' x''] t'']; simpl; auto; try discriminate.
  rewrite !andb_true_iff, !Nat.eqb_eq. intros [[H1 H2] H3] [[H4 H5] H6].
  repeat split; [congruence|eapply coef_eq_trans; eauto|eauto].
Qed.
Lemma op_eq_null : forall a, op_eq a kNullOp = true <-> a = [].
Proof. intros [|[k c] t]; simpl; split; congruence. Qed.
Lemma op_isnull_spec : forall a, op_isnull a = true <-> a = [].
Proof. apply op_eq_null. Qed.
Lemma op_isnull_false : forall a, op_isnull a = false <-> a <> [].
Proof.
  intros. rewrite <- op_isnull_spec. destruct (op_isnull a); split; congruence.
Qed.
Lemma op_eq_nil_iff : forall a b, op_eq a b = true -> (a = [] <-> b = []).
Proof. intros [|[k c] t] [|[k' c'] t']; simpl; split; congruence. Qed.

Definition all_id (o : oprepr) : bool := forallb (fun kc => coef_eq (snd kc) kId) o.

Lemma all_id_cons : forall k c t, all_id ((k, c) :: t) = coef_eq c kId && all_id t.
Proof. reflexivity. Qed.

Lemma op_eq_all_id : forall a b, op_eq a b = true -> all_id a = all_id b.
Proof.
  induction a as [|[k c] t IH]; intros [|[k' c'] t']; simpl; auto; try discriminate.
  rewrite !andb_true_iff. intros [[_ H1] H2]. rewrite (IH _ H2). f_equal.
  destruct (coef_eq c kId) eqn:E1; destruct (coef_eq c' kId) eqn:E2; auto.
  - rewrite coef_eq_sym in H1. rewrite (coef_eq_trans _ _ _ H1 E1) in E2. congruence.
  - rewrite (coef_eq_trans _ _ _ H1 E2) in E1. congruence.
Qed.

(** For operators with unit coefficients, equality is syntactic. *)
Lemma op_eq_all_id_eq : forall a b, op_eq a b = true -> all_id a = true -> a = b.
Proof.
  induction a as [|[k c] t IH]; intros [|[k' c'] t']; simpl; auto; try discriminate.
  rewrite !andb_true_iff, Nat.eqb_eq. intros [[-> H1] H2] [H3 H4].
  apply coef_eq_id in H3. subst. rewrite coef_eq_sym in H1. apply coef_eq_id in H1. subst.
  f_equal. auto.
Qed.

Lemma set_coefs_nil : forall c a, set_coefs c a = [] <-> a = [].
Proof. intros c [|[k d] t]; simpl; split; congruence. Qed.
Lemma set_coefs_all_id : forall a, all_id (set_coefs kId a) = true.
Proof. induction a as [|[k c] t IH]; simpl; auto. Qed.
Lemma set_coefs_idem : forall a, all_id a = true -> set_coefs kId a = a.
Proof.
  induction a as [|[k c] t IH]; simpl; auto. rewrite andb_true_iff. intros [H1 H2].
  apply coef_eq_id in H1. subst. f_equal. auto.
Qed.

(** *** [separate] *)
Lemma separate_snd_nil : forall o, snd (separate o) = [] <-> o = [].
Proof.
  intros [|[k c] [|[k' c'] t]].
  - split; reflexivity.
  - split; discriminate.
  - simpl. destruct (_ && _); split; discriminate.
Qed.

Lemma separate_all_id : forall o, all_id o = true -> o <> [] -> separate o = (kId, o).
Proof.
  intros [|[k c] t] H Hn; [congruence|]. simpl in H. apply andb_true_iff in H. destruct H as [Hc Ht].
  apply coef_eq_id in Hc. subst c. destruct t as [|[k' c'] t]; [reflexivity|].
  unfold separate. rewrite (set_coefs_idem ((k, kId) :: (k', c') :: t)).
  2:{ simpl. auto. }
  destruct (forallb _ _); reflexivity.
Qed.

(** Either nothing is separated, or the base has unit coefficients. *)
Lemma separate_cases : forall o, o <> [] ->
  (fst (separate o) = kId /\ snd (separate o) = o) \/
  (all_id (snd (separate o)) = true).
Proof.
  intros [|[k c] [|[k' c'] t]] H; [congruence|right; reflexivity|].
  simpl separate. destruct (_ && _).
  - right. apply set_coefs_all_id.
  - left. auto.
Qed.

Lemma separate_snd_all_id : forall o, coef_eq (fst (separate o)) kId = false -> all_id (snd (separate o)) = true.
Proof.
  intros o H. destruct o as [|kc t]; [reflexivity|].
  destruct (separate_cases (kc :: t)) as [[H1 _]|H1]; auto; try congruence.
  rewrite H1 in H. rewrite coef_eq_refl in H. discriminate.
Qed.

(** After separating, the coefficient of the base is 1. *)
Lemma separate_idem : forall o, o <> [] -> op_coef (snd (separate o)) = kId.
Proof.
  intros o H. unfold op_coef. destruct (separate_cases o H) as [[H1 H2]|H1].
  - rewrite H2. auto.
  - rewrite separate_all_id; auto. intro E. apply H. apply separate_snd_nil. auto.
Qed.

(** *** Sortedness of the label maps *)
Fixpoint sorted_keys (lo : nat) (o : oprepr) : Prop :=
  match o with
  | [] => True
  | (k, _) :: t => lo <= k /\ sorted_keys (S k) t
  end.

Lemma sorted_keys_weaken : forall o lo lo', lo' <= lo -> sorted_keys lo o -> sorted_keys lo' o.
Proof. intros [|[k c] t] lo lo' H; simpl; auto. intros [H1 H2]. split; auto. lia. Qed.

Lemma map_add_sorted : forall o lo k c, lo <= k -> sorted_keys lo o -> sorted_keys lo (map_add k c o).
Proof.
  induction o as [|[k' c'] t IH]; intros lo k c Hk H; simpl in *; auto.
  destruct H as [H1 H2]. destruct (Nat.ltb_spec k k').
  - simpl. split; [auto|]. split; [lia|auto].
  - destruct (Nat.eqb_spec k k'); simpl; split; auto. apply IH; auto. lia.
Qed.

Lemma op_add_sorted : forall b a lo, sorted_keys lo a -> sorted_keys lo b -> sorted_keys lo (op_add a b).
Proof.
  unfold op_add. induction b as [|[k c] t IH]; intros a lo Ha Hb; simpl in *; auto.
  destruct Hb as [H1 H2]. apply IH.
  - apply map_add_sorted; auto.
  - eapply sorted_keys_weaken; [|exact H2]. lia.
Qed.

(** *** [op_add] : null elements *)
Lemma op_add_nil_r : forall a, op_add a [] = a.
Proof. reflexivity. Qed.

Lemma map_add_nonnil : forall k c o, map_add k c o <> [].
Proof. intros k c [|[k' c'] t]; simpl; try discriminate. destruct (k <? k'); try discriminate. destruct (k =? k'); discriminate. Qed.

Lemma op_add_nil : forall b a, op_add a b = [] <-> a = [] /\ b = [].
Proof.
  unfold op_add. induction b as [|[k c] t IH]; intros a; simpl.
  - tauto.
  - rewrite IH. split.
    + intros [H _]. exfalso. eapply map_add_nonnil; eauto.
    + intros [_ H]. discriminate.
Qed.

Lemma map_add_app : forall k c o, (forall kc, In kc o -> fst kc < k) -> map_add k c o = o ++ [(k, c)].
Proof.
  induction o as [|[k' c'] t IH]; simpl; intros H; auto.
  assert (k' < k) by (apply (H (k', c')); auto).
  destruct (Nat.ltb_spec k k'); [lia|]. destruct (Nat.eqb_spec k k'); [lia|].
  f_equal. apply IH. intros. apply H. auto.
Qed.

Lemma sorted_keys_in : forall o lo kc, sorted_keys lo o -> In kc o -> lo <= fst kc.
Proof.
  induction o as [|[k c] t IH]; simpl; intros lo kc H Hin; [contradiction|].
  destruct H as [H1 H2]. destruct Hin as [<-|Hin]; auto.
  specialize (IH _ _ H2 Hin). lia.
Qed.

Lemma op_add_app : forall b a lo, sorted_keys lo b -> (forall kc, In kc a -> fst kc < lo) -> op_add a b = a ++ b.
Proof.
  unfold op_add. induction b as [|[k c] t IH]; intros a lo Hs Ha; simpl in *.
  - rewrite app_nil_r. auto.
  - destruct Hs as [H1 H2]. rewrite map_add_app.
    + rewrite IH with (lo := S k); auto.
      * rewrite <- app_assoc. auto.
      * intros kc Hin. apply in_app_or in Hin. destruct Hin as [Hin|[<-|[]]].
        -- apply Ha in Hin. lia.
        -- simpl. lia.
    + intros kc Hin. apply Ha in Hin. lia.
Qed.

Lemma op_add_nil_l : forall b, sorted_keys 0 b -> op_add [] b = b.
Proof. intros. rewrite op_add_app with (lo := 0); auto. intros kc []. Qed.

Lemma set_coefs_sorted : forall c o lo, sorted_keys lo o -> sorted_keys lo (set_coefs c o).
Proof. induction o as [|[k d] t IH]; simpl; auto. intros lo [H1 H2]. split; auto. Qed.

Lemma separate_snd_sorted : forall o lo, sorted_keys lo o -> sorted_keys lo (snd (separate o)).
Proof.
  intros [|[k c] [|[k' c'] t]] lo H; simpl in *; auto.
  destruct (_ && _).
  - destruct H as [H1 [H2 H3]]. simpl. repeat split; auto. apply set_coefs_sorted. auto.
  - exact H.
Qed.

(** *** Values in a commutative ring *)
Section Values.
Variable R : Type.
Variables (r0 r1 : R) (radd rmul rsub : R -> R -> R) (ropp : R -> R).
Hypothesis Rth : ring_theory r0 r1 radd rmul rsub ropp (@eq R).
Add Ring Rring : Rth.
Notation "0" := r0. Notation "1" := r1.
Infix "+" := radd. Infix "*" := rmul.

(** [cv] gives the number behind a coefficient label. *)
Variable cv : nat -> R.
Hypothesis cv_id : cv kIdCoefLabel = 1.

Definition cval (c : coef) : R := fold_right (fun l a => cv l + a) 0 c.

Arguments cval : simpl never.

(** [ev] gives the value (e.g. one matrix element) of a basis operator. *)
Definition oval (ev : nat -> R) (o : oprepr) : R :=
  fold_right (fun kc a => cval (snd kc) * ev (fst kc) + a) 0 o.

Lemma cval_id : cval kId = 1.
Proof. unfold cval, kId. simpl. rewrite cv_id. ring. Qed.
Lemma cval_null : cval kNull = 0.
Proof. reflexivity. Qed.
Lemma cval_app : forall a b, cval (a ++ b) = cval a + cval b.
Proof. unfold cval. induction a; intros; simpl; [ring|]. rewrite IHa. ring. Qed.
Lemma cval_perm : forall a b, Permutation a b -> cval a = cval b.
Proof. unfold cval. induction 1; simpl; try congruence. ring. Qed.
Lemma cval_eq : forall a b, coef_eq a b = true -> cval a = cval b.
Proof. intros. apply cval_perm. apply coef_eq_perm. auto. Qed.

Lemma oval_eq : forall ev a b, op_eq a b = true -> oval ev a = oval ev b.
Proof.
  intros ev. induction a as [|[k c] t IH]; intros [|[k' c'] t']; simpl; auto; try discriminate.
  rewrite !andb_true_iff, Nat.eqb_eq. intros [[-> H1] H2]. rewrite (cval_eq _ _ H1), (IH _ H2). auto.
Qed.

Lemma oval_map_add : forall ev k c o, oval ev (map_add k c o) = cval c * ev k + oval ev o.
Proof.
  intros ev k c. induction o as [|[k' c'] t IH]; simpl; auto.
  destruct (k <? k'); simpl; auto. destruct (Nat.eqb_spec k k'); simpl.
  - subst k'. rewrite cval_app. ring.
  - rewrite IH. ring.
Qed.

Lemma oval_add : forall ev b a, oval ev (op_add a b) = oval ev a + oval ev b.
Proof.
  intros ev. unfold op_add. induction b as [|[k c] t IH]; intros a; simpl; [ring|].
  rewrite IH, oval_map_add. simpl. ring.
Qed.

Lemma oval_set_coefs : forall ev c a, all_id a = true -> oval ev (set_coefs c a) = cval c * oval ev a.
Proof.
  intros ev c. induction a as [|[k d] t IH]; simpl; intros H; [ring|].
  apply andb_true_iff in H. destruct H as [H1 H2]. rewrite (IH H2), (cval_eq _ _ H1), cval_id. ring.
Qed.

Lemma oval_separate : forall ev o, cval (fst (separate o)) * oval ev (snd (separate o)) = oval ev o.
Proof.
  intros ev [|[k c] [|[k' c'] t]].
  - simpl. ring.
  - simpl. rewrite cval_id. ring.
  - simpl separate. destruct (_ && _) eqn:E.
    + simpl fst. simpl snd.
      apply andb_true_iff in E. destruct E as [E1 E2].
      simpl. rewrite cval_id, (cval_eq _ _ E1).
      assert (H : cval c * oval ev (set_coefs kId t) = oval ev t).
      { clear E1. induction t as [|[k2 c2] t IH]; simpl; [ring|].
        simpl in E2. apply andb_true_iff in E2. destruct E2 as [E3 E4].
        rewrite <- (IH E4), (cval_eq _ _ E3), cval_id. ring. }
      rewrite <- H. ring.
    + simpl. rewrite cval_id. ring.
Qed.

End Values.
