(** Why the assertions of the compression can never fail on matrices produced from an FSM.
    Everything here is about one compression step, in terms of matrix entries. *)
From Coq Require Import List Arith Lia Bool Permutation.
From Verif Require Import Base SparMat SparMatFacts CoefOp CoefOpAlg CoefOpFacts Compress.
Import ListNotations.

(** Number of coefficient labels in an operator. *)
Definition wt (o : oprepr) : nat := list_sum (map (fun kc => length (snd kc)) o).

Lemma wt_map_add : forall k c o, wt (map_add k c o) = length c + wt o.
Proof.
  unfold wt. induction o as [|[k' c'] t IH]; cbn [map_add]; [simpl; lia|].
  destruct (k <? k'); [reflexivity|]. destruct (k =? k'); cbn [map list_sum fold_right snd].
  - rewrite app_length. lia.
  - unfold list_sum in *. rewrite IH. lia.
Qed.
Lemma wt_add : forall b a, wt (op_add a b) = wt a + wt b.
Proof.
  unfold op_add. induction b as [|[k c] t IH]; intros a; simpl.
  - unfold wt. simpl. lia.
  - rewrite IH, wt_map_add. unfold wt. simpl. lia.
Qed.
Lemma wt_psum2 : forall n f j1 j2, j1 < n -> j2 < n -> j1 <> j2 -> wt (f j1) + wt (f j2) <= wt (psum n f).
Proof.
  assert (H1 : forall n f j, j < n -> wt (f j) <= wt (psum n f)).
  { induction n; intros f j Hj; [lia|]. rewrite psum_S, wt_add.
    destruct (Nat.eq_dec j n); [subst; lia|]. specialize (IHn f j ltac:(lia)). lia. }
  induction n; intros f j1 j2 Hj1 Hj2 Hd; [lia|]. rewrite psum_S, wt_add.
  destruct (Nat.eq_dec j1 n); [subst; pose proof (H1 n f j2 ltac:(lia)); lia|].
  destruct (Nat.eq_dec j2 n); [subst; pose proof (H1 n f j1 ltac:(lia)); lia|].
  specialize (IHn f j1 j2 ltac:(lia) ltac:(lia) Hd). lia.
Qed.
Lemma wt_all_id : forall o, all_id o = true -> wt o = length o.
Proof.
  unfold wt. induction o as [|[k c] t IH]; auto. rewrite all_id_cons, andb_true_iff.
  intros [H1 H2]. apply coef_eq_id in H1. subst c. simpl. rewrite <- IH by auto. reflexivity.
Qed.

Lemma psum_ex : forall n f, psum n f <> [] -> exists i, i < n /\ f i <> [].
Proof.
  induction n; intros f H; [rewrite psum_0 in H; congruence|]. rewrite psum_S in H.
  destruct (op_isnull (f n)) eqn:E.
  - apply op_isnull_spec in E. rewrite E, op_add_nil_r in H. destruct (IHn f H) as [i [Hi Hf]]. exists i. auto.
  - apply op_isnull_false in E. eauto.
Qed.
Lemma psum_nn : forall n f i, i < n -> f i <> [] -> psum n f <> [].
Proof. intros n f i Hi Hf E. apply Hf. apply (proj1 (psum_nil n f) E). auto. Qed.

Lemma all_id_sepd : forall c e, all_id e = true -> all_id (sepd c e) = true.
Proof.
  intros c e H. unfold sepd. destruct (nontriv c); auto. destruct e as [|x t]; auto.
  rewrite separate_all_id; auto. congruence.
Qed.
Lemma op_coef_all_id : forall e, all_id e = true -> e <> [] -> op_coef e = kId.
Proof. intros e H H1. unfold op_coef. rewrite separate_all_id; auto. Qed.
Lemma dcoef_nn : forall c, dcoef c <> [].
Proof.
  intros c. unfold dcoef. destruct (coef_eq c kNull) eqn:E; simpl; [discriminate|].
  intro. subst c. discriminate.
Qed.
Lemma dcoef_id : dcoef kId = kId.
Proof. reflexivity. Qed.

(** [x0] is the only place where [f] is not null, and the value there has unit coefficients. *)
Definition pure1 (n : nat) (f : nat -> oprepr) (x0 : nat) : Prop :=
  x0 < n /\ f x0 <> [] /\ all_id (f x0) = true /\ forall x, x < n -> x <> x0 -> f x = [].

Section Step.
Variables (R n : nat) (T : nat -> nat -> oprepr) (k : nat) (T' : nat -> nat -> oprepr)
  (p : list nat) (cy : nat -> coef) (tr : nat -> nat -> coef) (kept : nat -> nat).
Hypothesis C : ccomp R n T k T' p cy tr kept.
(** no null column in the target *)
Hypothesis CN : forall y, y < n -> exists x, x < R /\ T x y <> [].

Lemma p_lt : forall o, o < n -> pget p o < n.
Proof.
  intros o Ho. destruct (is_perm_nth n p o (cc_p _ _ _ _ _ _ _ _ _ C) Ho) as [t [H1 H2]].
  rewrite (pget_nth _ _ _ H1). auto.
Qed.
Lemma p_inj : forall a b, a < n -> b < n -> pget p a = pget p b -> a = b.
Proof.
  intros a b Ha Hb H. pose proof (cc_p _ _ _ _ _ _ _ _ _ C) as P.
  destruct (is_perm_nth n p a P Ha) as [t [H1 H2]]. destruct (is_perm_nth n p b P Hb) as [u [H3 H4]].
  rewrite (pget_nth _ _ _ H1), (pget_nth _ _ _ H3) in H. subst u. eapply is_perm_inj; eauto.
Qed.
Lemma p_surj : forall y, y < n -> exists o, o < n /\ pget p o = y.
Proof.
  intros y Hy. pose proof (cc_p _ _ _ _ _ _ _ _ _ C) as P. unfold is_perm in P.
  assert (Hin : In y p).
  { destruct P as [P1 [P2 P3]]. apply (NoDup_length_incl P2 (l' := seq 0 n)); [rewrite seq_length; lia| |apply in_seq; lia].
    intros a Ha. apply in_seq. specialize (P3 a Ha). lia. }
  apply In_nth_error in Hin. destruct Hin as [o Ho]. exists o. split.
  - destruct P as [P1 _]. rewrite <- P1. apply nth_error_Some. congruence.
  - apply pget_nth. auto.
Qed.

(** the separated column *)
Notation S o := (fun x => sepd (cy o) (T x (pget p o))).

Lemma Tk_nn : forall j, j < k -> exists x, x < R /\ T' x j <> [].
Proof.
  intros j Hj. pose proof (cc_k1 _ _ _ _ _ _ _ _ _ C j Hj) as Hk.
  destruct (CN (pget p (kept j)) (p_lt _ Hk)) as [x [Hx H]]. exists x. split; auto.
  rewrite (cc_T' _ _ _ _ _ _ _ _ _ C) by auto. rewrite sepd_nil. auto.
Qed.
Lemma tr_ex : forall o x, o < n -> x < R -> T x (pget p o) <> [] ->
  exists j, j < k /\ tr j o <> [] /\ T' x j <> [].
Proof.
  intros o x Ho Hx H. pose proof (cc_sum _ _ _ _ _ _ _ _ _ C o x Ho Hx) as Hs.
  assert (Hn : psum k (fun j => pm (tr j o) (T' x j)) <> []).
  { intro E. apply op_eq_nil_iff in Hs. apply Hs in E. rewrite sepd_nil in E. auto. }
  apply psum_ex in Hn. destruct Hn as [j [Hj Hn]]. exists j. split; auto.
  rewrite pm_nil in Hn. tauto.
Qed.
Lemma tr_ex' : forall o, o < n -> exists j, j < k /\ tr j o <> [].
Proof.
  intros o Ho. destruct (CN (pget p o) (p_lt _ Ho)) as [x [Hx H]].
  destruct (tr_ex o x Ho Hx H) as [j [H1 [H2 _]]]. eauto.
Qed.

(** A separated column all of whose elements have coefficient 1 has unit expansion coefficients. *)
Lemma tr_id : forall o j, o < n -> j < k -> tr j o <> [] ->
  (forall x, x < R -> T x (pget p o) <> [] -> op_coef (sepd (cy o) (T x (pget p o))) = kId) -> tr j o = kId.
Proof.
  intros o j Ho Hj Ht H. eapply ovrel_id; [apply (cc_ov _ _ _ _ _ _ _ _ _ C o j Ho Hj Ht)|].
  intros x Hx Hn. apply H; auto. rewrite sepd_nil in Hn. auto.
Qed.
Lemma sepd_nontriv_id : forall o x, o < n -> nontriv (cy o) = true -> T x (pget p o) <> [] ->
  op_coef (sepd (cy o) (T x (pget p o))) = kId.
Proof. intros o x Ho Hn H. unfold sepd. rewrite Hn. apply separate_idem. auto. Qed.

Lemma nontriv_dec : forall o, nontriv (cy o) = true \/ dcoef (cy o) = kId.
Proof. intros o. destruct (nontriv (cy o)) eqn:E; auto. right. apply dcoef_triv. auto. Qed.

(** The separated column has its coefficient 1 everywhere, or nothing was separated. *)
Lemma tr_id_or : forall o j, o < n -> j < k -> tr j o <> [] -> tr j o = kId \/ dcoef (cy o) = kId.
Proof.
  intros o j Ho Hj Ht. destruct (nontriv_dec o) as [E|E]; auto. left.
  apply tr_id; auto. intros. apply sepd_nontriv_id; auto.
Qed.

(** The common coefficient is 1 when some element has unit coefficients. *)
Lemma cy_id : forall o x, o < n -> x < R -> T x (pget p o) <> [] -> all_id (T x (pget p o)) = true -> cy o = kId.
Proof.
  intros o x Ho Hx Hn Ha. rewrite (cc_cy _ _ _ _ _ _ _ _ _ C) by auto. apply common_coef_id.
  exists (T x (pget p o)). split; [|split; auto].
  - apply in_map_iff. exists x. split; auto. apply in_seq. lia.
  - apply op_coef_all_id; auto.
Qed.

(** A pure column expands in exactly one kept column, with coefficient 1. *)
Lemma pure_unique : forall o x0, o < n -> pure1 R (S o) x0 ->
  exists j0, j0 < k /\ tr j0 o = kId /\ T' x0 j0 = sepd (cy o) (T x0 (pget p o)) /\
    forall j, j < k -> j <> j0 -> tr j o = [].
Proof.
  intros o x0 Ho [Hx0 [Hn [Ha Hoth]]]. cbv beta in *.
  assert (HT : T x0 (pget p o) <> []) by (rewrite sepd_nil in Hn; auto).
  assert (Hall : forall j, j < k -> tr j o <> [] -> tr j o = kId /\ T' x0 j = sepd (cy o) (T x0 (pget p o))).
  { intros j Hj Ht. pose proof (cc_ov _ _ _ _ _ _ _ _ _ C o j Ho Hj Ht) as Hov. split.
    - apply tr_id; auto. intros x Hx Hnx. destruct (Nat.eq_dec x x0); [subst; apply op_coef_all_id; auto|].
      exfalso. apply Hnx. apply (sepd_nil (cy o)). auto.
    - destruct (Tk_nn j Hj) as [x [Hx Hx1]]. assert (x = x0).
      { destruct (Nat.eq_dec x x0); auto. exfalso. apply Hx1.
        apply (ovrel_supp _ _ _ _ x Hov Hx). auto. }
      subst x. destruct Hov as [_ Hov]. destruct (Hov x0 Hx0 Hx1) as [[H1 _]|[H1 _]].
      + symmetry. apply op_eq_all_id_eq; auto.
      + rewrite (separate_all_id _ Ha Hn) in H1. cbn [snd] in H1. symmetry. apply op_eq_all_id_eq; auto. }
  destruct (tr_ex o x0 Ho Hx0 HT) as [j0 [Hj0 [Ht _]]].
  destruct (Hall j0 Hj0 Ht) as [H1 H2]. exists j0. split; auto. split; auto. split; auto.
  intros j Hj Hjn. destruct (tr j o) as [|c cs] eqn:E; auto. exfalso.
  destruct (Hall j Hj ltac:(congruence)) as [H3 H4].
  pose proof (cc_sum _ _ _ _ _ _ _ _ _ C o x0 Ho Hx0) as Hs.
  rewrite op_eq_sym in Hs. apply op_eq_all_id_eq in Hs; auto.
  pose proof (wt_psum2 k (fun j => pm (tr j o) (T' x0 j)) j j0 Hj Hj0 Hjn) as Hw.
  cbv beta in Hw. rewrite <- Hs, H1, H3, H2, H4, !pm_id, wt_all_id in Hw by auto.
  destruct (sepd (cy o) (T x0 (pget p o))); [congruence|simpl in Hw; lia].
Qed.

(** Dropped rows / columns never appear as null lines. *)
Lemma T'_row_nn : forall x, x < R -> (exists y, y < n /\ T x y <> []) -> exists j, j < k /\ T' x j <> [].
Proof.
  intros x Hx [y [Hy H]]. destruct (p_surj y Hy) as [o [Ho <-]].
  destruct (tr_ex o x Ho Hx H) as [j [H1 [_ H2]]]. eauto.
Qed.

Section Follower.
Variables (CC : nat) (F : nat -> nat -> oprepr).
Notation F' := (Fnew n F p cy tr).

Lemma F2_nn : forall o z, F (pget p o) z <> [] -> F2 F p cy o z <> [].
Proof. intros o z H. unfold F2. rewrite pm_nil. intros [E|E]; [apply (dcoef_nn _ E)|auto]. Qed.
Lemma F2_nil : forall o z, F (pget p o) z = [] -> F2 F p cy o z = [].
Proof. intros o z H. unfold F2. rewrite H. apply pm_nil_r. Qed.

Lemma F'_row_nn : forall j, j < k -> (forall y, y < n -> exists z, z < CC /\ F y z <> []) ->
  exists z, z < CC /\ F' j z <> [].
Proof.
  intros j Hj H. pose proof (cc_k1 _ _ _ _ _ _ _ _ _ C j Hj) as Hk.
  destruct (H (pget p (kept j)) (p_lt _ Hk)) as [z [Hz Hn]]. exists z. split; auto.
  apply (psum_nn _ _ (kept j) Hk). rewrite (cc_trk _ _ _ _ _ _ _ _ _ C), Nat.eqb_refl, pm_id by auto.
  apply F2_nn. auto.
Qed.
Lemma F'_col_nn : forall z, (exists y, y < n /\ F y z <> []) -> exists j, j < k /\ F' j z <> [].
Proof.
  intros z [y [Hy H]]. destruct (p_surj y Hy) as [o [Ho <-]].
  destruct (tr_ex' o Ho) as [j [Hj Ht]]. exists j. split; auto.
  apply (psum_nn _ _ o Ho). rewrite pm_nil. intros [E|E]; [auto|]. revert E. apply F2_nn. auto.
Qed.

(** A column of the follower with one non-null element. *)
Lemma F'_col_single : forall z o0, o0 < n -> (forall y, y < n -> y <> pget p o0 -> F y z = []) ->
  sorted_keys 0 (F (pget p o0) z) -> forall j, j < k -> F' j z = pm (tr j o0) (F2 F p cy o0 z).
Proof.
  intros z o0 Ho H Hs j Hj. unfold Fnew. apply (psum_single n (fun o => pm (tr j o) (F2 F p cy o z)) o0); auto.
  - intros o Hon Hne. rewrite F2_nil; [apply pm_nil_r|]. apply H; [apply p_lt; auto|].
    intro E. apply Hne. apply p_inj; auto.
  - apply pm_sorted. unfold F2. apply pm_sorted. auto.
Qed.
End Follower.
End Step.
