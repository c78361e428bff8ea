(** Which labels can occur in the matrices: the compression invents neither operator labels (site by site) nor
    coefficient labels (other than that of 1). *)
From Coq Require Import List Arith Lia Bool Permutation Relation_Operators.
From Verif Require Import Base SparMat SparMatFacts CoefOp CoefOpAlg CoefOpFacts Compress Fsm Chain Progress ChainProgress
  FsmFacts FsmMat FsmSem Grading.
Import ListNotations.

(** *** coefficient labels *)
Section Coef.
Variable P : nat -> Prop.
Hypothesis P0 : P kIdCoefLabel.
Definition clo (o : oprepr) : Prop := Forall (fun kc => Forall P (snd kc)) o.

Lemma kId_P : Forall P kId.
Proof. constructor; auto. Qed.
Lemma coef_eq_P : forall a b, coef_eq a b = true -> Forall P a -> Forall P b.
Proof. intros a b H F. apply coef_eq_perm in H. eapply Permutation_Forall; eauto. Qed.
Lemma op_eq_clo : forall a b, op_eq a b = true -> clo a -> clo b.
Proof.
  induction a as [|[k c] a IH]; intros [|[k' c'] b] H F; simpl in *; try discriminate; auto.
  apply andb_true_iff in H. destruct H as [H H2]. apply andb_true_iff in H. destruct H as [_ H1]. inversion F; subst.
  constructor; [eapply coef_eq_P; eauto|]. apply IH; auto.
Qed.
Lemma set_coefs_clo : forall c o, Forall P c -> clo (set_coefs c o).
Proof. intros c o H. apply Forall_forall. intros kc I. apply in_map_iff in I. destruct I as [? [<- _]]. auto. Qed.
Lemma separate_clo : forall o, clo o -> Forall P (fst (separate o)) /\ clo (snd (separate o)).
Proof.
  intros [|[k c] [|b t]] H.
  - split; constructor.
  - inversion H; subst. split; auto. constructor; [apply kId_P|constructor].
  - unfold separate. destruct (forallb _ _); simpl fst; simpl snd.
    + inversion H; subst. split; auto. apply (set_coefs_clo kId ((k, c) :: b :: t)). apply kId_P.
    + split; auto. apply kId_P.
Qed.
Lemma sepd_clo : forall c o, clo o -> clo (sepd c o).
Proof. intros. unfold sepd. destruct (nontriv c); auto. apply separate_clo. auto. Qed.
Lemma pm_clo : forall c o, Forall P c -> clo o -> clo (pm c o).
Proof.
  intros. unfold pm. destruct (coef_isnull c); [constructor|]. destruct (coef_eq c kId); auto. apply set_coefs_clo. auto.
Qed.
Lemma map_add_clo : forall k c m, Forall P c -> clo m -> clo (map_add k c m).
Proof.
  induction m as [|[k' c'] t IH]; intros H H1; simpl; [constructor; auto|]. inversion H1; subst.
  destruct (k <? k'); [constructor; auto|]. destruct (k =? k'); constructor; auto; try (simpl; apply Forall_app; auto).
  apply IH; auto.
Qed.
Lemma op_add_clo : forall b a, clo a -> clo b -> clo (op_add a b).
Proof.
  unfold op_add. induction b as [|kc b IH]; intros a Ha Hb; simpl; auto. inversion Hb; subst. apply IH; auto.
  apply map_add_clo; auto.
Qed.
Lemma psum_clo : forall n f, (forall i, i < n -> clo (f i)) -> clo (psum n f).
Proof. induction n; intros f H; [constructor|]. rewrite psum_S. apply op_add_clo; auto. Qed.
Lemma common_coef_P : forall l, Forall clo l -> Forall P (common_coef l).
Proof.
  intros l H. unfold common_coef.
  assert (G : forall l (st : option coef * nat * coef), Forall clo l -> Forall P (snd st) -> (match fst (fst st) with Some c => Forall P c | None => True end) ->
    let r := fold_left tcp l st in Forall P (snd r) /\ (match fst (fst r) with Some c => Forall P c | None => True end)).
  { induction l0 as [|e t IH]; intros [[ret m] rc] F H1 H2; simpl in *; auto. inversion F; subst.
    assert (S1 : Forall P (op_coef e)) by (apply separate_clo; auto). pose proof kId_P.
    apply IH; auto; destruct ret; auto; destruct (op_isnull e); auto; simpl; destruct (m =? 0); simpl; auto;
      destruct (coef_eq rc (op_coef e)); simpl; auto. }
  pose proof (G l (None, 0, kNull : coef) H (Forall_nil _) I) as G1. cbv zeta in G1.
  destruct (fold_left tcp l (None, 0, kNull)) as [[[c|] m] rc]; simpl in *; tauto.
Qed.
Lemma dcoef_P : forall c, Forall P c -> Forall P (dcoef c).
Proof. intros. unfold dcoef. destruct (negb _); auto. apply kId_P. Qed.

Section CC.
Variables (R n : nat) (T : nat -> nat -> oprepr) (k : nat) (T' : nat -> nat -> oprepr) (p : list nat) (cy : nat -> coef)
  (tr : nat -> nat -> coef) (kept : nat -> nat).
Hypothesis C : ccomp R n T k T' p cy tr kept.
Hypothesis HT : forall x y, x < R -> y < n -> clo (T x y).
Lemma cc_pl : forall o, o < n -> pget p o < n.
Proof. intros. eapply p_lt; eauto. Qed.
Lemma cy_P : forall o, o < n -> Forall P (cy o).
Proof.
  intros o Ho. rewrite (cc_cy _ _ _ _ _ _ _ _ _ C) by auto. apply common_coef_P. apply Forall_forall. intros e He.
  apply in_map_iff in He. destruct He as [x [<- Hx]]. apply in_seq in Hx. apply HT; [lia|]. apply cc_pl. auto.
Qed.
Lemma T'_P : forall x j, x < R -> j < k -> clo (T' x j).
Proof.
  intros x j Hx Hj. rewrite (cc_T' _ _ _ _ _ _ _ _ _ C) by auto. apply sepd_clo. apply HT; auto. apply cc_pl.
  apply (cc_k1 _ _ _ _ _ _ _ _ _ C). auto.
Qed.
Lemma tr_P : forall j o, j < k -> o < n -> Forall P (tr j o).
Proof.
  intros j o Hj Ho. destruct (tr j o) as [|a c] eqn:E; [constructor|].
  assert (N : tr j o <> []) by congruence. destruct (cc_ov _ _ _ _ _ _ _ _ _ C o j Ho Hj N) as [[O|[x [Hx O]]] O2].
  - rewrite <- E, O. apply kId_P.
  - rewrite <- E. destruct (O2 x Hx O) as [[_ ->]|[_ Q]]; [apply kId_P|].
    eapply coef_eq_P; [exact Q|]. apply separate_clo. apply sepd_clo. apply HT; auto. apply cc_pl. auto.
Qed.
Lemma Fnew_P : forall C' (F : nat -> nat -> oprepr), (forall y z, y < n -> z < C' -> clo (F y z)) ->
  forall j z, j < k -> z < C' -> clo (Fnew n F p cy tr j z).
Proof.
  intros C' F HF j z Hj Hz. unfold Fnew. apply psum_clo. intros o Ho. apply pm_clo; [apply tr_P; auto|].
  unfold F2. apply pm_clo; [apply dcoef_P, cy_P; auto|]. apply HF; auto. apply cc_pl. auto.
Qed.
End CC.

Definition clm (m : opmat) : Prop := forall x y, x < rows m -> y < cols m -> clo (sm m x y).
Lemma crel_clm : forall T F T' F', cols T = rows F -> crel T F T' F' -> clm T -> clm F -> clm T' /\ clm F'.
Proof.
  intros T F T' F' Hd [[H1 [-> ->]]|[p [cy [tr [kept [C [O1 [O2 [H1 [H2 [H3 H4]]]]]]]]]]] HT HF; [auto|].
  assert (HT1 : forall x y, x < rows T -> y < cols T -> clo (sm T x y)) by exact HT. split.
  - intros x y Hx Hy. rewrite H1 in Hx. exact (T'_P _ _ _ _ _ _ _ _ _ C HT1 x y Hx Hy).
  - intros j z Hj Hz. rewrite H2 in Hj. rewrite H3 in Hz. rewrite H4 by auto.
    apply (Fnew_P _ _ _ _ _ _ _ _ _ C HT1 (cols F)); auto. intros. apply HF; auto. lia.
Qed.
Lemma rrel_clm : forall T F T' F', rows T = cols F -> rrel T F T' F' -> clm T -> clm F -> clm T' /\ clm F'.
Proof.
  intros T F T' F' Hd [[H1 [-> ->]]|[p [cy [tr [kept [C [O1 [O2 [H1 [H2 [H3 H4]]]]]]]]]]] HT HF; [auto|].
  assert (HT1 : forall x y, x < cols T -> y < rows T -> clo (sm T y x)) by (intros; apply HT; auto). split.
  - intros y x Hy Hx. rewrite H1 in Hx. exact (T'_P _ _ _ _ _ _ _ _ _ C HT1 x y Hx Hy).
  - intros z j Hz Hj. rewrite H2 in Hj. rewrite H3 in Hz. rewrite H4 by auto.
    apply (Fnew_P _ _ _ _ _ _ _ _ _ C HT1 (rows F)); auto. intros. apply HF; auto. lia.
Qed.
Lemma csteps_clm : forall ms ms', csteps ms ms' -> Forall clm ms -> Forall clm ms'.
Proof.
  intros ms ms' H. induction H; intros G; auto. destruct H.
  - apply Forall_app in G. destruct G as [G0 G]. inversion G as [|? ? G1 G']; subst. inversion G' as [|? ? G2 G3]; subst.
    destruct (crel_clm T F T' F' H H0) as [A B]; auto. apply Forall_app. auto.
  - apply Forall_app in G. destruct G as [G0 G]. inversion G as [|? ? G1 G']; subst. inversion G' as [|? ? G2 G3]; subst.
    destruct (rrel_clm T F T' F' H H0) as [A B]; auto. apply Forall_app. auto.
Qed.
End Coef.

(** *** operator labels, site by site *)
Definition kin (P : nat -> Prop) (m : opmat) : Prop :=
  forall x y l, x < rows m -> y < cols m -> In l (keys (sm m x y)) -> P l.
Lemma crel_kin : forall P P' T F T' F', cols T = rows F -> crel T F T' F' -> kin P T -> kin P' F -> kin P T' /\ kin P' F'.
Proof.
  intros P P' T F T' F' Hd [[H1 [-> ->]]|[p [cy [tr [kept [C [O1 [O2 [H1 [H2 [H3 H4]]]]]]]]]]] HT HF; [auto|].
  assert (HP : forall o, o < cols T -> pget p o < cols T) by (intros o Ho; eapply p_lt; eauto). split.
  - intros x y l Hx Hy Hl. rewrite H1 in Hx. rewrite (cc_T' _ _ _ _ _ _ _ _ _ C) in Hl by auto. rewrite sepd_keys in Hl.
    eapply HT; [| |exact Hl]; auto. apply HP. apply (cc_k1 _ _ _ _ _ _ _ _ _ C). auto.
  - intros j z l Hj Hz Hl. rewrite H2 in Hj. rewrite H3 in Hz. rewrite H4 in Hl by auto.
    destruct (Fnew_keys _ _ _ _ _ _ _ _ Hl) as [o [Ho [_ Hl']]]. eapply HF; [| |exact Hl']; auto. rewrite <- Hd. auto.
Qed.
Lemma rrel_kin : forall P P' T F T' F', rows T = cols F -> rrel T F T' F' -> kin P T -> kin P' F -> kin P T' /\ kin P' F'.
Proof.
  intros P P' T F T' F' Hd [[H1 [-> ->]]|[p [cy [tr [kept [C [O1 [O2 [H1 [H2 [H3 H4]]]]]]]]]]] HT HF; [auto|].
  assert (HP : forall o, o < rows T -> pget p o < rows T) by (intros o Ho; eapply p_lt; eauto). split.
  - intros y x l Hy Hx Hl. rewrite H1 in Hx.
    assert (E : sm T' y x = sepd (cy (kept y)) (sm T (pget p (kept y)) x)) by (apply (cc_T' _ _ _ _ _ _ _ _ _ C x y); auto).
    rewrite E in Hl. rewrite sepd_keys in Hl. eapply HT; [| |exact Hl]; auto. apply HP.
    apply (cc_k1 _ _ _ _ _ _ _ _ _ C). auto.
  - intros z j l Hz Hj Hl. rewrite H2 in Hj. rewrite H3 in Hz. rewrite H4 in Hl by auto.
    destruct (Fnew_keys _ _ _ _ _ _ _ _ Hl) as [o [Ho [_ Hl']]]. eapply HF; [| |exact Hl']; auto. rewrite <- Hd. auto.
Qed.
Lemma csteps_kin : forall ms ms', csteps ms ms' -> forall Ps, Forall2 kin Ps ms -> Forall2 kin Ps ms'.
Proof.
  intros ms ms' H. induction H; intros Ps G; auto. destruct H.
  - apply Forall2_app_inv_r in G. destruct G as [P1 [P2 [G0 [G ->]]]]. inversion G as [|? ? ? ? G1 G']; subst.
    inversion G' as [|? ? ? ? G2 G3]; subst. destruct (crel_kin _ _ T F T' F' H H0 G1 G2) as [A B].
    apply Forall2_app; auto.
  - apply Forall2_app_inv_r in G. destruct G as [P1 [P2 [G0 [G ->]]]]. inversion G as [|? ? ? ? G1 G']; subst.
    inversion G' as [|? ? ? ? G2 G3]; subst. destruct (rrel_kin _ _ T F T' F' H H0 G2 G1) as [A B].
    apply Forall2_app; auto.
Qed.
