(** The two compression sweeps on the matrices of an FSM succeed. *)
From Coq Require Import List Arith Lia Bool Permutation Ring Relations.
From Verif Require Import Base SparMat SparMatFacts CoefOp CoefOpAlg CoefOpFacts Compress Fsm Numeric Chain Progress Progress2.
Import ListNotations.

(** No null row, no null column. *)
Definition nnm (m : opmat) : Prop :=
  (forall x, x < rows m -> exists y, y < cols m /\ sm m x y <> []) /\
  (forall y, y < cols m -> exists x, x < rows m /\ sm m x y <> []).

Lemma crel_nnm : forall T F T' F', cols T = rows F -> crel T F T' F' -> nnm T -> nnm F -> nnm T' /\ nnm F'.
Proof.
  intros T F T' F' Hd [[H1 [-> ->]]|[p [cy [tr [kept [C [O1 [O2 [H1 [H2 [H3 H4]]]]]]]]]]] [TR TC] [FR FC]; [split; split; auto|].
  rewrite <- Hd in *. split; split.
  - intros x Hx. rewrite H1 in Hx. apply (T'_row_nn _ _ _ _ _ _ _ _ _ C x Hx). auto.
  - intros y Hy. rewrite H1. apply (Tk_nn _ _ _ _ _ _ _ _ _ C TC y Hy).
  - intros j Hj. rewrite H2 in Hj. rewrite H3.
    destruct (F'_row_nn _ _ _ _ _ _ _ _ _ C (cols F) (sm F) j Hj) as [z [Hz Hn]]; [auto|].
    exists z. split; auto. rewrite H4 by auto. auto.
  - intros z Hz. rewrite H3 in Hz. rewrite H2.
    destruct (F'_col_nn _ _ _ _ _ _ _ _ _ C TC (sm F) z) as [j [Hj Hn]]; [auto|].
    exists j. split; auto. rewrite H4 by auto. auto.
Qed.
Lemma rrel_nnm : forall T F T' F', rows T = cols F -> rrel T F T' F' -> nnm T -> nnm F -> nnm T' /\ nnm F'.
Proof.
  intros T F T' F' Hd [[H1 [-> ->]]|[p [cy [tr [kept [C [O1 [O2 [H1 [H2 [H3 H4]]]]]]]]]]] [TR TC] [FR FC]; [split; split; auto|].
  rewrite <- Hd in *. split; split.
  - intros y Hy. rewrite H1. apply (Tk_nn _ _ _ _ _ _ _ _ _ C TR y Hy).
  - intros x Hx. rewrite H1 in Hx. apply (T'_row_nn _ _ _ _ _ _ _ _ _ C x Hx). auto.
  - intros z Hz. rewrite H3 in Hz. rewrite H2.
    destruct (F'_col_nn _ _ _ _ _ _ _ _ _ C TR (fun y z => sm F z y) z) as [j [Hj Hn]]; [auto|].
    exists j. split; auto. rewrite H4 by auto. auto.
  - intros j Hj. rewrite H2 in Hj. rewrite H3.
    destruct (F'_row_nn _ _ _ _ _ _ _ _ _ C (rows F) (fun y z => sm F z y) j Hj) as [z [Hz Hn]]; [auto|].
    exists z. split; auto. rewrite H4 by auto. auto.
Qed.

(** One compression step on a chain. *)
Inductive cstep : list opmat -> list opmat -> Prop :=
| CS_col : forall l T F r T' F', cols T = rows F -> crel T F T' F' -> good T' -> good F' ->
    cstep (l ++ T :: F :: r) (l ++ T' :: F' :: r)
| CS_row : forall l T F r T' F', rows T = cols F -> rrel T F T' F' -> good T' -> good F' ->
    cstep (l ++ F :: T :: r) (l ++ F' :: T' :: r).
Definition csteps := clos_refl_trans _ cstep.

Lemma Forall_two : forall A (P : A -> Prop) l a b r a' b', Forall P (l ++ a :: b :: r) -> P a' -> P b' ->
  Forall P (l ++ a' :: b' :: r).
Proof.
  intros A P l a b r a' b' H Ha Hb. apply Forall_app in H. destruct H as [H1 H2]. inversion H2; subst.
  inversion H4; subst. apply Forall_app. auto.
Qed.
Lemma Forall_two_inv : forall A (P : A -> Prop) l a b r, Forall P (l ++ a :: b :: r) -> P a /\ P b.
Proof. intros A P l a b r H. apply Forall_app in H. destruct H as [_ H]. inversion H; subst. inversion H3; subst. auto. Qed.

Lemma cstep_len : forall ms ms', cstep ms ms' -> length ms' = length ms.
Proof. intros ms ms' H. destruct H; rewrite !app_length; reflexivity. Qed.
Lemma cstep_good : forall ms ms', cstep ms ms' -> Forall good ms -> Forall good ms'.
Proof. intros ms ms' H HF. destruct H; eapply Forall_two; eauto. Qed.
Lemma cstep_nnm : forall ms ms', cstep ms ms' -> Forall nnm ms -> Forall nnm ms'.
Proof.
  intros ms ms' H HF. destruct H; destruct (Forall_two_inv _ _ _ _ _ _ HF) as [Q1 Q2].
  - destruct (crel_nnm _ _ _ _ H H0 Q1 Q2). eapply Forall_two; eauto.
  - destruct (rrel_nnm _ _ _ _ H H0 Q2 Q1). eapply Forall_two; eauto.
Qed.
Lemma cstep_chain : forall a b ms ms', cstep ms ms' -> chain a ms b -> chain a ms' b.
Proof.
  intros a b ms ms' H HC. destruct H; apply chain_app in HC; destruct HC as [c [C1 [C2 [C3 C4]]]];
  apply chain_app; exists c; (split; [auto|]); simpl.
  - destruct (crel_dims _ _ _ _ H H0) as [D1 [D2 [D3 D4]]]. rewrite D1, D3. auto.
  - destruct (rrel_dims _ _ _ _ H H0) as [D1 [D2 [D3 D4]]]. rewrite D1, D3. auto.
Qed.
Lemma cstep_le : forall ms ms', cstep ms ms' -> bond_le ms' ms.
Proof.
  intros ms ms' H. destruct H.
  - destruct (crel_dims _ _ _ _ H H0) as [D1 [D2 [D3 D4]]]. apply bond_le_two; lia.
  - destruct (rrel_dims _ _ _ _ H H0) as [D1 [D2 [D3 D4]]]. apply bond_le_two; lia.
Qed.

Lemma csteps_inv : forall ms ms', csteps ms ms' -> 
  length ms' = length ms /\ (Forall good ms -> Forall good ms') /\ (Forall nnm ms -> Forall nnm ms') /\
  (forall a b, chain a ms b -> chain a ms' b) /\ bond_le ms' ms.
Proof.
  intros ms ms' H. induction H.
  - split; [apply cstep_len; auto|]. split; [apply cstep_good; auto|]. split; [apply cstep_nnm; auto|].
    split; [intros; eapply cstep_chain; eauto|apply cstep_le; auto].
  - repeat split; auto. apply bond_le_refl.
  - destruct IHclos_refl_trans1 as [A1 [A2 [A3 [A4 A5]]]], IHclos_refl_trans2 as [B1 [B2 [B3 [B4 B5]]]].
    split; [congruence|]. split; auto. split; auto. split; auto. eapply bond_le_trans; eauto.
Qed.

Section Val.
Variable R : Type.
Variables (r0 r1 : R) (radd rmul rsub : R -> R -> R) (ropp : R -> R).
Variable Rth : ring_theory r0 r1 radd rmul rsub ropp (@eq R).
Variable cv : nat -> R.
Hypothesis cv_id : cv 0 = r1.
Variable ev : nat -> nat -> R.
Notation mprod := (mprod R r0 r1 radd rmul cv ev).
Lemma csteps_val : forall ms ms', csteps ms ms' -> Forall good ms -> forall a b, chain a ms b ->
  forall x y, x < a -> mprod 0 ms' x y = mprod 0 ms x y.
Proof.
  intros ms ms' H. induction H; intros HG a b HC i j Hi; auto.
  - pose proof (pres_refl R r0 r1 radd rmul cv ev a b x HG HC) as P0. destruct H.
    + pose proof (pres_col R r0 r1 radd rmul rsub ropp Rth cv cv_id ev a b _ l T F r T' F' P0 H0 H1 H2) as P1.
      apply (pr_val _ _ _ _ _ _ _ _ _ _ _ P1); auto.
    + pose proof (pres_row R r0 r1 radd rmul rsub ropp Rth cv cv_id ev a b _ l T F r T' F' P0 H0 H1 H2) as P1.
      apply (pr_val _ _ _ _ _ _ _ _ _ _ _ P1); auto.
  - destruct (csteps_inv _ _ H) as [_ [G [_ [CH _]]]].
    rewrite (IHclos_refl_trans2 (G HG) a b (CH a b HC)) by auto. eapply IHclos_refl_trans1; eauto.
Qed.
End Val.

Lemma nth_two : forall A (l r : list A) a b a' b' j, nth_error (l ++ a' :: b' :: r) j =
  if j =? length l then Some a' else if j =? S (length l) then Some b' else nth_error (l ++ a :: b :: r) j.
Proof.
  intros. destruct (Nat.eqb_spec j (length l)).
  - subst. rewrite nth_error_app2, Nat.sub_diag by lia. reflexivity.
  - destruct (Nat.eqb_spec j (S (length l))).
    + subst. rewrite nth_error_app2 by lia. replace (S (length l) - length l) with 1 by lia. reflexivity.
    + destruct (Nat.lt_ge_cases j (length l)).
      * rewrite !nth_error_app1 by lia. reflexivity.
      * rewrite !nth_error_app2 by lia. destruct (j - length l) as [|[|q]] eqn:E; try lia. reflexivity.
Qed.

Section Prog.
Variables (N : nat) (rd fi : nat -> option nat).

Definition fmat (i : nat) (m : opmat) : Prop :=
  finv (rows m) (cols m) (sm m) (rd i) (fi i) (rd (S i)) (fi (S i)).

(** State of a matrix after the first sweep has passed. *)
Definition left_ok (Z : nat -> nat -> Prop) (i : nat) (m : opmat) : Prop :=
  (2 <= cols m -> forall x y, x < rows m -> y < cols m -> all_id (sm m x y) = false -> Z (S i) y) /\
  (forall z, z < rows m -> Z i z -> exists y, pure1 (cols m) (sm m z) y /\ (2 <= cols m -> Z (S i) y)).
Definition tgt_ok (Z : nat -> nat -> Prop) (i : nat) (m : opmat) : Prop :=
  tinv (rows m) (cols m) (sm m) (rd (S i)) (fi (S i)) (Z i).

Lemma finv_tinv : forall R n T a b c d, finv R n T a b c d -> tinv R n T c d (fun _ => False).
Proof.
  intros R n T a b c d H. constructor.
  - eapply fi_nn; eauto.
  - eapply fi_one; eauto.
  - intros x y Hx Hy Hr. destruct (fi_rd _ _ _ _ _ _ _ H y Hy Hr) as [_ HR].
    destruct (T x y) eqn:E; auto. rewrite <- E. apply HR; auto. congruence.
  - intros z _ [].
Qed.

Lemma tinv_ext : forall R n T T' a b (Z : nat -> Prop), tinv R n T a b Z ->
  (forall x y, x < R -> y < n -> T' x y = T x y) -> tinv R n T' a b Z.
Proof.
  intros R n T T' a b Z H E. constructor.
  - intros y Hy. destruct (ti_nn _ _ _ _ _ _ H y Hy) as [x [Hx Hn]]. exists x. rewrite E by auto. auto.
  - intros y Hy Hf. destruct (ti_one _ _ _ _ _ _ H y Hy Hf) as [x0 [H1 [[l [c [H2 H3]]] H4]]].
    exists x0. split; auto. split; [exists l, c; rewrite E by auto; auto|].
    intros. rewrite E by auto. apply H4; auto.
  - intros x y Hx Hy Hr. rewrite E by auto. eapply ti_rd; eauto.
  - intros z Hz HZ. destruct (ti_Z _ _ _ _ _ _ H z Hz HZ) as [y [H1 [H2 [H3 [H4 H5]]]]].
    exists y. split; auto. split; auto. rewrite E by auto. split; auto. split; auto. intros. rewrite E by auto. auto.
Qed.

Lemma pure1_ext : forall n f g x, pure1 n f x -> (forall y, y < n -> g y = f y) -> pure1 n g x.
Proof.
  intros n f g x [H1 [H2 [H3 H4]]] E. split; auto. rewrite E by auto. split; auto. split; auto.
  intros. rewrite E by auto. auto.
Qed.

Definition updZ (Z : nat -> nat -> Prop) (i : nat) (W : nat -> Prop) : nat -> nat -> Prop :=
  fun b z => if b =? i then W z else Z b z.

(** One step of the first sweep. *)
Lemma lr_step : forall dbg Z i T F, good T -> good F -> cols T = rows F -> 
  tgt_ok Z i T -> fmat (S i) F ->
  exists T' F' W, col_compress dbg T F = Ok (T', F') /\ crel T F T' F' /\ good T' /\ good F' /\
    left_ok (updZ Z (S i) W) i T' /\ tgt_ok (updZ Z (S i) W) (S i) F'.
Proof.
  intros dbg Z i T F GT GF Hd HT HF.
  destruct (col_step_ok dbg T F GT GF Hd) as [[E1 E2]|[k [Tf [p [cy [tr [kept [Hn [CC [H2 _]]]]]]]]]].
  - exists T, F, (fun _ => False). split; auto. split; [left; auto|]. split; auto. split; auto. split.
    + split; [intros; lia|]. intros z Hz HZ. unfold updZ in HZ. rewrite (proj2 (Nat.eqb_neq i (S i))) in HZ by lia.
      destruct (ti_Z _ _ _ _ _ _ HT z Hz HZ) as [y [_ Hy]]. exists y. split; auto. intros; lia.
    + unfold tgt_ok, updZ. rewrite Nat.eqb_refl. eapply finv_tinv; eauto.
  - unfold fmat in HF. rewrite <- Hd in HF. unfold tgt_ok in HT.
    pose proof (lr_ok1 _ _ _ _ _ _ _ _ _ _ _ _ _ _ CC HT _ _ HF) as O1.
    pose proof (lr_ok2 _ _ _ _ _ _ _ _ _ _ _ _ _ _ CC HT _ _ HF) as O2.
    destruct (H2 O1 O2) as [Tm [Fm [G0 [G1 [G2 [G3 [D1 [D2 [D3 [D4 [D5 D6]]]]]]]]]]].
    set (W := Znext (rows T) Tf (Z i)).
    exists Tm, Fm, W. split; auto. split; auto. split; auto. split; auto. split.
    + unfold left_ok, updZ. rewrite Nat.eqb_refl, (proj2 (Nat.eqb_neq i (S i))) by lia. rewrite D1, D2. split.
      * intros _ x y Hx Hy Ha. rewrite D5 in Ha by auto.
        eapply lr_left_id; eauto.
      * intros z Hz HZ. destruct (lr_left_Z _ _ _ _ _ _ _ _ _ _ _ _ CC HT z Hz HZ) as [j [Hj Hp]].
        exists j. split; auto. eapply pure1_ext; eauto.
    + unfold tgt_ok, updZ. rewrite Nat.eqb_refl, D3, D4.
      eapply tinv_ext; [exact (lr_tinv _ _ _ _ _ _ _ _ _ _ _ _ _ _ CC HT _ _ HF)|]. auto.
Qed.

(** One step of the second sweep. *)
Lemma rl_step : forall dbg (Z : nat -> nat -> Prop) i T F, good T -> good F -> nnm T -> rows T = cols F ->
  (forall z, z < rows T -> Z (S i) z -> exists y, pure1 (cols T) (sm T z) y) -> left_ok Z i F ->
  exists T' F', row_compress dbg T F = Ok (T', F') /\ rrel T F T' F' /\ good T' /\ good F' /\
   (forall z, z < rows F' -> Z i z -> exists y, pure1 (cols F') (sm F' z) y).
Proof.
  intros dbg Z i T F GT GF NT Hd HT [HF1 HF2].
  destruct (row_step_ok dbg T F GT GF Hd) as [[E1 E2]|[k [Tf [p [cy [tr [kept [Hn [CC [H2 _]]]]]]]]]].
  - exists T, F. split; auto. split; [left; auto|]. split; auto. split; auto.
    intros z Hz HZ. destruct (HF2 z Hz HZ) as [y [Hy _]]. eauto.
  - assert (FZ : forall y z, y < rows T -> z < rows F -> all_id (sm F z y) = false -> Z (S i) y).
    { intros y z Hy Hz Ha. eapply HF1; eauto; lia. }
    assert (TZ : forall y, y < rows T -> Z (S i) y -> exists x, pure1 (cols T) (fun x => sm T y x) x).
    { intros y Hy HZ. destruct (HT y Hy HZ) as [x Hx]. exists x. auto. }
    destruct NT as [NR NC].
    pose proof (rl_ok1 _ _ _ _ _ _ _ _ _ (rows F) (fun y z => sm F z y) (Z (S i)) CC TZ FZ) as O1.
    pose proof (rl_ok2 _ _ _ _ _ _ _ _ _ (rows F) (fun y z => sm F z y) (Z (S i)) CC TZ FZ) as O2.
    destruct (H2 O1 O2) as [Tm [Fm [G0 [G1 [G2 [G3 [D1 [D2 [D3 [D4 [D5 D6]]]]]]]]]]].
    exists Tm, Fm. split; auto. split; auto. split; auto. split; auto.
    rewrite D3, D4. intros z Hz HZ.
    destruct (rl_pure _ _ _ _ _ _ _ _ _ (rows F) (fun y z => sm F z y) (Z (S i)) (Z i) CC) with (z := z) as [j Hj]; auto.
    + intros y w Hy Hw. destruct GF as [_ [SF _]]. apply SF; auto. lia.
    + intros w Hw HZw. destruct (HF2 w Hw HZw) as [y [Hy Hy2]]. exists y. split; [apply Hy2; lia|].
      rewrite Hd. auto.
    + exists j. eapply pure1_ext; eauto. intros. cbv beta. auto.
Qed.

(** The whole compression. *)
Theorem compress_chain_ok : forall dbg a b ms, 1 <= N -> length ms = N -> Forall good ms -> Forall nnm ms -> chain a ms b ->
  (forall i m, nth_error ms i = Some m -> fmat i m) ->
  exists ms', compress_chain dbg N ms = Ok ms' /\ csteps ms ms'.
Proof.
  intros dbg a b ms HN HL HG HNN HC HM. unfold compress_chain.
  assert (STEP : forall ms1 ms2, csteps ms ms1 -> cstep ms1 ms2 -> csteps ms ms2).
  { intros. eapply rt_trans; eauto. apply rt_step. auto. }
  assert (FACTS : forall ms1 l T F r, csteps ms ms1 -> ms1 = l ++ T :: F :: r ->
     good T /\ good F /\ nnm T /\ nnm F /\ cols T = rows F).
  { intros ms1 l T F r H E. subst ms1. destruct (csteps_inv _ _ H) as [_ [G [NN [CH _]]]].
    destruct (Forall_two_inv _ _ _ _ _ _ (G HG)). destruct (Forall_two_inv _ _ _ _ _ _ (NN HNN)).
    specialize (CH _ _ HC). apply chain_app in CH. destruct CH as [c [_ [_ [CH _]]]]. auto. }
  assert (H1 : exists ms1, for_loop 0 (N - 1) (compress_lr dbg) ms = Ok ms1 /\
     (csteps ms ms1 /\ exists Z, (forall j m, j < 0 + (N - 1) -> nth_error ms1 j = Some m -> left_ok Z j m) /\
        (forall m, nth_error ms1 (0 + (N - 1)) = Some m -> tgt_ok Z (0 + (N - 1)) m) /\
        (forall j m, 0 + (N - 1) < j -> nth_error ms1 j = Some m -> fmat j m))).
  { apply (for_loop_inv _ (fun i ms1 => csteps ms ms1 /\ exists Z, (forall j m, j < i -> nth_error ms1 j = Some m -> left_ok Z j m) /\
        (forall m, nth_error ms1 i = Some m -> tgt_ok Z i m) /\
        (forall j m, i < j -> nth_error ms1 j = Some m -> fmat j m))).
    - split; [apply rt_refl|]. exists (fun _ _ => False). split; [intros; lia|]. split; [|auto].
      intros m Hm. eapply finv_tinv. apply (HM 0 m Hm).
    - intros i x Hi [HS [Z [Z1 [Z2 Z3]]]]. destruct (csteps_inv _ _ HS) as [L _].
      destruct (split_two _ x i) as [l [T [F [r [Ex Hl]]]]]; [lia|].
      destruct (FACTS _ _ _ _ _ HS Ex) as [GT [GF [NT [NF Hd]]]]. subst x. subst i.
      destruct (lr_step dbg Z (length l) T F GT GF Hd) as [T' [F' [W [Q1 [Q2 [Q3 [Q4 [Q5 Q6]]]]]]]].
      + apply Z2. rewrite nth_error_app2, Nat.sub_diag by lia. reflexivity.
      + apply (Z3 (S (length l)) F); [lia|]. rewrite nth_error_app2 by lia.
        replace (S (length l) - length l) with 1 by lia. reflexivity.
      + exists (l ++ T' :: F' :: r). split; [apply compress_lr_eq; auto|]. split.
        * eapply STEP; eauto. constructor; auto.
        * exists (updZ Z (S (length l)) W). split; [|split].
          { intros j m Hj Hm. rewrite (nth_two _ l r T F T' F') in Hm.
            destruct (Nat.eqb_spec j (length l)); [injection Hm as <-; subst; auto|].
            destruct (Nat.eqb_spec j (S (length l))); [lia|].
            destruct (Z1 j m ltac:(lia) Hm) as [A1 A2]. unfold left_ok, updZ.
            rewrite (proj2 (Nat.eqb_neq j (S (length l)))), (proj2 (Nat.eqb_neq (S j) (S (length l)))) by lia.
            split; auto. }
          { intros m Hm. rewrite (nth_two _ l r T F T' F') in Hm.
            rewrite (proj2 (Nat.eqb_neq (S (length l)) (length l))) in Hm by lia. rewrite Nat.eqb_refl in Hm.
            injection Hm as <-. auto. }
          { intros j m Hj Hm. rewrite (nth_two _ l r T F T' F') in Hm.
            rewrite (proj2 (Nat.eqb_neq j (length l))), (proj2 (Nat.eqb_neq j (S (length l)))) in Hm by lia.
            apply Z3; auto. lia. } }
  destruct H1 as [ms1 [E1 [HS [Z [Z1 [Z2 _]]]]]]. rewrite E1. cbn [bind].
  simpl plus in *.
  destruct (for_loop_inv _ (fun q ms2 => csteps ms ms2 /\ (forall j m, j < N - 1 - q -> nth_error ms2 j = Some m -> left_ok Z j m) /\
     (forall m, nth_error ms2 (N - 1 - q) = Some m -> forall z, z < rows m -> Z (N - 1 - q) z -> exists y, pure1 (cols m) (sm m z) y))
     (compress_rl dbg N) (N - 1) 0 ms1) as [ms2 [E2 [HS2 _]]].
  - split; auto. split.
    + intros j m Hj. apply Z1. lia.
    + intros m Hm z Hz HZ. rewrite Nat.sub_0_r in *.
      destruct (ti_Z _ _ _ _ _ _ (Z2 m Hm) z Hz HZ) as [y [_ Hy]]. eauto.
  - intros q x Hq [HS1 [I1 I2]]. destruct (csteps_inv _ _ HS1) as [L _].
    destruct (split_two _ x (N - 1 - q - 1)) as [l [F [T [r [Ex Hl]]]]]; [lia|].
    destruct (FACTS _ _ _ _ _ HS1 Ex) as [GF [GT [NF [NT Hd]]]]. subst x.
    assert (Eq : N - 1 - q = S (length l)) by lia. rewrite Eq in I1, I2.
    destruct (rl_step dbg Z (length l) T F GT GF NT (eq_sym Hd)) as [T' [F' [Q1 [Q2 [Q3 [Q4 Q5]]]]]].
    + apply I2. rewrite nth_error_app2 by lia. replace (S (length l) - length l) with 1 by lia. reflexivity.
    + apply I1; [lia|]. rewrite nth_error_app2, Nat.sub_diag by lia. reflexivity.
    + exists (l ++ F' :: T' :: r). split; [apply compress_rl_eq; auto; lia|]. split.
      * eapply STEP; eauto. apply CS_row; auto.
      * replace (N - 1 - S q) with (length l) by lia. split.
        { intros j m Hj Hm. rewrite (nth_two _ l r F T F' T') in Hm.
          rewrite (proj2 (Nat.eqb_neq j (length l))), (proj2 (Nat.eqb_neq j (S (length l)))) in Hm by lia.
          apply I1; auto. }
        { intros m Hm. rewrite (nth_two _ l r F T F' T'), Nat.eqb_refl in Hm. injection Hm as <-. auto. }
  - exists ms2. auto.
Qed.
End Prog.
