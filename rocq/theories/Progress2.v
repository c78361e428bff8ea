(** Progress of the two compression sweeps: the invariants, one step at a time. *)
From Coq Require Import List Arith Lia Bool Permutation.
From Verif Require Import Base SparMat SparMatFacts CoefOp CoefOpAlg CoefOpFacts Compress Progress.
Import ListNotations.

(** [x0] is the only place where [f] is not null; the value there is one basis operator with a coefficient. *)
Definition single1 (n : nat) (f : nat -> oprepr) (x0 : nat) : Prop :=
  x0 < n /\ (exists l c, f x0 = [(l, c)] /\ c <> []) /\ forall x, x < n -> x <> x0 -> f x = [].

(** Invariant of the target of the left-to-right sweep.  [rd], [fi]: columns of the ready / final state, if
    present.  [Z]: rows that are known to go to the final state only. *)
Record tinv (R n : nat) (T : nat -> nat -> oprepr) (rd fi : option nat) (Z : nat -> Prop) : Prop := mkTI {
  ti_nn : forall y, y < n -> exists x, x < R /\ T x y <> [];
  ti_one : forall y, y < n -> fi <> Some y -> exists x0, single1 R (fun x => T x y) x0;
  ti_rd : forall x y, x < R -> y < n -> rd = Some y -> all_id (T x y) = true;
  ti_Z : forall z, z < R -> Z z -> exists y, fi = Some y /\ pure1 n (T z) y
}.

(** Properties of a matrix of the uncompressed FSM. *)
Record finv (n C : nat) (F : nat -> nat -> oprepr) (rd fi rd' fi' : option nat) : Prop := mkFI {
  fi_id : forall y z, y < n -> z < C -> rd <> Some y -> all_id (F y z) = true;
  fi_fin : forall y, y < n -> fi = Some y -> exists z, fi' = Some z /\ pure1 C (F y) z;
  fi_one : forall z, z < C -> fi' <> Some z -> exists y0, single1 n (fun y => F y z) y0;
  fi_rd : forall z, z < C -> rd' = Some z -> fi' <> Some z /\
    forall y, y < n -> F y z <> [] -> rd = Some y /\ all_id (F y z) = true;
  fi_nn : forall z, z < C -> exists y, y < n /\ F y z <> [];
  fi_srt : forall y z, y < n -> z < C -> sorted_keys 0 (F y z)
}.

Lemma single1_nn : forall n f x, single1 n f x -> f x <> [].
Proof. intros n f x [_ [[l [c [-> _]]] _]]. discriminate. Qed.

Section LR.
Variables (R n : nat) (T : nat -> nat -> oprepr) (k : nat) (T' : nat -> nat -> oprepr)
  (p : list nat) (cy : nat -> coef) (tr : nat -> nat -> coef) (kept : nat -> nat).
Variables (rd fi rd' fi' : option nat) (Z : nat -> Prop).
Hypothesis CC : ccomp R n T k T' p cy tr kept.
Hypothesis TI : tinv R n T rd fi Z.

Let CN := ti_nn _ _ _ _ _ _ TI.

(** A separated non-final column is pure. *)
Lemma nonfinal_pure : forall o, o < n -> fi <> Some (pget p o) ->
  exists x0, pure1 R (fun x => sepd (cy o) (T x (pget p o))) x0.
Proof.
  intros o Ho Hf. destruct (ti_one _ _ _ _ _ _ TI (pget p o) (p_lt _ _ _ _ _ _ _ _ _ CC o Ho) Hf) as [x0 [Hx0 [[l [c [E Hc]]] Hoth]]].
  cbv beta in *. exists x0. split; auto. split; [rewrite sepd_nil, E; discriminate|]. split.
  - rewrite E. unfold sepd. destruct (nontriv (cy o)) eqn:En; [reflexivity|].
    assert (Hcc : coef_eq c (cy o) = true).
    { destruct (common_coef_spec (map (fun x => T x (pget p o)) (seq 0 R))) as [H|H];
      rewrite <- (cc_cy _ _ _ _ _ _ _ _ _ CC o Ho) in H.
      - (* the common coefficient is 1: then so is the only coefficient *)
        pose proof (tc_fold_inv (map (fun x => T x (pget p o)) (seq 0 R)) [] (None, 0, kNull)) as Hi.
        assert (Hc0 : forall m s st, s + m <= R -> (forall x, s <= x < s + m -> x <> x0) ->
                  fold_left tcp (map (fun x => T x (pget p o)) (seq s m)) st = st).
        { induction m; intros s st Hs Hx; [reflexivity|]. simpl.
          replace (tcp st (T s (pget p o))) with st.
          - apply IHm; [lia|]. intros. apply Hx. lia.
          - rewrite (Hoth s); [|lia|apply Hx; lia]. destruct st as [[[?|] ?] ?]; reflexivity. }
        rewrite (cc_cy _ _ _ _ _ _ _ _ _ CC o Ho). unfold common_coef.
        replace (seq 0 R) with (seq 0 x0 ++ x0 :: seq (S x0) (R - S x0)).
        2:{ replace R with (x0 + S (R - S x0)) at 2 by lia. rewrite seq_app. reflexivity. }
        rewrite map_app, fold_left_app. rewrite (Hc0 x0 0); [|lia|intros; lia].
        cbn [map fold_left]. rewrite Hc0; [|lia|intros; lia]. rewrite E. simpl. apply coef_eq_refl.
      - assert (Hin : In (T x0 (pget p o)) (map (fun x => T x (pget p o)) (seq 0 R))).
        { apply in_map_iff. exists x0. split; auto. apply in_seq. lia. }
        rewrite E in *. apply (H _ Hin). discriminate. }
    unfold nontriv in En. apply andb_false_iff in En. destruct En as [En|En]; apply negb_false_iff in En.
    + apply coef_eq_null in En. rewrite En in Hcc. apply coef_eq_null in Hcc. congruence.
    + rewrite all_id_cons, (coef_eq_trans _ _ _ Hcc En). reflexivity.
  - intros x Hx Hne. apply sepd_nil. auto.
Qed.

Lemma nonfinal_all_id : forall o x, o < n -> x < R -> fi <> Some (pget p o) ->
  all_id (sepd (cy o) (T x (pget p o))) = true.
Proof.
  intros o x Ho Hx Hf. destruct (nonfinal_pure o Ho Hf) as [x0 [H1 [H2 [H3 H4]]]].
  destruct (Nat.eq_dec x x0); [subst; auto|]. rewrite H4 by auto. reflexivity.
Qed.

Lemma ready_cy : forall o, o < n -> rd = Some (pget p o) -> cy o = kId.
Proof.
  intros o Ho Hr. pose proof (p_lt _ _ _ _ _ _ _ _ _ CC o Ho) as Hp.
  destruct (CN _ Hp) as [x [Hx H]]. eapply cy_id; eauto. eapply ti_rd; eauto.
Qed.

Variables (C : nat) (F : nat -> nat -> oprepr).
Hypothesis FI : finv n C F rd fi rd' fi'.

Lemma lr_ok1 : ok1 n C F p cy.
Proof.
  intros o z Ho Hz. pose proof (p_lt _ _ _ _ _ _ _ _ _ CC o Ho) as Hp.
  assert (D : rd = Some (pget p o) \/ rd <> Some (pget p o)).
  { destruct rd as [r|]; [|right; discriminate]. destruct (Nat.eq_dec r (pget p o)); [left|right]; congruence. }
  destruct D as [D|D].
  - left. rewrite (ready_cy o Ho D). reflexivity.
  - right. eapply fi_id; eauto.
Qed.

Lemma dec_fi : forall y, fi = Some y \/ fi <> Some y.
Proof. intros y. destruct fi as [f|]; [|right; discriminate]. destruct (Nat.eq_dec f y); [left|right]; congruence. Qed.

Lemma nonfinal_tr : forall o j, o < n -> j < k -> fi <> Some (pget p o) -> tr j o <> [] -> tr j o = kId.
Proof.
  intros o j Ho Hj Hf Ht. apply (tr_id _ _ _ _ _ _ _ _ _ CC o j Ho Hj Ht).
  intros x Hx Hn. apply op_coef_all_id; [apply nonfinal_all_id; auto|rewrite sepd_nil; auto].
Qed.

Lemma lr_ok2 : ok2 n k C F p cy tr.
Proof.
  intros j o z Hj Ho Hz Ht. pose proof (p_lt _ _ _ _ _ _ _ _ _ CC o Ho) as Hp.
  destruct (dec_fi (pget p o)) as [D|D].
  - destruct (tr_id_or _ _ _ _ _ _ _ _ _ CC o j Ho Hj Ht) as [E|E]; [left; auto|right].
    unfold F2. rewrite E, pm_id.
    destruct (fi_fin _ _ _ _ _ _ _ FI _ Hp D) as [z0 [_ [_ [_ [Ha Hoth]]]]].
    destruct (Nat.eq_dec z z0); [subst; auto|]. rewrite Hoth by auto. reflexivity.
  - left. apply nonfinal_tr; auto.
Qed.

Definition Znext (j : nat) : Prop :=
  (exists x, x < R /\ all_id (T' x j) = false) \/ (exists z, z < R /\ Z z /\ T' z j <> []).

Notation F' := (Fnew n F p cy tr).

Lemma Z_final : forall z o, z < R -> o < n -> Z z -> T z (pget p o) <> [] -> fi = Some (pget p o).
Proof.
  intros z o Hz Ho HZ H. destruct (ti_Z _ _ _ _ _ _ TI z Hz HZ) as [y [Hy [_ [_ [_ Hoth]]]]].
  destruct (Nat.eq_dec (pget p o) y); [congruence|]. exfalso. apply H. apply Hoth; auto.
  apply (p_lt _ _ _ _ _ _ _ _ _ CC); auto.
Qed.

Lemma Znext_final : forall j, j < k -> Znext j -> fi = Some (pget p (kept j)).
Proof.
  intros j Hj HZ. pose proof (cc_k1 _ _ _ _ _ _ _ _ _ CC j Hj) as Hk.
  destruct HZ as [[x [Hx H]]|[z [Hz [H1 H2]]]].
  - destruct (dec_fi (pget p (kept j))) as [D|D]; auto. exfalso.
    rewrite (cc_T' _ _ _ _ _ _ _ _ _ CC) in H by auto. rewrite nonfinal_all_id in H; auto. discriminate.
  - rewrite (cc_T' _ _ _ _ _ _ _ _ _ CC), sepd_nil in H2 by auto. eapply Z_final; eauto.
Qed.

Lemma Znext_tr : forall j o, j < k -> Znext j -> o < n -> o <> kept j -> tr j o = [].
Proof.
  intros j o Hj HZ Ho Hne. pose proof (cc_k1 _ _ _ _ _ _ _ _ _ CC j Hj) as Hk.
  destruct (tr j o) as [|c cs] eqn:E; auto. exfalso.
  assert (Ht : tr j o <> []) by congruence.
  pose proof (cc_ov _ _ _ _ _ _ _ _ _ CC o j Ho Hj Ht) as Hov.
  assert (Hf : fi <> Some (pget p o)).
  { rewrite (Znext_final j Hj HZ). intro E1. apply Hne. symmetry.
    eapply p_inj; eauto. congruence. }
  destruct HZ as [[x [Hx H]]|[z [Hz [H1 H2]]]].
  - rewrite (ovrel_all_id _ _ _ _ x Hov Hx) in H; [discriminate|]. apply nonfinal_all_id; auto.
  - apply H2. apply (ovrel_supp _ _ _ _ z Hov Hz). apply sepd_nil.
    destruct (op_isnull (T z (pget p o))) eqn:En; [apply op_isnull_spec; auto|].
    apply op_isnull_false in En. exfalso. apply Hf. eapply Z_final; eauto.
Qed.

Lemma Znext_dcoef : forall j, j < k -> Znext j -> dcoef (cy (kept j)) = kId.
Proof.
  intros j Hj HZ. pose proof (cc_k1 _ _ _ _ _ _ _ _ _ CC j Hj) as Hk.
  destruct HZ as [[x [Hx H]]|[z [Hz [H1 H2]]]].
  - destruct (nontriv (cy (kept j))) eqn:En; [|apply dcoef_triv; auto]. exfalso.
    rewrite (cc_T' _ _ _ _ _ _ _ _ _ CC) in H by auto. unfold sepd in H. rewrite En in H.
    destruct (T x (pget p (kept j))) as [|e l] eqn:Et; [discriminate|].
    rewrite separate_snd_all_id in H; [discriminate|].
    assert (Hc : coef_eq (op_coef (e :: l)) (cy (kept j)) = true).
    { rewrite (cc_cy _ _ _ _ _ _ _ _ _ CC _ Hk) in En |- *.
      destruct (common_coef_spec (map (fun x => T x (pget p (kept j))) (seq 0 R))) as [Q|Q].
      - rewrite Q in En. discriminate.
      - apply Q; [|discriminate]. apply in_map_iff. exists x. split; auto. apply in_seq. lia. }
    destruct (coef_eq (fst (separate (e :: l))) kId) eqn:Ek; auto.
    unfold op_coef in Hc. rewrite coef_eq_sym in Hc. pose proof (coef_eq_trans _ _ _ Hc Ek) as Hq.
    unfold nontriv in En. rewrite Hq, andb_false_r in En. discriminate.
  - rewrite (cc_T' _ _ _ _ _ _ _ _ _ CC), sepd_nil in H2 by auto.
    pose proof (Z_final z _ Hz Hk H1 H2) as Hf.
    destruct (ti_Z _ _ _ _ _ _ TI z Hz H1) as [y [Hy [_ [Hn [Ha _]]]]].
    assert (y = pget p (kept j)) by congruence. subst y.
    rewrite (cy_id _ _ _ _ _ _ _ _ _ CC (kept j) z Hk Hz Hn Ha). reflexivity.
Qed.

Lemma lr_tinv : tinv k C F' rd' fi' Znext.
Proof.
  constructor.
  - intros z Hz. apply (F'_col_nn _ _ _ _ _ _ _ _ _ CC CN). eapply fi_nn; eauto.
  - intros z Hz Hf. destruct (fi_one _ _ _ _ _ _ _ FI z Hz Hf) as [y0 S1].
    pose proof (single1_nn _ _ _ S1) as Hy0n. destruct S1 as [Hy0 [[l [c [E Hc]]] Hoth]]. cbv beta in *.
    destruct (p_surj _ _ _ _ _ _ _ _ _ CC y0 Hy0) as [o0 [Ho0 Hp0]]. rewrite <- Hp0 in *.
    assert (Hnf : fi <> Some (pget p o0)).
    { intro Hfi. destruct (fi_fin _ _ _ _ _ _ _ FI _ Hy0 Hfi) as [z1 [Hz1 [_ [_ [_ Ho]]]]].
      apply Hy0n. apply Ho; auto. congruence. }
    destruct (nonfinal_pure o0 Ho0 Hnf) as [x0 Hpure].
    destruct (pure_unique _ _ _ _ _ _ _ _ _ CC CN o0 x0 Ho0 Hpure) as [j0 [Hj0 [Ht [_ Hun]]]].
    assert (HF : forall j, j < k -> F' j z = pm (tr j o0) (F2 F p cy o0 z)).
    { apply (F'_col_single _ _ _ _ _ _ _ _ _ CC F z o0 Ho0); auto. eapply fi_srt; eauto. }
    exists j0. split; auto. split.
    + rewrite HF, Ht, pm_id by auto. unfold F2. rewrite E. unfold pm.
      destruct (coef_isnull (dcoef (cy o0))) eqn:E1; [apply coef_isnull_spec in E1; destruct (dcoef_nn _ E1)|].
      destruct (coef_eq (dcoef (cy o0)) kId); simpl; eauto. exists l, (dcoef (cy o0)).
      split; auto. apply dcoef_nn.
    + intros j Hj Hne. rewrite HF, (Hun j) by auto. reflexivity.
  - intros j z Hj Hz Hr. destruct (fi_rd _ _ _ _ _ _ _ FI z Hz Hr) as [Hf HR].
    destruct (fi_one _ _ _ _ _ _ _ FI z Hz Hf) as [y0 S1].
    pose proof (single1_nn _ _ _ S1) as Hy0n. destruct S1 as [Hy0 [_ Hoth]]. cbv beta in *.
    destruct (HR y0 Hy0 Hy0n) as [Hrd Ha].
    destruct (p_surj _ _ _ _ _ _ _ _ _ CC y0 Hy0) as [o0 [Ho0 Hp0]]. rewrite <- Hp0 in *.
    rewrite (F'_col_single _ _ _ _ _ _ _ _ _ CC F z o0 Ho0); auto; [|eapply fi_srt; eauto].
    unfold F2. rewrite (ready_cy o0 Ho0 Hrd), dcoef_id, pm_id.
    destruct (tr j o0) as [|c cs] eqn:Et; [reflexivity|]. rewrite <- Et.
    rewrite nonfinal_tr; auto; [intro Hfi|congruence].
    destruct (fi_fin _ _ _ _ _ _ _ FI _ Hy0 Hfi) as [z1 [Hz1 [_ [_ [_ Ho]]]]].
    apply Hy0n. apply Ho; auto. congruence.
  - intros j Hj HZ. pose proof (cc_k1 _ _ _ _ _ _ _ _ _ CC j Hj) as Hk.
    pose proof (Znext_final j Hj HZ) as Hf.
    destruct (fi_fin _ _ _ _ _ _ _ FI _ (p_lt _ _ _ _ _ _ _ _ _ CC _ Hk) Hf) as [z0 [Hz0 Hp]].
    exists z0. split; auto.
    assert (HF : forall z, z < C -> F' j z = F (pget p (kept j)) z).
    { intros z Hz. unfold Fnew.
      assert (Eq : pm (tr j (kept j)) (F2 F p cy (kept j) z) = F (pget p (kept j)) z).
      { rewrite (cc_trk _ _ _ _ _ _ _ _ _ CC), Nat.eqb_refl, pm_id by auto.
        unfold F2. rewrite Znext_dcoef by auto. reflexivity. }
      rewrite <- Eq. apply (psum_single n (fun o => pm (tr j o) (F2 F p cy o z)) (kept j)); auto.
      - intros o Ho Hne. rewrite Znext_tr by auto. reflexivity.
      - rewrite Eq. eapply fi_srt; eauto. eapply p_lt; eauto. }
    destruct Hp as [H1 [H2 [H3 H4]]]. split; auto. rewrite HF by auto. split; auto. split; auto.
    intros z Hz Hne. rewrite HF by auto. auto.
Qed.

(** What is left behind for the second sweep. *)
Lemma lr_left_id : forall x j, x < R -> all_id (T' x j) = false -> Znext j.
Proof. intros x j Hx H. left. eauto. Qed.
Lemma lr_left_Z : forall z, z < R -> Z z -> exists j, Znext j /\ pure1 k (T' z) j.
Proof.
  intros z Hz HZ. destruct (ti_Z _ _ _ _ _ _ TI z Hz HZ) as [y [Hy [Hyn [Hn [Ha Hoth]]]]].
  destruct (p_surj _ _ _ _ _ _ _ _ _ CC y Hyn) as [o [Ho Hp]]. rewrite <- Hp in *.
  destruct (tr_ex _ _ _ _ _ _ _ _ _ CC o z Ho Hz Hn) as [j [Hj [_ HT]]].
  exists j. split; [right; eauto|]. pose proof (cc_k1 _ _ _ _ _ _ _ _ _ CC j Hj) as Hk.
  assert (Hko : forall j', j' < k -> T' z j' <> [] -> kept j' = o).
  { intros j' Hj' H'. pose proof (cc_k1 _ _ _ _ _ _ _ _ _ CC j' Hj') as Hk'.
    rewrite (cc_T' _ _ _ _ _ _ _ _ _ CC), sepd_nil in H' by auto.
    pose proof (Z_final z _ Hz Hk' HZ H') as Hf. eapply p_inj; eauto. congruence. }
  split; auto. split; auto. split.
  - rewrite (cc_T' _ _ _ _ _ _ _ _ _ CC), (Hko j Hj HT) by auto. apply all_id_sepd. auto.
  - intros j' Hj' Hne. destruct (op_isnull (T' z j')) eqn:E; [apply op_isnull_spec; auto|].
    apply op_isnull_false in E. exfalso. apply Hne.
    assert (Ek : kept j' = kept j) by (rewrite (Hko j' Hj' E), (Hko j Hj HT); auto).
    destruct (Nat.lt_total j' j) as [L|[L|L]]; auto;
    pose proof (cc_k2 _ _ _ _ _ _ _ _ _ CC _ _ L); lia.
Qed.
End LR.

(** One step of the right-to-left sweep, written with transposed matrices as in [ccomp]: [T y x] is the
    element in row [x] ([x < n]), column [y] ([y < R]) of the target; [F x z] the element in row [z],
    column [x] of the follower. *)
Section RL.
Variables (R n : nat) (T : nat -> nat -> oprepr) (k : nat) (T' : nat -> nat -> oprepr)
  (p : list nat) (cy : nat -> coef) (tr : nat -> nat -> coef) (kept : nat -> nat).
Variables (C : nat) (F : nat -> nat -> oprepr) (Z Zl : nat -> Prop).
Hypothesis CC : ccomp R n T k T' p cy tr kept.
Hypothesis CN : forall y, y < n -> exists x, x < R /\ T x y <> [].
Hypothesis TZ : forall y, y < n -> Z y -> exists x, pure1 R (fun x => T x y) x.
Hypothesis FZ : forall y z, y < n -> z < C -> all_id (F y z) = false -> Z y.
Hypothesis FS : forall y z, y < n -> z < C -> sorted_keys 0 (F y z).
Hypothesis FP : forall z, z < C -> Zl z -> exists y, Z y /\ pure1 n (fun y => F y z) y.

Lemma rl_cy : forall o, o < n -> Z (pget p o) -> cy o = kId.
Proof.
  intros o Ho HZ. destruct (TZ _ (p_lt _ _ _ _ _ _ _ _ _ CC o Ho) HZ) as [x [Hx [Hn [Ha _]]]].
  eapply cy_id; eauto.
Qed.
Lemma rl_ok1 : ok1 n C F p cy.
Proof.
  intros o z Ho Hz. pose proof (p_lt _ _ _ _ _ _ _ _ _ CC o Ho) as Hp.
  destruct (all_id (F (pget p o) z)) eqn:E; [right; auto|left].
  rewrite rl_cy; auto. eapply FZ; eauto.
Qed.
Lemma rl_tr : forall o j, o < n -> j < k -> Z (pget p o) -> tr j o <> [] -> tr j o = kId.
Proof.
  intros o j Ho Hj HZ Ht. destruct (TZ _ (p_lt _ _ _ _ _ _ _ _ _ CC o Ho) HZ) as [x [Hx [Hn [Ha Hoth]]]].
  apply (tr_id _ _ _ _ _ _ _ _ _ CC o j Ho Hj Ht). intros y Hy Hyn.
  destruct (Nat.eq_dec y x); [subst y|exfalso; apply Hyn; apply Hoth; auto].
  apply op_coef_all_id; [apply all_id_sepd; auto|rewrite sepd_nil; auto].
Qed.
Lemma rl_ok2 : ok2 n k C F p cy tr.
Proof.
  intros j o z Hj Ho Hz Ht. pose proof (p_lt _ _ _ _ _ _ _ _ _ CC o Ho) as Hp.
  destruct (tr_id_or _ _ _ _ _ _ _ _ _ CC o j Ho Hj Ht) as [E|E]; [left; auto|].
  unfold F2. rewrite E, pm_id.
  destruct (all_id (F (pget p o) z)) eqn:Ea; [right; auto|left].
  apply rl_tr; auto. eapply FZ; eauto.
Qed.
(** Protected rows of the follower stay pure. *)
Lemma rl_pure : forall z, z < C -> Zl z -> exists j, pure1 k (fun j => Fnew n F p cy tr j z) j.
Proof.
  intros z Hz HZ. destruct (FP z Hz HZ) as [y [Hy [Hyn [Hn [Ha Hoth]]]]].
  destruct (p_surj _ _ _ _ _ _ _ _ _ CC y Hyn) as [o [Ho Hp]]. rewrite <- Hp in *.
  destruct (TZ _ Hyn Hy) as [x [Hx [Hxn [Hxa Hxo]]]].
  assert (P1 : pure1 R (fun x => sepd (cy o) (T x (pget p o))) x).
  { split; auto. split; [rewrite sepd_nil; auto|]. split; [apply all_id_sepd; auto|].
    intros. apply sepd_nil. auto. }
  destruct (pure_unique _ _ _ _ _ _ _ _ _ CC CN o x Ho P1) as [j0 [Hj0 [Ht [_ Hun]]]].
  assert (HF : forall j, j < k -> Fnew n F p cy tr j z = pm (tr j o) (F (pget p o) z)).
  { intros j Hj. rewrite (F'_col_single _ _ _ _ _ _ _ _ _ CC F z o Ho); auto.
    unfold F2. rewrite rl_cy by auto. reflexivity. }
  exists j0. split; auto. rewrite HF, Ht, pm_id by auto. split; auto. split; auto.
  intros j Hj Hne. rewrite HF, (Hun j) by auto. reflexivity.
Qed.
End RL.
