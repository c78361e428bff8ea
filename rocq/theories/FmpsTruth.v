(** Flags of FiniteMPS stay truthful over every history of its own operations; Reverse. *)
From Coq Require Import List Arith Lia Bool ZArith Ring.
From Verif Require Import Base CoefOpAlg Numeric FiniteMps FmpsSpec FmpsFacts.
Import ListNotations.

Lemma for_each_inv : forall X S (P : S -> Prop) (l : list X) body st st', P st ->
  (forall x s s', In x l -> P s -> body x s = Ok s' -> P s') -> for_each l body st = Ok st' -> P st'.
Proof.
  intros X S P. induction l as [|x l IH]; intros body st st' H0 H E; simpl in E; [injection E as <-; auto|].
  apply bind_ok in E. destruct E as [s1 [E1 E2]]. eapply IH; [|intros; eapply H; eauto; right; auto|exact E2]. eapply H; eauto. left; auto.
Qed.

Section Truth.
Variables (R : Type) (r0 r1 : R) (radd rmul rsub : R -> R -> R) (ropp : R -> R).
Variable Rth : ring_theory r0 r1 radd rmul rsub ropp (@eq R).
Add Ring Rft : Rth.
Variable conj : R -> R.
Infix "*r" := rmul (at level 40).
Notation ten := (ten R).
Notation sumn := (sumn R r0 radd).
Notation mps_from := (mps_from R r0 r1 radd rmul).
Notation linked := (linked R).
Notation left_canonical := (left_canonical R r0 r1 radd rmul conj).
Notation right_canonical := (right_canonical R r0 r1 radd rmul conj).
Notation truthful := (truthful R r0 r1 radd rmul conj).
Notation holds := (holds R).
Variable qr : ten -> ten * mat2 R.
Variable svd1 : ten -> mat2 R * ten * list R.
Variable normalize : ten -> ten.
Hypothesis QR : qr_exact R r0 r1 radd rmul conj qr.
Hypothesis SVD : svd_exact R r0 r1 radd rmul conj svd1.
Notation lcan_ten := (lcan_ten R r0 radd rmul qr).
Notation rcan_ten := (rcan_ten R r0 radd rmul qr svd1).
Notation left_cano := (left_cano R r0 radd rmul qr).
Notation right_cano := (right_cano R r0 radd rmul qr svd1).
Notation centralize := (centralize R r0 radd rmul qr svd1).
Notation reverse := (reverse R).
Notation transpose := (transpose R).

Lemma vset_inv : forall A (l l' : list A) i a, vset l i a = Ok l' -> i < length l /\ l' = upd l i a.
Proof. intros A l l' i a H. unfold vset in H. destruct (Nat.ltb_spec i (length l)); [|discriminate]. injection H as <-. auto. Qed.
Lemma touch_inv : forall i st st', touch R i st = Ok st' ->
  i < length (types st) /\ i < length (tens st) /\ st' = mkFmps (tens st) (upd (types st) i NONE) (-1)%Z.
Proof.
  intros i st st' H. unfold touch in H. inv_bind H. apply vset_inv in Hb. destruct Hb as [H1 ->]. inv_bind H. injection H as <-.
  split; auto. split; auto. unfold vget in Hb. destruct (nth_error (tens st) i) eqn:E; [|discriminate]. apply nth_error_Some. congruence.
Qed.
Lemma put_inv : forall i p st st', put R i p st = Ok st' -> i < length (tens st) /\ st' = mkFmps (upd (tens st) i p) (types st) (center st).
Proof. intros i p st st' H. unfold put in H. inv_bind H. apply vset_inv in Hb. destruct Hb as [H1 ->]. injection H as <-. auto. Qed.
Lemma flag_inv : forall i c st st', flag R i c st = Ok st' -> i < length (types st) /\ st' = mkFmps (tens st) (upd (types st) i c) (center st).
Proof. intros i p st st' H. unfold flag in H. inv_bind H. apply vset_inv in Hb. destruct Hb as [H1 ->]. injection H as <-. auto. Qed.

Lemma touch_true : forall i st st', truthful st -> touch R i st = Ok st' -> truthful st' /\ nth_error (types st') i = Some NONE.
Proof.
  intros i st st' HT H. apply touch_inv in H. destruct H as [H1 [H2 ->]]. cbn [types]. split; [|apply nth_error_upd_same; auto].
  intros j. cbn [types tens]. destruct (Nat.eq_dec i j).
  - subst j. rewrite nth_error_upd_same by auto. split; discriminate.
  - rewrite nth_error_upd_other by auto. apply HT.
Qed.
Lemma put_true : forall i p st st', truthful st -> nth_error (types st) i = Some NONE -> put R i p st = Ok st' ->
  truthful st' /\ nth_error (types st') i = Some NONE /\ nth_error (tens st') i = Some p.
Proof.
  intros i p st st' HT HN H. apply put_inv in H. destruct H as [H1 ->]. cbn [types tens]. split; [|split; auto; apply nth_error_upd_same; auto].
  intros j. cbn [types tens]. destruct (Nat.eq_dec i j).
  - subst j. rewrite HN. split; discriminate.
  - rewrite nth_error_upd_other by auto. apply HT.
Qed.
Lemma flag_true : forall i c st st', truthful st ->
  match c with
  | NONE => True
  | LEFT => exists t, nth_error (tens st) i = Some (Some t) /\ left_canonical t
  | RIGHT => exists t, nth_error (tens st) i = Some (Some t) /\ right_canonical t
  end -> flag R i c st = Ok st' -> truthful st'.
Proof.
  intros i c st st' HT HC H. apply flag_inv in H. destruct H as [H1 ->]. intros j. cbn [types tens]. destruct (Nat.eq_dec i j).
  - subst j. rewrite nth_error_upd_same by auto. destruct c; split; intros X; try discriminate; auto.
  - rewrite nth_error_upd_other by auto. apply HT.
Qed.
Lemma touch_keeps : forall i st st', touch R i st = Ok st' -> tens st' = tens st.
Proof. intros i st st' H. apply touch_inv in H. destruct H as [_ [_ ->]]. reflexivity. Qed.
Lemma put_keeps : forall i p st st' j, put R i p st = Ok st' -> i <> j -> nth_error (tens st') j = nth_error (tens st) j.
Proof. intros i p st st' j H N. apply put_inv in H. destruct H as [_ ->]. simpl. apply nth_error_upd_other. auto. Qed.

Lemma assign_true : forall i p st st', truthful st -> assign R i p st = Ok st' -> truthful st'.
Proof.
  intros i p st st' HT H. unfold assign in H. inv_bind H. destruct (touch_true _ _ _ HT Hb) as [T1 T2]. apply (put_true _ _ _ _ T1 T2 H).
Qed.

Lemma lcan_true : forall dbg i st st', truthful st -> lcan_ten dbg i st = Ok st' -> truthful st'.
Proof.
  intros dbg i st st' HT H. unfold FiniteMps.lcan_ten in H. inv_bind H. inv_bind H.
  destruct (touch_true _ _ _ HT Hb0) as [T1 T2]. inv_bind H. pose proof (QR a1) as Q. destruct (qr a1) as [q m].
  destruct Q as [_ [_ [_ [_ [Q _]]]]]. inv_bind H. destruct (put_true _ _ _ _ T1 T2 Hb2) as [T3 [T4 T5]].
  inv_bind H. destruct (touch_true _ _ _ T3 Hb3) as [T6 T7]. inv_bind H. inv_bind H. inv_bind H.
  destruct (put_true _ _ _ _ T6 T7 Hb6) as [T8 [T9 T10]]. inv_bind H.
  assert (TQ : nth_error (tens a6) i = Some (Some q)).
  { rewrite (put_keeps _ _ _ _ i Hb6) by lia. rewrite (touch_keeps _ _ _ Hb3). auto. }
  assert (T11 : truthful a7) by (eapply (flag_true i LEFT); [exact T8| |exact Hb7]; exists q; auto).
  eapply (flag_true (i + 1) NONE); [exact T11|exact I|exact H].
Qed.

Lemma rcan_true : forall dbg i u st st' sv, truthful st -> rcan_ten dbg i u st = Ok (st', sv) -> truthful st'.
Proof.
  intros dbg i u st st' sv HT H. unfold FiniteMps.rcan_ten in H. inv_bind H. destruct i as [|j]; [discriminate|].
  inv_bind H. destruct (touch_true _ _ _ HT Hb0) as [T1 T2]. inv_bind H. inv_bind H. destruct a2 as [st2 s2].
  assert (G : truthful st2 /\ exists v, nth_error (tens st2) (S j) = Some (Some v) /\ right_canonical v).
  { clear H. destruct u.
    - pose proof (SVD a1) as Q. destruct (svd1 a1) as [[us vt] s]. destruct Q as [_ [_ [_ [_ [Q _]]]]].
      inv_bind Hb2. destruct (put_true _ _ _ _ T1 T2 Hb3) as [T3 [T4 T5]]. inv_bind Hb2. destruct (touch_true _ _ _ T3 Hb4) as [T6 T7].
      inv_bind Hb2. inv_bind Hb2. inv_bind Hb2. destruct (put_true _ _ _ _ T6 T7 Hb7) as [T8 [T9 T10]]. injection Hb2 as <- <-.
      split; auto. exists vt. split; auto. rewrite (put_keeps _ _ _ _ (S j) Hb7) by lia. rewrite (touch_keeps _ _ _ Hb4). auto.
    - pose proof (QR (transpose a1)) as Q. destruct (qr (transpose a1)) as [q m]. destruct Q as [_ [_ [_ [_ [Q _]]]]].
      inv_bind Hb2. destruct (put_true _ _ _ _ T1 T2 Hb3) as [T3 [T4 T5]]. inv_bind Hb2. destruct (touch_true _ _ _ T3 Hb4) as [T6 T7].
      inv_bind Hb2. inv_bind Hb2. inv_bind Hb2. destruct (put_true _ _ _ _ T6 T7 Hb7) as [T8 [T9 T10]]. injection Hb2 as <- <-.
      split; auto. exists (transpose q). split; [rewrite (put_keeps _ _ _ _ (S j) Hb7) by lia; rewrite (touch_keeps _ _ _ Hb4); auto|].
      exact Q. }
  destruct G as [G1 G2]. inv_bind H. inv_bind H. injection H as <- <-.
  assert (T11 : truthful a2) by (eapply (flag_true (S j) RIGHT); [exact G1|exact G2|exact Hb3]).
  eapply (flag_true j NONE); [exact T11|exact I|exact Hb4].
Qed.

Lemma left_cano_true : forall dbg stop st st', truthful st -> left_cano dbg stop st = Ok st' -> truthful st'.
Proof.
  intros dbg stop st st' HT H. unfold FiniteMps.left_cano in H. inv_bind H. destruct a as [start|]; [|injection H as <-; auto].
  eapply (for_loop_inv_partial _ (fun _ s => truthful s)); [exact HT| |exact H]. intros. eapply lcan_true; eauto.
Qed.
Lemma right_cano_true : forall dbg stop st st', truthful st -> right_cano dbg stop st = Ok st' -> truthful st'.
Proof.
  intros dbg stop st st' HT H. unfold FiniteMps.right_cano in H. destruct (_ <=? _); [discriminate|]. inv_bind H.
  destruct a as [start|]; [|injection H as <-; auto].
  eapply (for_each_inv _ _ truthful); [exact HT| |exact H]. intros x s s' _ Hs E. inv_bind E. destruct a as [s2 sv]. injection E as <-.
  eapply rcan_true; eauto.
Qed.
Lemma centralize_true : forall dbg k st st', truthful st -> centralize dbg k st = Ok st' -> truthful st'.
Proof.
  intros dbg k st st' HT H. unfold FiniteMps.centralize in H. inv_bind H. destruct (_ <? _)%Z; [discriminate|].
  inv_bind H. assert (T1 : truthful a0) by (destruct (_ =? _) in Hb0; [injection Hb0 as <-; auto|eapply left_cano_true; eauto]).
  inv_bind H. assert (T2 : truthful a1) by (destruct (_ && _) in Hb1; [injection Hb1 as <-; auto|eapply right_cano_true; eauto]).
  injection H as <-. exact T2.
Qed.
Lemma swap_true : forall i j st st', truthful st -> swap_slots R i j st = Ok st' -> truthful st'.
Proof.
  intros i j st st' HT H. unfold swap_slots in H. inv_bind H. destruct (touch_true _ _ _ HT Hb) as [T1 T2].
  inv_bind H. destruct (touch_true _ _ _ T1 Hb0) as [T3 T4]. inv_bind H. inv_bind H. inv_bind H.
  assert (T5 : nth_error (types a0) i = Some NONE).
  { apply touch_inv in Hb0. destruct Hb0 as [X1 [X2 ->]]. cbn [types]. destruct (Nat.eq_dec i j); [subst; apply nth_error_upd_same; auto|].
    rewrite nth_error_upd_other; auto. }
  destruct (put_true _ _ _ _ T3 T5 Hb3) as [T6 [T7 T8]].
  assert (T9 : nth_error (types a3) j = Some NONE) by (apply put_inv in Hb3; destruct Hb3 as [_ ->]; auto).
  apply (put_true _ _ _ _ T6 T9 H).
Qed.
Lemma reverse_true : forall st st', truthful st -> reverse st = Ok st' -> truthful st'.
Proof.
  intros st st' HT H. unfold FiniteMps.reverse in H. set (n := length (tens st)) in *. inv_bind H.
  assert (T1 : truthful a).
  { destruct (Nat.even n) in Hb; (eapply (for_loop_inv_partial _ (fun _ s => truthful s)); [exact HT| |exact Hb]); simpl; intros; eapply swap_true; eauto. }
  inv_bind H.
  assert (T2 : truthful a0 /\ (0 < 0 + n -> center a0 = (-1)%Z)).
  { eapply (for_loop_inv_partial _ (fun i s => truthful s /\ (0 < i -> center s = (-1)%Z))); [| |exact Hb0]; [split; [exact T1|lia]|].
    intros i x y Hi [I1 I2] E. inv_bind E. destruct (touch_true _ _ _ I1 Hb1) as [T3 T4]. inv_bind E. split; [eapply put_true; eauto|].
    intros _. apply put_inv in E. destruct E as [_ ->]. apply touch_inv in Hb1. destruct Hb1 as [_ [_ ->]]. reflexivity. }
  destruct T2 as [T2 T3]. destruct (Z.eqb_spec (center a0) (-1)); [injection H as <-; auto|].
  destruct n as [|n']; [|exfalso; apply n0; apply T3; lia]. simpl in H. injection H as <-. exact T2.
Qed.
Lemma entropy_true : forall dbg st st' sv, truthful st -> entropy R r0 radd rmul qr svd1 normalize dbg st = Ok (st', sv) -> truthful st'.
Proof.
  intros dbg st st' sv HT H. unfold entropy in H. destruct (length (tens st)) as [|m]; [discriminate|]. inv_bind H.
  pose proof (centralize_true _ _ _ _ HT Hb) as T1. inv_bind H. destruct (touch_true _ _ _ T1 Hb0) as [T2 T3]. inv_bind H. inv_bind H.
  destruct (put_true _ _ _ _ T2 T3 Hb2) as [T4 _].
  change st' with (fst (st', sv)). eapply (for_each_inv _ _ (fun x => truthful (fst x))); [|  |exact H]; [exact T4|].
  intros x s s' _ Hs E. inv_bind E. destruct a3 as [s2 sv2]. injection E as <-. simpl. eapply rcan_true; eauto.
Qed.

Theorem history_true : forall dbg ops n st,
  for_each ops (mexec R r0 radd rmul qr svd1 normalize dbg) (fmps_new R n) = Ok st -> truthful st.
Proof.
  intros dbg ops n st H. eapply (for_each_inv _ _ truthful); [| |exact H].
  - intros i. unfold fmps_new. simpl. split; intros E; apply nth_error_In in E; apply repeat_spec in E; discriminate.
  - intros o s s' _ HT E. destruct o; cbn [mexec] in E.
    + eapply assign_true; eauto.
    + eapply centralize_true; eauto.
    + eapply left_cano_true; eauto.
    + eapply right_cano_true; eauto.
    + eapply lcan_true; eauto.
    + inv_bind E. destruct a as [s2 sv]. injection E as <-. eapply rcan_true; eauto.
    + eapply reverse_true; eauto.
    + inv_bind E. destruct a as [s2 sv]. injection E as <-. eapply entropy_true; eauto.
Qed.

(** *** Reverse *)
Lemma upd_nth_spec : forall A (l : list A) i a j, i < length l -> nth_error (upd l i a) j = if j =? i then Some a else nth_error l j.
Proof. intros A l i a j H. rewrite nth_error_upd. apply Nat.ltb_lt in H. rewrite H, andb_true_r, (Nat.eqb_sym i j). reflexivity. Qed.

Lemma swap_loop : forall m st, (forall i, i < m -> i < length (tens st) - 1 - i) -> length (types st) = length (tens st) ->
  exists st', for_loop 0 m (fun i => swap_slots R i (length (tens st) - 1 - i)) st = Ok st' /\ length (types st') = length (tens st) /\
    length (tens st') = length (tens st) /\
    (0 < m -> center st' = (-1)%Z) /\
    (forall j, j < length (tens st) -> nth_error (tens st') j =
      if (j <? m) || (length (tens st) - 1 - m <? j) then nth_error (tens st) (length (tens st) - 1 - j) else nth_error (tens st) j).
Proof.
  intros m st Hm HL. set (N := length (tens st)) in *.
  destruct (for_loop_inv _ (fun i s => length (types s) = N /\ length (tens s) = N /\ (0 < i -> center s = (-1)%Z) /\
    (forall j, j < N -> nth_error (tens s) j = if (j <? i) || (N - 1 - i <? j) then nth_error (tens st) (N - 1 - j) else nth_error (tens st) j))
    (fun i => swap_slots R i (N - 1 - i)) m 0 st) as [st' [E1 E2]].
  - split; auto. split; auto. split; [lia|]. intros j Hj. destruct (Nat.ltb_spec (N - 1 - 0) j); [lia|]. reflexivity.
  - intros i s Hi [I1 [I2 [I3 I4]]]. specialize (Hm i ltac:(lia)). unfold swap_slots.
    rewrite touch_ok by lia. cbn [bind]. rewrite touch_ok by (simpl; rewrite ?upd_length; lia). cbn [bind tens].
    destruct (vget_ok _ (tens s) i ltac:(lia)) as [a [A1 A2]]. destruct (vget_ok _ (tens s) (N - 1 - i) ltac:(lia)) as [b [B1 B2]].
    rewrite A1, B1. cbn [bind]. rewrite put_ok by (simpl; lia). cbn [bind tens]. rewrite put_ok by (simpl; rewrite upd_length; lia). cbn [bind tens types center].
    eexists. split; [reflexivity|]. cbn [types tens center]. rewrite !upd_length. split; auto. split; auto. split; auto.
    intros j Hj. rewrite upd_nth_spec by (rewrite upd_length; lia). rewrite upd_nth_spec by lia.
    rewrite I4 in A2 by lia. rewrite I4 in B2 by lia.
    destruct (Nat.ltb_spec i i); [lia|]. destruct (Nat.ltb_spec (N - 1 - i) i); [lia|].
    destruct (Nat.ltb_spec (N - 1 - i) (N - 1 - i)); [lia|]. destruct (Nat.ltb_spec (N - 1 - i) i); [lia|]. simpl in A2, B2.
    destruct (Nat.eqb_spec j (N - 1 - i)).
    + subst j. rewrite <- A2. replace (N - 1 - (N - 1 - i)) with i by lia.
      destruct (Nat.ltb_spec (N - 1 - S i) (N - 1 - i)); [|lia]. rewrite orb_true_r. reflexivity.
    + destruct (Nat.eqb_spec j i).
      * subst j. rewrite <- B2. destruct (Nat.ltb_spec i (S i)); [|lia]. reflexivity.
      * rewrite I4 by auto. destruct (Nat.ltb_spec j i), (Nat.ltb_spec j (S i)), (Nat.ltb_spec (N - 1 - i) j), (Nat.ltb_spec (N - 1 - S i) j); auto; lia.
  - exists st'. split; auto.
Qed.

Lemma nth_error_rev : forall A (l : list A) j, j < length l -> nth_error (rev l) j = nth_error l (length l - 1 - j).
Proof.
  intros A l j H. destruct l as [|d l']; [simpl in H; lia|]. set (l := d :: l') in *.
  rewrite (nth_error_nth' _ d) by (rewrite rev_length; auto). rewrite rev_nth by auto.
  rewrite (nth_error_nth' _ d) by lia. do 2 f_equal. lia.
Qed.

Theorem reverse_ok : forall st ts, holds st ts -> ts <> [] -> exists st',
  reverse st = Ok st' /\ tens st' = map Some (rev (map transpose ts)) /\ types st' = repeat NONE (length ts) /\ center st' = (-1)%Z.
Proof.
  intros st ts [HT HY] HN. unfold FiniteMps.reverse.
  assert (LN : length (tens st) = length ts) by (rewrite HT; apply map_length). set (N := length (tens st)) in *.
  assert (NP : 0 < N) by (rewrite LN; destruct ts; [congruence|simpl; lia]).
  set (m := if Nat.even N then N / 2 else (N - 1) / 2).
  assert (Hm : 2 * m = N \/ 2 * m + 1 = N).
  { unfold m. destruct (Nat.even N) eqn:EV.
    - apply Nat.even_spec in EV. destruct EV as [q EV]. rewrite EV. replace (2 * q) with (q * 2) by lia. rewrite Nat.div_mul by lia. lia.
    - assert (OD : Nat.odd N = true) by (unfold Nat.odd; rewrite EV; auto). apply Nat.odd_spec in OD. destruct OD as [q OD]. rewrite OD.
      replace (2 * q + 1 - 1) with (q * 2) by lia. rewrite Nat.div_mul by lia. lia. }
  destruct (swap_loop m st) as [s1 [A1 [A2 [A3 [A4 A5]]]]]; [fold N; lia|fold N; congruence|]. fold N in A1, A2, A3, A5.
  assert (E1 : (if Nat.even N then for_loop 0 (N / 2) (fun i => swap_slots R i (N - 1 - i)) st
              else for_loop 0 ((N - 1) / 2) (fun i => swap_slots R i (N - 1 - i)) st) = Ok s1).
  { unfold m in A1. destruct (Nat.even N); auto. }
  rewrite E1. cbn [bind].
  assert (RV : forall j, j < N -> nth_error (tens s1) j = nth_error (map Some (rev ts)) j).
  { intros j Hj. rewrite A5 by auto. rewrite map_rev, nth_error_rev by (rewrite map_length; lia). rewrite map_length, <- LN, <- HT.
    destruct (Nat.ltb_spec j m); auto. destruct (Nat.ltb_spec (N - 1 - m) j); auto. simpl. f_equal. lia. }
  destruct (for_loop_inv _ (fun i s => length (types s) = N /\ length (tens s) = N /\ (0 < i -> center s = (-1)%Z) /\
    (forall j, j < i -> nth_error (types s) j = Some NONE) /\
    (forall j, j < N -> nth_error (tens s) j = if j <? i then nth_error (map Some (rev (map transpose ts))) j else nth_error (map Some (rev ts)) j))
    (fun i st => let! st := touch R i st in let! t := deref R st i in put R i (Some (transpose t)) st) N 0 s1) as [s2 [B1 [B2 [B3 [B4 [B5 B6]]]]]].
  - split; auto. split; auto. split; [lia|]. split; [intros; lia|]. intros j Hj. apply RV. auto.
  - intros i s Hi [I1 [I2 [I3 [I4 I5]]]]. rewrite touch_ok by lia. cbn [bind].
    assert (X : exists t, nth_error (rev ts) i = Some t).
    { destruct (nth_error (rev ts) i) eqn:E; eauto. apply nth_error_None in E. rewrite rev_length in E. lia. }
    destruct X as [t X]. erewrite (deref_ok R _ i t).
    2:{ cbn [tens]. rewrite I5 by lia. destruct (Nat.ltb_spec i i); [lia|]. rewrite nth_error_map, X. reflexivity. }
    cbn [bind]. rewrite put_ok by (simpl; lia). eexists. split; [reflexivity|]. cbn [tens types center]. rewrite !upd_length.
    split; auto. split; auto. split; auto. split.
    + intros j Hj. rewrite upd_nth_spec by lia. destruct (Nat.eqb_spec j i); auto. apply I4. lia.
    + intros j Hj. rewrite upd_nth_spec by lia. destruct (Nat.eqb_spec j i).
      * subst j. destruct (Nat.ltb_spec i (S i)); [|lia]. rewrite <- map_rev, !nth_error_map, X. reflexivity.
      * rewrite I5 by auto. destruct (Nat.ltb_spec j i), (Nat.ltb_spec j (S i)); auto; lia.
  - rewrite B1. cbn [bind]. rewrite (B4 NP). rewrite Z.eqb_refl. exists s2. split; auto.
    simpl Nat.add in *. split; [|split; [|apply B4; auto]].
    + apply nth_error_ext. intros j. destruct (Nat.lt_ge_cases j N).
      * rewrite B6 by auto. destruct (Nat.ltb_spec j N); [auto|lia].
      * rewrite !(proj2 (nth_error_None _ _)); auto; rewrite ?map_length, ?rev_length, ?map_length; lia.
    + apply nth_error_ext. intros j. destruct (Nat.lt_ge_cases j N).
      * rewrite B5 by auto. symmetry. rewrite (nth_error_nth' _ NONE) by (rewrite repeat_length; lia). rewrite nth_repeat. reflexivity.
      * rewrite !(proj2 (nth_error_None _ _)); auto; rewrite ?repeat_length; lia.
Qed.

(** amplitude of the reversed chain *)
Lemma mps_snoc : forall l k a t b s x y, linked a (l ++ [t]) b -> x < a -> y < b ->
  mps_from k (l ++ [t]) s x y = sumn (d0 t) (fun z => mps_from k l s x z *r el t z (s (k + length l)) y).
Proof.
  induction l as [|u l IH]; intros k a t b s x y HL Hx Hy.
  - simpl in *. destruct HL as [H1 H2]. rewrite Nat.add_0_r.
    rewrite (sumn_one R r0 r1 radd rmul rsub ropp Rth (d2 t) y) by first [lia | intros i Hi Hn; destruct (Nat.eqb_spec i y); [lia|ring]].
    rewrite Nat.eqb_refl. rewrite (sumn_one R r0 r1 radd rmul rsub ropp Rth (d0 t) x) by first [lia | intros i Hi Hn; destruct (Nat.eqb_spec x i); [lia|ring]].
    rewrite Nat.eqb_refl. ring.
  - simpl in HL. destruct HL as [H1 H2]. simpl.
    transitivity (sumn (d2 u) (fun z => sumn (d0 t) (fun z0 => el u x (s k) z *r (mps_from (S k) l s z z0 *r el t z0 (s (S k + length l)) y)))).
    + apply (sumn_ext R r0 radd). intros z Hz. rewrite (IH (S k) (d2 u) t b) by auto. apply (sumn_mul_l R r0 r1 radd rmul rsub ropp Rth).
    + rewrite (sumn_swap R r0 r1 radd rmul rsub ropp Rth). apply (sumn_ext R r0 radd). intros z0 Hz0. rewrite (sumn_mul_r R r0 r1 radd rmul rsub ropp Rth). replace (k + S (length l)) with (S k + length l) by lia.
      apply (sumn_ext R r0 radd). intros. ring.
Qed.
Lemma mps_cfg_ext : forall l k k' s s' x y, (forall i, i < length l -> s (k + i) = s' (k' + i)) -> mps_from k l s x y = mps_from k' l s' x y.
Proof.
  induction l as [|t l IH]; intros k k' s s' x y H; simpl; auto.
  assert (E : s k = s' k') by (specialize (H 0 ltac:(simpl; lia)); rewrite !Nat.add_0_r in H; exact H). rewrite E.
  apply (sumn_ext R r0 radd). intros z Hz. f_equal. apply IH. intros i Hi. specialize (H (S i) ltac:(simpl; lia)).
  rewrite <- !plus_n_Sm in H. exact H.
Qed.
Lemma linked_rev : forall ts a b, linked a ts b -> linked b (rev (map transpose ts)) a.
Proof.
  induction ts as [|t ts IH]; intros a b H; simpl in *; auto. destruct H as [H1 H2].
  apply (linked_app R). exists (d2 t). split; auto. simpl. auto.
Qed.
Theorem reverse_amp : forall ts a b s x y, linked a ts b -> x < a -> y < b ->
  mps_from 0 (rev (map transpose ts)) s y x = mps_from 0 ts (fun i => s (length ts - 1 - i)) x y.
Proof.
  induction ts as [|t ts IH]; intros a b s x y HL Hx Hy.
  - simpl. rewrite Nat.eqb_sym. reflexivity.
  - cbn [map rev]. pose proof HL as HL0. apply linked_rev in HL0. cbn [map rev] in HL0. simpl in HL. destruct HL as [H1 H2].
    rewrite (mps_snoc _ _ b _ a) by auto. simpl. change (d0 (transpose t)) with (d2 t). rewrite rev_length, map_length. rewrite Nat.sub_0_r.
    apply (sumn_ext R r0 radd). intros z Hz. rewrite (IH (d2 t) b) by auto.
    assert (E : mps_from 0 ts (fun i => s (length ts - 1 - i)) z y = mps_from 1 ts (fun i => s (length ts - i)) z y).
    { apply mps_cfg_ext. intros i Hi. f_equal. lia. }
    rewrite E. replace (length ts - 0) with (length ts) by lia. ring.
Qed.
Lemma transpose2 : forall t, transpose (transpose t) = t.
Proof. intros [a b c e]. reflexivity. Qed.
Lemma reverse_twice_list : forall ts, rev (map transpose (rev (map transpose ts))) = ts.
Proof. intros. rewrite map_rev, rev_involutive, map_map. rewrite <- (map_id ts) at 2. apply map_ext. apply transpose2. Qed.
End Truth.
