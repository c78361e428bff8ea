(** Facts about FiniteMPS: canonicalisation reaches the asked gauge, preserves the state and keeps the flags true. *)
From Coq Require Import List Arith Lia Bool ZArith Ring.
From Verif Require Import Base CoefOpAlg Numeric FiniteMps FmpsSpec.
Import ListNotations.

Section Facts.
Variables (R : Type) (r0 r1 : R) (radd rmul rsub : R -> R -> R) (ropp : R -> R).
Variable Rth : ring_theory r0 r1 radd rmul rsub ropp (@eq R).
Add Ring Rfm : Rth.
Variable conj : R -> R.
Infix "*r" := rmul (at level 40).
Infix "+r" := radd (at level 50).
Notation ten := (ten R).
Notation sumn := (sumn R r0 radd).
Notation mps_from := (mps_from R r0 r1 radd rmul).
Notation linked := (linked R).
Notation left_canonical := (left_canonical R r0 r1 radd rmul conj).
Notation right_canonical := (right_canonical R r0 r1 radd rmul conj).
Notation truthful := (truthful R r0 r1 radd rmul conj).
Notation holds := (holds R).
Variable qr : ten -> ten * mat2 R.
Variable svd1 : ten -> mat2 R * ten * list R.
Variable normalize : ten -> ten.
Hypothesis QR : qr_exact R r0 r1 radd rmul conj qr.
Hypothesis SVD : svd_exact R r0 r1 radd rmul conj svd1.
Notation lcan_ten := (lcan_ten R r0 radd rmul qr).
Notation rcan_ten := (rcan_ten R r0 radd rmul qr svd1).
Notation left_cano := (left_cano R r0 radd rmul qr).
Notation right_cano := (right_cano R r0 radd rmul qr svd1).
Notation centralize := (centralize R r0 radd rmul qr svd1).
Notation reverse := (reverse R).
Notation transpose := (transpose R).

Lemma sumn_ext : forall n f g, (forall i, i < n -> f i = g i) -> sumn n f = sumn n g.
Proof. induction n; intros f g H; simpl; auto. rewrite H, (IHn f g); auto. Qed.
Lemma sumn_mul_l : forall n c f, c *r sumn n f = sumn n (fun i => c *r f i).
Proof. induction n; intros; simpl; [ring|]. rewrite <- IHn. ring. Qed.
Lemma sumn_mul_r : forall n c f, sumn n f *r c = sumn n (fun i => f i *r c).
Proof. induction n; intros; simpl; [ring|]. rewrite <- IHn. ring. Qed.
Lemma sumn_add : forall n f g, sumn n (fun i => f i +r g i) = sumn n f +r sumn n g.
Proof. induction n; intros; simpl; [ring|]. rewrite IHn. ring. Qed.
Lemma sumn_0 : forall n f, (forall i, i < n -> f i = r0) -> sumn n f = r0.
Proof. induction n; intros f H; simpl; auto. rewrite H, IHn; auto. ring. Qed.
Lemma sumn_swap : forall n m (f : nat -> nat -> R),
  sumn n (fun i => sumn m (fun j => f i j)) = sumn m (fun j => sumn n (fun i => f i j)).
Proof.
  induction n; intros; simpl; [symmetry; apply sumn_0; auto|]. rewrite IHn, sumn_add. reflexivity.
Qed.
Lemma sumn_one : forall n k f, k < n -> (forall i, i < n -> i <> k -> f i = r0) -> sumn n f = f k.
Proof.
  induction n; intros k f Hk H; [lia|]. simpl. destruct (Nat.eq_dec k n).
  - subst k. rewrite sumn_0; [ring|]. intros. apply H; lia.
  - rewrite (H n) by lia. rewrite (IHn k); auto; [ring|lia].
Qed.

(** *** amplitudes *)
Lemma linked_app : forall l a l' b, linked a (l ++ l') b <-> exists c, linked a l c /\ linked c l' b.
Proof.
  induction l as [|m t IH]; intros a l' b; simpl.
  - split; [intros; exists a; auto|intros [c [-> H]]; auto].
  - split.
    + intros [H1 H2]. apply IH in H2. destruct H2 as [c [H2 H3]]. exists c. auto.
    + intros [c [[H1 H2] H3]]. split; auto. apply IH. eauto.
Qed.
Lemma mps_app_ext : forall l k a c r r' s y, linked a l c ->
  (forall x, x < c -> mps_from (k + length l) r s x y = mps_from (k + length l) r' s x y) ->
  forall x, x < a -> mps_from k (l ++ r) s x y = mps_from k (l ++ r') s x y.
Proof.
  induction l as [|m t IH]; intros k a c r r' s y Hc H x Hx; simpl in *.
  - subst c. rewrite Nat.add_0_r in H. auto.
  - destruct Hc as [H1 H2]. apply sumn_ext. intros z Hz. f_equal.
    apply (IH (S k) (d2 m) c); auto. intros. replace (S k + length t) with (k + S (length t)) by lia. auto.
Qed.
Lemma mps_two : forall k a b r s x y, mps_from k (a :: b :: r) s x y =
  sumn (d2 b) (fun w => sumn (d2 a) (fun z => el a x (s k) z *r el b z (s (S k)) w) *r mps_from (S (S k)) r s w y).
Proof.
  intros. simpl.
  transitivity (sumn (d2 a) (fun z => sumn (d2 b) (fun w =>
    el a x (s k) z *r (el b z (s (S k)) w *r mps_from (S (S k)) r s w y)))).
  - apply sumn_ext. intros. apply sumn_mul_l.
  - rewrite sumn_swap. apply sumn_ext. intros w Hw. rewrite sumn_mul_r. apply sumn_ext. intros. ring.
Qed.
(** two neighbours replaced by two others with the same product *)
Lemma mps_replace : forall l a b a' b' r x0 y0 s, linked x0 (l ++ a :: b :: r) y0 -> d2 b' = d2 b ->
  (forall x w, x < d0 a -> w < d2 b ->
    sumn (d2 a') (fun z => el a' x (s (length l)) z *r el b' z (s (S (length l))) w) =
    sumn (d2 a) (fun z => el a x (s (length l)) z *r el b z (s (S (length l))) w)) ->
  forall x y, x < x0 -> mps_from 0 (l ++ a' :: b' :: r) s x y = mps_from 0 (l ++ a :: b :: r) s x y.
Proof.
  intros l a b a' b' r x0 y0 s HL Hd H x y Hx. apply linked_app in HL. destruct HL as [c [L1 [L2 [L3 L4]]]].
  eapply mps_app_ext; eauto. intros z Hz. simpl Nat.add. rewrite !mps_two, Hd. apply sumn_ext. intros w Hw. f_equal. apply H; [lia|auto].
Qed.

(** *** state handling *)
Lemma nth_map : forall A B (f : A -> B) l i, nth_error (map f l) i = option_map f (nth_error l i).
Proof. intros. apply nth_error_map. Qed.
Lemma upd_app : forall A (l : list A) x y r, upd (l ++ x :: r) (length l) y = l ++ y :: r.
Proof. induction l; intros; simpl; auto. f_equal. auto. Qed.
Lemma upd_app1 : forall A (l : list A) x x' y r, upd (l ++ x :: x' :: r) (length l + 1) y = l ++ x :: y :: r.
Proof. induction l; intros; simpl; auto. f_equal. auto. Qed.
Lemma nth_mid : forall A (l : list A) x r, nth_error (l ++ x :: r) (length l) = Some x.
Proof. intros. rewrite nth_error_app2, Nat.sub_diag; auto. Qed.
Lemma nth_mid1 : forall A (l : list A) x x' r, nth_error (l ++ x :: x' :: r) (length l + 1) = Some x'.
Proof. intros. rewrite nth_error_app2 by lia. replace (length l + 1 - length l) with 1 by lia. reflexivity. Qed.

Lemma touch_ok : forall i st, i < length (tens st) -> i < length (types st) ->
  touch R i st = Ok (mkFmps (tens st) (upd (types st) i NONE) (-1)%Z).
Proof.
  intros i st H1 H2. unfold touch. rewrite vset_ok by auto. cbn [bind]. destruct (vget_ok _ (tens st) i H1) as [p [E _]]. rewrite E. reflexivity.
Qed.
Lemma deref_ok : forall st i t, nth_error (tens st) i = Some (Some t) -> deref R st i = Ok t.
Proof. intros st i t H. unfold deref, vget. rewrite H. reflexivity. Qed.
Lemma put_ok : forall st i p, i < length (tens st) -> put R i p st = Ok (mkFmps (upd (tens st) i p) (types st) (center st)).
Proof. intros. unfold put. rewrite vset_ok by auto. reflexivity. Qed.
Lemma flag_ok : forall st i c, i < length (types st) -> flag R i c st = Ok (mkFmps (tens st) (upd (types st) i c) (center st)).
Proof. intros. unfold flag. rewrite vset_ok by auto. reflexivity. Qed.

Ltac stp := first [rewrite touch_ok by (simpl; rewrite ?upd_length; auto; lia)
  | rewrite put_ok by (simpl; rewrite ?upd_length; auto; lia)
  | rewrite flag_ok by (simpl; rewrite ?upd_length; auto; lia)]; cbn [bind tens types center].

Lemma lcan_ten_ok : forall dbg st l a b r, holds st (l ++ a :: b :: r) -> d2 a = d0 b ->
  exists b', lcan_ten dbg (length l) st =
    Ok (mkFmps (map Some (l ++ fst (qr a) :: b' :: r))
         (upd (upd (upd (upd (types st) (length l) NONE) (length l + 1) NONE) (length l) LEFT) (length l + 1) NONE) (-1)%Z) /\
    contract_mt R r0 radd rmul (snd (qr a)) b = Ok b'.
Proof.
  intros dbg st l a b r [HT HY] HD. pose proof (QR a) as Q. unfold FiniteMps.lcan_ten. destruct (qr a) as [q m] eqn:EQ.
  destruct Q as [Q1 [Q2 [Q3 [Q4 [Q5 Q6]]]]].
  assert (LT : length (tens st) = length l + S (S (length r))) by (rewrite HT, map_length, app_length; reflexivity).
  assert (LY : length (types st) = length l + S (S (length r))) by (rewrite HY, app_length; reflexivity).
  rewrite (proj2 (Nat.ltb_lt _ _)) by lia. assert (E0 : assert_ dbg (true || (length (tens st) =? 0)) = Ok tt) by (destruct dbg; reflexivity). rewrite E0. cbn [bind].
  stp. erewrite deref_ok by (simpl; rewrite HT, map_app; simpl; rewrite <- (map_length Some l); apply nth_mid). cbn [bind]. rewrite EQ.
  stp. stp. erewrite deref_ok.
  2:{ cbn [tens]. rewrite HT, map_app. cbn [map]. rewrite <- (map_length Some l). rewrite upd_app. apply nth_mid1. }
  cbn [bind]. assert (C : exists b', contract_mt R r0 radd rmul m b = Ok b').
  { unfold contract_mt. rewrite Q4, HD, Nat.eqb_refl. eauto. }
  destruct C as [b' C]. simpl snd. rewrite C. cbn [bind]. exists b'. split; auto. stp. stp. stp. do 2 f_equal.
  rewrite HT, !map_app. cbn [map fst]. rewrite <- (map_length Some l). rewrite upd_app, upd_app1. reflexivity.
Qed.

Lemma contract_mt_dims : forall m b b', contract_mt R r0 radd rmul m b = Ok b' -> d0 b' = n0 m /\ d1 b' = d1 b /\ d2 b' = d2 b /\
  forall a s c, el b' a s c = sumn (n1 m) (fun k => me m a k *r el b k s c).
Proof. intros m b b' H. unfold contract_mt in H. destruct (_ =? _); [|discriminate]. injection H as <-. simpl. auto. Qed.

(** the relation between the tensors before and after a canonicalisation step *)
Record same_state (x0 y0 : nat) (ts ts' : list ten) : Prop := mkSame {
  ss_len : length ts' = length ts;
  ss_link : linked x0 ts' y0;
  ss_phys : map d1 ts' = map d1 ts;
  ss_amp : forall s, config R ts s -> forall x y, x < x0 -> mps_from 0 ts' s x y = mps_from 0 ts s x y
}.
Lemma config_map : forall ts ts' s, map (@d1 R) ts' = map d1 ts -> config R ts s -> config R ts' s.
Proof.
  intros ts ts' s H C i t Ht. pose proof (nth_map _ _ (@d1 R) ts' i) as E. rewrite Ht, H, nth_map in E. simpl in E.
  destruct (nth_error ts i) eqn:Ei; simpl in E; [|discriminate]. injection E as E. rewrite <- E. apply C. auto.
Qed.
Lemma same_refl : forall x0 y0 ts, linked x0 ts y0 -> same_state x0 y0 ts ts.
Proof. intros. constructor; auto. Qed.
Lemma same_trans : forall x0 y0 a b c, same_state x0 y0 a b -> same_state x0 y0 b c -> same_state x0 y0 a c.
Proof.
  intros x0 y0 a b c [A1 A2 A3 A4] [B1 B2 B3 B4]. constructor; auto; try congruence.
  intros s C x y Hx. rewrite B4, A4; auto. eapply config_map; eauto.
Qed.

Lemma lcan_same : forall x0 y0 l a b r b', linked x0 (l ++ a :: b :: r) y0 -> contract_mt R r0 radd rmul (snd (qr a)) b = Ok b' ->
  same_state x0 y0 (l ++ a :: b :: r) (l ++ fst (qr a) :: b' :: r).
Proof.
  intros x0 y0 l a b r b' HL HC. pose proof (QR a) as Q. destruct (qr a) as [q m]. simpl fst. simpl snd in HC.
  destruct Q as [Q1 [Q2 [Q3 [Q4 [Q5 Q6]]]]]. destruct (contract_mt_dims _ _ _ HC) as [C1 [C2 [C3 C4]]].
  pose proof HL as HL'. apply linked_app in HL'. destruct HL' as [c [L1 [L2 [L3 L4]]]].
  constructor.
  - rewrite !app_length. reflexivity.
  - apply linked_app. exists c. split; auto. simpl. split; [congruence|]. split; [congruence|]. rewrite C3. auto.
  - rewrite !map_app. simpl. rewrite Q2, C2. reflexivity.
  - intros s CF x y Hx. eapply mps_replace; eauto. intros x1 w Hx1 Hw.
    assert (S1 : s (length l) < d1 a) by (apply CF; apply nth_mid).
    rewrite Q3. transitivity (sumn (n1 m) (fun k => sumn (n0 m) (fun z => el q x1 (s (length l)) z *r (me m z k *r el b k (s (S (length l))) w)))).
    + rewrite <- sumn_swap. apply sumn_ext. intros z Hz. rewrite C4, sumn_mul_l. reflexivity.
    + rewrite Q4. apply sumn_ext. intros k Hk. rewrite (Q6 x1 _ k) by auto. rewrite sumn_mul_r. apply sumn_ext. intros. ring.
Qed.

Definition rstep (use_svd : bool) (a p : ten) : res (ten * ten) :=
  if use_svd then let '(us, vt, _) := svd1 a in let! p' := contract_tm0 R r0 radd rmul p us in Ok (p', vt)
  else let (q, m) := qr (transpose a) in let! p' := contract_tm1 R r0 radd rmul p m in Ok (p', transpose q).
Definition rsing (use_svd : bool) (a : ten) : list R := if use_svd then snd (svd1 a) else [].

Lemma rstep_ok : forall u a p, d2 p = d0 a -> exists p' v, rstep u a p = Ok (p', v).
Proof.
  intros u a p H. unfold rstep. destruct u.
  - pose proof (SVD a) as Q. destruct (svd1 a) as [[us vt] s]. destruct Q as [Q1 [Q2 [Q3 [Q4 _]]]].
    unfold contract_tm0. rewrite Q4, H, Nat.eqb_refl. simpl. eauto.
  - pose proof (QR (transpose a)) as Q. destruct (qr (transpose a)) as [q m]. destruct Q as [Q1 [Q2 [Q3 [Q4 _]]]]. simpl in Q4.
    unfold contract_tm1. rewrite Q4, H, Nat.eqb_refl. simpl. eauto.
Qed.

Lemma rcan_ten_ok : forall dbg u st l p a r, holds st (l ++ p :: a :: r) -> d2 p = d0 a ->
  exists p' v, rcan_ten dbg (length l + 1) u st =
    Ok (mkFmps (map Some (l ++ p' :: v :: r))
         (upd (upd (upd (upd (types st) (length l + 1) NONE) (length l) NONE) (length l + 1) RIGHT) (length l) NONE) (-1)%Z, rsing u a) /\
    rstep u a p = Ok (p', v).
Proof.
  intros dbg u st l p a r [HT HY] HD. destruct (rstep_ok u a p HD) as [p' [v RS]]. exists p', v. split; auto.
  unfold FiniteMps.rcan_ten, rsing, rstep in *.
  assert (LT : length (tens st) = length l + S (S (length r))) by (rewrite HT, map_length, app_length; reflexivity).
  assert (LY : length (types st) = length l + S (S (length r))) by (rewrite HY, app_length; reflexivity).
  assert (E0 : assert_ dbg (0 <? length l + 1) = Ok tt) by (rewrite (proj2 (Nat.ltb_lt _ _)) by lia; destruct dbg; reflexivity). rewrite E0. cbn [bind].
  replace (length l + 1) with (S (length l)) by lia. cbv iota. stp.
  assert (DA : nth_error (tens st) (S (length l)) = Some (Some a)).
  { rewrite HT, map_app. cbn [map]. rewrite <- (map_length Some l). replace (S (length (map Some l))) with (length (map Some l) + 1) by lia. apply nth_mid1. }
  erewrite deref_ok by (cbn [tens]; exact DA). cbn [bind].
  assert (DP : forall w, nth_error (upd (tens st) (S (length l)) w) (length l) = Some (Some p)).
  { intros w. rewrite nth_error_upd_other by lia. rewrite HT, map_app. cbn [map]. rewrite <- (map_length Some l). apply nth_mid. }
  assert (FT : forall p' v, upd (upd (tens st) (S (length l)) (Some v)) (length l) (Some p') = map Some (l ++ p' :: v :: r)).
  { intros. rewrite HT, !map_app. cbn [map]. rewrite <- (map_length Some l).
    replace (S (length (map Some l))) with (length (map Some l) + 1) by lia. rewrite upd_app1, upd_app. reflexivity. }
  destruct u.
  - destruct (svd1 a) as [[us vt] s]. stp. stp. erewrite deref_ok by (cbn [tens]; apply DP). cbn [bind].
    apply bind_ok in RS. destruct RS as [p1 [RS1 RS2]]. injection RS2 as -> ->. rewrite RS1. cbn [bind]. stp. stp. stp.
    rewrite FT. reflexivity.
  - destruct (qr (transpose a)) as [q m]. stp. stp. erewrite deref_ok by (cbn [tens]; apply DP). cbn [bind].
    apply bind_ok in RS. destruct RS as [p1 [RS1 RS2]]. injection RS2 as RS2 RS3. subst p1. rewrite RS1. cbn [bind]. stp. stp. stp.
    rewrite <- RS3, FT. reflexivity.
Qed.

Lemma rstep_facts : forall u a p p' v, d2 p = d0 a -> rstep u a p = Ok (p', v) ->
  d0 p' = d0 p /\ d1 p' = d1 p /\ d2 p' = d0 v /\ d1 v = d1 a /\ d2 v = d2 a /\ right_canonical v /\
  forall x s s' w, s' < d1 a -> w < d2 a -> sumn (d2 p') (fun z => el p' x s z *r el v z s' w) = sumn (d2 p) (fun z => el p x s z *r el a z s' w).
Proof.
  intros u a p p' v HD H. unfold rstep in H. destruct u.
  - pose proof (SVD a) as Q. destruct (svd1 a) as [[us vt] s]. destruct Q as [Q1 [Q2 [Q3 [Q4 [Q5 Q6]]]]].
    apply bind_ok in H. destruct H as [p1 [H1 H2]]. injection H2 as -> ->. unfold contract_tm0 in H1. rewrite Q4, HD, Nat.eqb_refl in H1.
    injection H1 as <-. simpl. repeat (split; [auto|]). intros x s0 s' w Hs Hw.
    transitivity (sumn (d0 a) (fun k => sumn (n1 us) (fun z => el p x s0 k *r (me us k z *r el v z s' w)))).
    + rewrite <- sumn_swap. apply sumn_ext. intros z Hz. change (Numeric.nsum R r0 radd) with sumn. rewrite sumn_mul_r. apply sumn_ext. intros. ring.
    + rewrite HD. apply sumn_ext. intros k Hk. rewrite (Q6 k s' w) by auto. rewrite sumn_mul_l. reflexivity.
  - pose proof (QR (transpose a)) as Q. destruct (qr (transpose a)) as [q m]. destruct Q as [Q1 [Q2 [Q3 [Q4 [Q5 Q6]]]]].
    simpl in Q1, Q2, Q4.
    apply bind_ok in H. destruct H as [p1 [H1 H2]]. injection H2 as -> <-. unfold contract_tm1 in H1. rewrite Q4, HD, Nat.eqb_refl in H1.
    injection H1 as <-. simpl. repeat (split; [auto|]). intros x s0 s' w Hs Hw.
    transitivity (sumn (d0 a) (fun k => sumn (n0 m) (fun z => el p x s0 k *r (el q w s' z *r me m z k)))).
    + rewrite <- sumn_swap. apply sumn_ext. intros z Hz. change (Numeric.nsum R r0 radd) with sumn. rewrite sumn_mul_r. apply sumn_ext. intros. ring.
    + rewrite HD. apply sumn_ext. intros k Hk. rewrite <- sumn_mul_l. f_equal. symmetry. apply (Q6 w s' k); auto.
Qed.

Lemma rcan_same : forall u x0 y0 l p a r p' v, linked x0 (l ++ p :: a :: r) y0 -> rstep u a p = Ok (p', v) ->
  same_state x0 y0 (l ++ p :: a :: r) (l ++ p' :: v :: r).
Proof.
  intros u x0 y0 l p a r p' v HL H. pose proof HL as HL'. apply linked_app in HL'. destruct HL' as [c [L1 [L2 [L3 L4]]]].
  destruct (rstep_facts u a p p' v) as [F1 [F2 [F3 [F4 [F5 [F6 F7]]]]]]; auto. constructor.
  - rewrite !app_length. reflexivity.
  - apply linked_app. exists c. split; auto. simpl. split; [congruence|]. split; [congruence|]. rewrite F5. auto.
  - rewrite !map_app. simpl. rewrite F2, F4. reflexivity.
  - intros s CF x y Hx. eapply mps_replace; eauto. intros x1 w Hx1 Hw. apply F7; auto.
    apply CF. replace (S (length l)) with (length l + 1) by lia. apply nth_mid1.
Qed.

(** *** whole sweeps *)
Lemma split2 : forall A (ts : list A) i, S i < length ts -> exists l a b r, ts = l ++ a :: b :: r /\ length l = i.
Proof.
  intros A ts i H. exists (firstn i ts).
  destruct (skipn i ts) as [|a t] eqn:E. { pose proof (skipn_length i ts) as L. rewrite E in L. simpl in L. lia. }
  destruct t as [|b r]. { pose proof (skipn_length i ts) as L. rewrite E in L. simpl in L. lia. }
  exists a, b, r. split; [|apply firstn_length_le; lia]. rewrite <- (firstn_skipn i ts) at 1. rewrite E. reflexivity.
Qed.

Lemma lstep_full : forall dbg x0 y0 ts st i, holds st ts -> linked x0 ts y0 -> S i < length ts ->
  exists st' ts', lcan_ten dbg i st = Ok st' /\ holds st' ts' /\ same_state x0 y0 ts ts' /\
    types st' = upd (upd (upd (upd (types st) i NONE) (i + 1) NONE) i LEFT) (i + 1) NONE.
Proof.
  intros dbg x0 y0 ts st i HH HL Hi. destruct (split2 _ ts i Hi) as [l [a [b [r [E1 E2]]]]]. subst ts i.
  pose proof HL as HL'. apply linked_app in HL'. destruct HL' as [c [L1 [L2 [L3 L4]]]].
  destruct (lcan_ten_ok dbg st l a b r HH) as [b' [S1 S2]]; auto.
  eexists. exists (l ++ fst (qr a) :: b' :: r). split; [exact S1|]. split.
  - split; [reflexivity|]. cbn [types]. rewrite !upd_length. rewrite app_length. destruct HH as [_ HH]. rewrite app_length in HH. exact HH.
  - split; [|reflexivity]. apply lcan_same; auto.
Qed.
Lemma rstep_full : forall dbg u x0 y0 ts st i, holds st ts -> linked x0 ts y0 -> S i < length ts ->
  exists st' ts' sv, rcan_ten dbg (S i) u st = Ok (st', sv) /\ holds st' ts' /\ same_state x0 y0 ts ts' /\
    types st' = upd (upd (upd (upd (types st) (S i) NONE) i NONE) (S i) RIGHT) i NONE.
Proof.
  intros dbg u x0 y0 ts st i HH HL Hi. destruct (split2 _ ts i Hi) as [l [p [a [r [E1 E2]]]]]. subst ts i.
  pose proof HL as HL'. apply linked_app in HL'. destruct HL' as [c [L1 [L2 [L3 L4]]]].
  destruct (rcan_ten_ok dbg u st l p a r HH) as [p' [v [S1 S2]]]; auto.
  replace (length l + 1) with (S (length l)) in S1 by lia.
  eexists. exists (l ++ p' :: v :: r). eexists. split; [exact S1|]. split.
  - split; [reflexivity|]. cbn [types]. rewrite !upd_length. rewrite app_length. destruct HH as [_ HH]. rewrite app_length in HH. exact HH.
  - split; [|reflexivity]. eapply rcan_same; eauto.
Qed.

Lemma scan_left_spec : forall ty n i, i + n <= length ty -> 0 < n ->
  exists o, scan_left ty i n = Ok o /\
    match o with
    | None => forall j, i <= j < i + n -> nth_error ty j = Some LEFT
    | Some st => i <= st < i + n /\ forall j, i <= j < st -> nth_error ty j = Some LEFT
    end.
Proof.
  intros ty. induction n as [|n IH]; intros i H Hn; [lia|]. cbn [scan_left].
  destruct (vget_ok _ ty i ltac:(lia)) as [c [E1 E2]]. rewrite E1. cbn [bind]. destruct (is_left c) eqn:Ec; cbn [negb].
  - assert (c = LEFT) by (destruct c; auto; discriminate). subst c. destruct (Nat.eqb_spec n 0).
    + exists None. split; auto. intros j Hj. replace j with i by lia. auto.
    + destruct (IH (S i)) as [o [O1 O2]]; try lia. exists o. split; auto. destruct o as [s|].
      * destruct O2 as [O2 O3]. split; [lia|]. intros j Hj. destruct (Nat.eq_dec j i); [subst; auto|]. apply O3. lia.
      * intros j Hj. destruct (Nat.eq_dec j i); [subst; auto|]. apply O2. lia.
  - exists (Some i). split; auto. split; [lia|]. intros. lia.
Qed.
Lemma scan_right_spec : forall ty n i, i < length ty -> 0 < n -> n <= S i ->
  exists o, scan_right ty i n = Ok o /\
    match o with
    | None => forall j, i < j + n /\ j <= i -> nth_error ty j = Some RIGHT
    | Some st => (i < st + n /\ st <= i) /\ forall j, st < j <= i -> nth_error ty j = Some RIGHT
    end.
Proof.
  intros ty. induction n as [|n IH]; intros i H Hn Hs; [lia|]. cbn [scan_right].
  destruct (vget_ok _ ty i ltac:(lia)) as [c [E1 E2]]. rewrite E1. cbn [bind]. destruct (is_right c) eqn:Ec; cbn [negb].
  - assert (c = RIGHT) by (destruct c; auto; discriminate). subst c. destruct (Nat.eqb_spec n 0).
    + exists None. split; auto. intros j Hj. replace j with i by lia. auto.
    + destruct (IH (i - 1)) as [o [O1 O2]]; try lia. exists o. split; auto. destruct o as [s|].
      * destruct O2 as [O2 O3]. split; [lia|]. intros j Hj. destruct (Nat.eq_dec j i); [subst; auto|]. apply O3. lia.
      * intros j Hj. destruct (Nat.eq_dec j i); [subst; auto|]. apply O2. lia.
  - exists (Some i). split; auto. split; [lia|]. intros. lia.
Qed.

Lemma types4 : forall ty i j k c, i < length ty -> k < length ty -> i <> k ->
  nth_error (upd (upd (upd (upd ty i NONE) k NONE) i c) k NONE) j = (if j =? k then Some NONE else if j =? i then Some c else nth_error ty j).
Proof.
  intros ty i j k c Hi Hk Hik. rewrite !nth_error_upd, !upd_length. apply Nat.ltb_lt in Hi, Hk. rewrite Hi, Hk, !andb_true_r.
  rewrite (Nat.eqb_sym k j), (Nat.eqb_sym i j). destruct (j =? k); auto. destruct (j =? i); auto.
Qed.

Lemma left_cano_ok : forall dbg x0 y0 ts st stop, holds st ts -> linked x0 ts y0 -> S stop < length ts ->
  exists st' ts', left_cano dbg stop st = Ok st' /\ holds st' ts' /\ same_state x0 y0 ts ts' /\
    (forall j, j <= stop -> nth_error (types st') j = Some LEFT) /\
    (forall j, S stop < j -> nth_error (types st') j = nth_error (types st) j).
Proof.
  intros dbg x0 y0 ts st stop HH HL HS. unfold FiniteMps.left_cano.
  assert (LY : length (types st) = length ts) by apply HH.
  destruct (scan_left_spec (types st) (S stop) 0) as [o [O1 O2]]; try lia. rewrite O1. cbn [bind]. destruct o as [start|].
  - destruct O2 as [O2 O3].
    destruct (for_loop_inv _ (fun i st' => exists ts', holds st' ts' /\ same_state x0 y0 ts ts' /\
       (forall j, j < i -> nth_error (types st') j = Some LEFT) /\
       (forall j, S stop < j -> nth_error (types st') j = nth_error (types st) j))
      (lcan_ten dbg) (S stop - start) start st) as [st' [E1 [ts' [E2 [E3 [E4 E5]]]]]].
    + exists ts. split; auto. split; [apply same_refl; auto|]. split; auto. intros j Hj. apply O3. lia.
    + intros i x Hi [ts' [I1 [I2 [I3 I4]]]]. destruct (lstep_full dbg x0 y0 ts' x i) as [x' [ts2 [S1 [S2 [S3 S4]]]]]; auto.
      * apply I2.
      * rewrite (ss_len _ _ _ _ I2). lia.
      * assert (LX : length (types x) = length ts). { destruct I1 as [_ I1]. rewrite I1. apply (ss_len _ _ _ _ I2). }
        exists x'. split; auto. exists ts2. split; auto. split; [eapply same_trans; eauto|]. rewrite S4. split.
        -- intros j Hj. rewrite types4 by lia. destruct (Nat.eqb_spec j (i + 1)); [lia|]. destruct (Nat.eqb_spec j i); auto. apply I3. lia.
        -- intros j Hj. rewrite types4 by lia. destruct (Nat.eqb_spec j (i + 1)); [lia|]. destruct (Nat.eqb_spec j i); [lia|]. auto.
    + exists st', ts'. split; auto. split; auto. split; auto. split; auto. intros j Hj. apply E4. lia.
  - exists st, ts. split; auto. split; auto. split; [apply same_refl; auto|]. split; auto. intros j Hj. apply O2. lia.
Qed.

Lemma right_cano_ok : forall dbg x0 y0 ts st stop, holds st ts -> linked x0 ts y0 -> 0 < stop < length ts ->
  exists st' ts', right_cano dbg stop st = Ok st' /\ holds st' ts' /\ same_state x0 y0 ts ts' /\
    (forall j, stop <= j < length ts -> nth_error (types st') j = Some RIGHT) /\
    (forall j, S j < stop -> nth_error (types st') j = nth_error (types st) j).
Proof.
  intros dbg x0 y0 ts st stop HH HL HS. unfold FiniteMps.right_cano.
  assert (LY : length (types st) = length ts) by apply HH.
  assert (LT : length (tens st) = length ts) by (destruct HH as [-> _]; apply map_length). rewrite LT.
  destruct (Nat.leb_spec (length ts) stop); [lia|].
  destruct (scan_right_spec (types st) (length ts - stop) (length ts - 1)) as [o [O1 O2]]; try lia. rewrite O1. cbn [bind]. destruct o as [start|].
  - destruct O2 as [O2 O3].
    set (P := fun i st' => exists ts', holds st' ts' /\ same_state x0 y0 ts ts' /\
       (forall j, i <= j < length ts -> nth_error (types st') j = Some RIGHT) /\
       (forall j, S j < stop -> nth_error (types st') j = nth_error (types st) j)).
    assert (G : forall n st1, stop + n <= S start -> P (stop + n) st1 -> exists st2,
      for_each (rev (seq stop n)) (fun i st => let! (st, _) := rcan_ten dbg i false st in Ok st) st1 = Ok st2 /\ P stop st2).
    { induction n as [|n IH]; intros st1 Hn HP.
      - exists st1. rewrite Nat.add_0_r in HP. split; auto.
      - rewrite seq_S, rev_app_distr. cbn [rev app for_each]. destruct HP as [ts' [I1 [I2 [I3 I4]]]].
        destruct stop as [|sp]; [lia|].
        destruct (rstep_full dbg false x0 y0 ts' st1 (sp + n)) as [x' [ts2 [sv [S1 [S2 [S3 S4]]]]]]; auto.
        { apply I2. } { rewrite (ss_len _ _ _ _ I2). lia. }
        replace (S sp + n) with (S (sp + n)) by lia. rewrite S1. cbn [bind].
        assert (LX : length (types st1) = length ts). { destruct I1 as [_ I1]. rewrite I1. apply (ss_len _ _ _ _ I2). }
        apply IH; [lia|]. exists ts2. split; auto. split; [eapply same_trans; eauto|]. rewrite S4. split.
        + intros j Hj. rewrite types4 by lia. destruct (Nat.eqb_spec j (sp + n)); [lia|]. destruct (Nat.eqb_spec j (S (sp + n))); auto. apply I3. lia.
        + intros j Hj. rewrite types4 by lia. destruct (Nat.eqb_spec j (sp + n)); [lia|]. destruct (Nat.eqb_spec j (S (sp + n))); [lia|]. auto. }
    destruct (G (S start - stop) st) as [st2 [G1 [ts2 [G2 [G3 [G4 G5]]]]]]; [lia| |].
    + exists ts. split; auto. split; [apply same_refl; auto|]. split; auto. intros j Hj. apply O3. lia.
    + exists st2, ts2. auto.
  - exists st, ts. split; auto. split; auto. split; [apply same_refl; auto|]. split; auto. intros j Hj. apply O2. lia.
Qed.

Theorem centralize_ok : forall dbg x0 y0 ts st k, holds st ts -> linked x0 ts y0 -> k < length ts ->
  exists st' ts', centralize dbg (Z.of_nat k) st = Ok st' /\ holds st' ts' /\ same_state x0 y0 ts ts' /\
    center st' = Z.of_nat k /\
    (forall j, j < k -> nth_error (types st') j = Some LEFT) /\
    (forall j, k < j < length ts -> nth_error (types st') j = Some RIGHT).
Proof.
  intros dbg x0 y0 ts st k HH HL HK. unfold FiniteMps.centralize.
  rewrite (proj2 (Z.leb_le 0 (Z.of_nat k))) by lia. assert (E0 : assert_ dbg true = Ok tt) by (destruct dbg; reflexivity). rewrite E0. cbn [bind].
  destruct (Z.ltb_spec (Z.of_nat k) 0); [lia|]. rewrite Nat2Z.id.
  assert (G1 : exists st1 ts1, (if k =? 0 then Ok st else left_cano dbg (k - 1) st) = Ok st1 /\ holds st1 ts1 /\ same_state x0 y0 ts ts1 /\
    (forall j, j < k -> nth_error (types st1) j = Some LEFT)).
  { destruct (Nat.eqb_spec k 0).
    - exists st, ts. split; auto. split; auto. split; [apply same_refl; auto|]. intros. lia.
    - destruct (left_cano_ok dbg x0 y0 ts st (k - 1)) as [st1 [ts1 [S1 [S2 [S3 [S4 S5]]]]]]; auto; [lia|].
      exists st1, ts1. split; auto. split; auto. split; auto. intros. apply S4. lia. }
  destruct G1 as [st1 [ts1 [S1 [S2 [S3 S4]]]]]. rewrite S1. cbn [bind].
  assert (LT : length (tens st1) = length ts) by (destruct S2 as [-> _]; rewrite map_length; apply (ss_len _ _ _ _ S3)).
  rewrite LT. destruct (Nat.eqb_spec (length ts) 0); [lia|]. cbn [negb andb].
  destruct (Nat.eqb_spec k (length ts - 1)).
  - cbn [bind]. eexists. exists ts1. split; [reflexivity|]. cbn [center types]. split; [exact S2|]. split; auto. split; auto. split; auto. intros. lia.
  - destruct (right_cano_ok dbg x0 y0 ts1 st1 (k + 1)) as [st2 [ts2 [T1 [T2 [T3 [T4 T5]]]]]]; auto.
    { apply S3. } { rewrite (ss_len _ _ _ _ S3). lia. }
    rewrite T1. cbn [bind]. eexists. exists ts2. split; [reflexivity|]. cbn [center types]. split; [exact T2|]. split; [eapply same_trans; eauto|].
    split; auto. split.
    + intros j Hj. rewrite T5 by lia. auto.
    + intros j Hj. apply T4. rewrite (ss_len _ _ _ _ S3). lia.
Qed.
End Facts.
