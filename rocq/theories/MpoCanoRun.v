(** Centralize and Truncate of a FiniteMPO as whole calls. *)
From Coq Require Import List Arith Lia Bool ZArith Reals Lra Psatz Ring.
From Verif Require Import Base CoefOpAlg Numeric FiniteMps FmpsSpec FmpsFacts EffHam EffHamSpec EffHamFacts ChainSpec ChainFacts ChainOne MeasureFacts VmpsState FinMpo FinMpoSpec FinMpoFacts Cx GVec DmrgStep
  TruncMps TruncMpsSpec TruncMpsMath TruncMpsFacts MpoCano MpoCanoSpec MpoMath MpoCanoFacts.
Import ListNotations.
Local Open Scope nat_scope.

(** *** chains that are the same operator *)
Record same4 (ts ts' : list c4) : Prop := { s4_fit : fit4 cx 1 ts' 1; s4_legs : legs_same ts ts'; s4_mm : forall c, In c (configs (dims (fz ts))) -> mm (fz ts') c 0 0 = mm (fz ts) c 0 0 }.
Lemma legs_trans : forall a b c, legs_same a b -> legs_same b c -> legs_same a c.
Proof. intros a b c [H1 H2] [H3 H4]. split; congruence. Qed.
Lemma same4_refl : forall ts, fit4 cx 1 ts 1 -> same4 ts ts.
Proof. intros ts H. split; [exact H|split; reflexivity|reflexivity]. Qed.
Lemma same4_trans : forall a b c, same4 a b -> same4 b c -> same4 a c.
Proof. intros a b c [H1 H2 H3] [H4 H5 H6]. split; [exact H4|eapply legs_trans; eauto|]. intros s Hs. rewrite H6, H3; auto. rewrite (legs_dims _ _ H2). exact Hs. Qed.
Lemma same4_oper : forall ds ts ts', oper_on cx ds ts -> same4 ts ts' -> oper_on cx ds ts' /\ same_oper ds (melem ts') (melem ts).
Proof.
  intros ds ts ts' HO [H1 [H2 H3] H4]. assert (HO' : oper_on cx ds ts') by (destruct HO as [_ [A B]]; split; [exact H1|split; congruence]). split; [exact HO'|].
  intros c c' Hc Hc'. rewrite (elem_code ds ts'), (elem_code ds ts) by auto. apply H4. rewrite (oper_dims ds ts HO). apply code_in; auto.
Qed.
Lemma fit4_app : forall l r x y, fit4 cx x (l ++ r) y <-> exists d, fit4 cx x l d /\ fit4 cx d r y.
Proof.
  induction l as [|t l IH]; intros r x y; cbn [app fit4].
  - split; [intros H; exists x; auto|intros [d [-> H]]; exact H].
  - split.
    + intros [H1 H2]. apply IH in H2. destruct H2 as [d [H2 H3]]. exists d. auto.
    + intros [d [[H1 H2] H3]]. split; [exact H1|]. apply IH. exists d. auto.
Qed.
Lemma split_at : forall (ts : list c4) i n, i + n < length ts -> exists l1 l2 p r, ts = l1 ++ l2 ++ p :: r /\ length l1 = i /\ length l2 = n /\ length r = length ts - (i + n) - 1.
Proof.
  intros ts i n H. exists (firstn i ts), (firstn n (skipn i ts)). destruct (skipn n (skipn i ts)) as [|p r] eqn:E.
  - apply (f_equal (@length c4)) in E. rewrite !skipn_length in E. cbn in E. lia.
  - exists p, r. assert (X := f_equal (@length c4) E). rewrite !skipn_length in X. cbn [length] in X. rewrite <- E, !firstn_skipn, firstn_length_le, firstn_length_le by (rewrite ?skipn_length; lia). repeat split; auto. lia.
Qed.
Lemma nth_false : forall (l : list c4) i (t : c4) r, nth_error (map Some (l ++ t :: r)) i = Some (Some t) \/ i <> length l.
Proof. intros l i t r. destruct (Nat.eq_dec i (length l)) as [->|]; [left|right; auto]. rewrite map_mid, <- (map_length Some l). apply nth_mid. Qed.
Lemma nth_map_some : forall (ts : list c4) i t, nth_error ts i = Some t -> nth_error (map Some ts) i = Some (Some t).
Proof. intros. rewrite nth_error_map, H. reflexivity. Qed.

Section Cano.
Variables (qr : c4 -> c4 * cmat) (svd : c4 -> cmat * list real * c4).
Hypothesis QR : qr4_exact qr.
Hypothesis SV : svd4_exact svd.

Lemma mleft_ok : forall dbg ts st stop, holds4 cx st ts -> fit4 cx 1 ts 1 -> truthful4 st -> S stop < length ts ->
  exists st' ts', mleft_cano qr dbg stop st = Ok st' /\ holds4 cx st' ts' /\ same4 ts ts' /\ truthful4 st' /\
    (forall j, j <= stop -> nth_error (mtypes st') j = Some LEFT) /\ (forall j, S stop < j -> nth_error (mtypes st') j = nth_error (mtypes st) j).
Proof.
  intros dbg ts st stop HH HF HT HS. unfold mleft_cano. assert (LY : length (mtypes st) = length ts) by apply HH.
  destruct (scan_left_spec (mtypes st) (S stop) 0) as [o [O1 O2]]; try lia. rewrite O1. cbn [bind]. destruct o as [start|].
  - destruct O2 as [O2 O3]. destruct (split_at ts start (S stop - start) ltac:(lia)) as [l [l2 [p [r [E [L1 [L2 L3]]]]]]]. subst ts.
    apply fit4_app in HF. destruct HF as [D [F1 F2]]. replace (l2 ++ p :: r) with ((l2 ++ [p]) ++ r) in F2 by (rewrite <- app_assoc; reflexivity).
    apply fit4_app in F2. destruct F2 as [D2 [F2 F3]]. assert (D2 = m3 p). { apply fit4_app in F2. destruct F2 as [? [_ [_ X]]]. cbn in X. congruence. } subst D2.
    destruct (lloop qr QR dbg (S stop - start) l2 l p r st L2 HH D F2) as [l2' [p' [st' [A1 [A2 [A3 [A3' [A4 [A5 [A6 [A7 A8]]]]]]]]]]].
    rewrite L1 in A1, A7. exists st', (l ++ l2' ++ p' :: r). split; [exact A1|]. split; [exact A2|].
    assert (LP : legs_same (l ++ l2 ++ p :: r) (l ++ l2' ++ p' :: r)).
    { destruct A5 as [X Y]. rewrite !map_app in X, Y. cbn [map] in X, Y. split; rewrite !map_app; cbn [map]; f_equal.
      - change (m1 p' :: map (@m1 cx) r) with ([m1 p'] ++ map (@m1 cx) r). change (m1 p :: map (@m1 cx) r) with ([m1 p] ++ map (@m1 cx) r). rewrite !app_assoc. congruence.
      - change (m2 p' :: map (@m2 cx) r) with ([m2 p'] ++ map (@m2 cx) r). change (m2 p :: map (@m2 cx) r) with ([m2 p] ++ map (@m2 cx) r). rewrite !app_assoc. congruence. }
    split; [split; [|exact LP|]|].
    + apply fit4_app. exists D. split; [exact F1|]. replace (l2' ++ p' :: r) with ((l2' ++ [p']) ++ r) by (rewrite <- app_assoc; reflexivity). apply fit4_app. exists (m3 p). split; [exact A3|exact F3].
    + intros c HC. rewrite map_app in HC. rewrite map_app in HC. apply configs_in_app in HC. destruct HC as [ca [cb [-> [C1 C2]]]].
      rewrite !(map_app fuse l). assert (LC : length ca = length (fz l)) by (apply configs_len in C1; rewrite map_length in C1; exact C1).
      rewrite !(mps_mat_app (fz l) _ ca cb 1 D 0 0 (proj1 (fit4_fuse _ _ _) F1) ltac:(lia) LC). apply lsum_ext. intros z Hz. apply in_seq in Hz. f_equal. apply A6; [exact C2|lia].
    + assert (LL : length l2' = S stop - start). { apply legs_len in A5. rewrite !app_length in A5. cbn in A5. lia. }
      split.
      * intros i. destruct A2 as [B1 B2]. rewrite B1, A7.
        destruct (Nat.leb_spec start i), (Nat.ltb_spec i (start + (S stop - start))); cbn [andb].
        -- split; [intros _|discriminate]. destruct (nth_error l2' (i - start)) as [t|] eqn:Et; [|apply nth_error_None in Et; lia].
           exists t. split; [|apply (proj1 (Forall_forall _ _) A4); eapply nth_error_In; eauto]. apply nth_map_some. rewrite nth_error_app2 by lia. rewrite L1, nth_error_app1 by lia. exact Et.
        -- destruct (Nat.eqb_spec i (start + (S stop - start))) as [->|NE]; cbn [andb]; [replace (0 <? S stop - start) with true by (symmetry; apply Nat.ltb_lt; lia); split; discriminate|].
           assert (SAME : nth_error (map Some (l ++ l2' ++ p' :: r)) i = nth_error (mtens st) i).
           { rewrite (proj1 HH), !nth_error_map. f_equal. rewrite !nth_error_app2 by lia. rewrite LL, L2. replace (i - length l - (S stop - start)) with (S (i - length l - (S stop - start) - 1)) by lia. reflexivity. }
           rewrite SAME. apply HT.
        -- destruct (Nat.eqb_spec i (start + (S stop - start))); [lia|]. cbn [andb]. assert (SAME : nth_error (map Some (l ++ l2' ++ p' :: r)) i = nth_error (mtens st) i) by (rewrite (proj1 HH), !nth_error_map; f_equal; rewrite !nth_error_app1 by lia; reflexivity).
           rewrite SAME. apply HT.
        -- lia.
      * split; intros j Hj; rewrite A7.
        -- destruct (Nat.leb_spec start j), (Nat.ltb_spec j (start + (S stop - start))); cbn [andb]; auto; try lia.
           destruct (Nat.eqb_spec j (start + (S stop - start))); [lia|]. cbn [andb]. apply O3. lia.
        -- destruct (Nat.ltb_spec j (start + (S stop - start))); [lia|]. rewrite andb_false_r. destruct (Nat.eqb_spec j (start + (S stop - start))); [lia|]. reflexivity.
  - exists st, ts. split; [reflexivity|]. split; [exact HH|]. split; [apply same4_refl; exact HF|]. split; [exact HT|]. split; [|reflexivity]. intros j Hj. apply O2. lia.
Qed.

Lemma mright_ok : forall dbg ts st stop, holds4 cx st ts -> fit4 cx 1 ts 1 -> truthful4 st -> 0 < stop < length ts ->
  exists st' ts', mright_cano svd dbg stop st = Ok st' /\ holds4 cx st' ts' /\ same4 ts ts' /\ truthful4 st' /\
    (forall j, stop <= j < length ts -> nth_error (mtypes st') j = Some RIGHT) /\ (forall j, S j < stop -> nth_error (mtypes st') j = nth_error (mtypes st) j).
Proof.
  intros dbg ts st stop HH HF HT HS. unfold mright_cano. assert (LY : length (mtypes st) = length ts) by apply HH.
  assert (LT : length (mtens st) = length ts) by (rewrite (proj1 HH); apply map_length). rewrite LT. destruct (Nat.leb_spec (length ts) stop); [lia|].
  destruct (scan_right_spec (mtypes st) (length ts - stop) (length ts - 1)) as [o [O1 O2]]; try lia. rewrite O1. cbn [bind]. destruct o as [start|].
  - destruct O2 as [O2 O3]. destruct stop as [|k]; [lia|]. destruct (split_at ts k 0 ltac:(lia)) as [l [l0 [p [r [E [L1 [L2 L3]]]]]]]. destruct l0; [|discriminate]. cbn [app] in E.
    assert (RR : exists r1 r2, r = r1 ++ r2 /\ length r1 = S start - S k) by (exists (firstn (S start - S k) r), (skipn (S start - S k) r); rewrite firstn_skipn, firstn_length_le by lia; auto).
    destruct RR as [r1 [r2 [-> L4]]]. subst ts. rewrite app_length in *. cbn [length] in *. rewrite app_length in *.
    apply fit4_app in HF. destruct HF as [D [F1 [F2 F3]]].
    destruct (rloop svd SV dbg r1 l p r2 st HH F3) as [p' [r1' [m [st' [A1 [A2 [A3 [A4 [A5 [A6 [A7 [A8 A9]]]]]]]]]]]].
    rewrite L1, L4 in A1. exists st', (l ++ p' :: r1' ++ r2). split; [exact A1|]. split; [exact A2|].
    assert (LL : length r1' = length r1) by (apply legs_len in A7; cbn in A7; lia).
    assert (LP : legs_same (l ++ p :: r1 ++ r2) (l ++ p' :: r1' ++ r2)).
    { destruct A7 as [X Y]. cbn [map] in X, Y. split; rewrite !map_app; cbn [map]; rewrite !map_app; f_equal; injection X; injection Y; intros; congruence. }
    split; [split; [|exact LP|]|].
    + apply fit4_app. exists D. split; [exact F1|]. destruct A5 as [X _]. cbn [fuse d0] in X. split; [congruence|exact A3].
    + intros c HC. rewrite map_app in HC |- *. rewrite map_app. cbn [map] in HC |- *. eapply join_chain; [|exact A5|exact A6|exact HC]. cbn [fuse d0]. rewrite F2. apply fit4_fuse. exact F1.
    + rewrite L1 in A8. split.
      * intros i. destruct A2 as [B1 B2]. rewrite B1, A8. destruct (Nat.ltb_spec k i), (Nat.leb_spec i (k + length r1)); cbn [andb].
        -- split; [discriminate|intros _]. destruct (nth_error r1' (i - k - 1)) as [t|] eqn:Et; [|apply nth_error_None in Et; lia].
           exists t. split; [|apply (proj1 (Forall_forall _ _) A4); eapply nth_error_In; eauto]. apply nth_map_some. rewrite nth_error_app2 by lia. rewrite L1. replace (i - k) with (S (i - k - 1)) by lia. cbn [nth_error]. rewrite nth_error_app1 by lia. exact Et.
        -- destruct (Nat.eqb_spec i k) as [->|NE]; cbn [andb]; [lia|].
           assert (SAME : nth_error (map Some (l ++ p' :: r1' ++ r2)) i = nth_error (mtens st) i).
           { rewrite (proj1 HH), !nth_error_map. f_equal. rewrite !nth_error_app2 by lia. rewrite L1. replace (i - k) with (S (i - k - 1)) by lia. cbn [nth_error]. rewrite !nth_error_app2 by lia. rewrite LL. reflexivity. }
           rewrite SAME. apply HT.
        -- destruct (Nat.eqb_spec i k) as [->|NE]; cbn [andb]; [replace (0 <? length r1) with true by (symmetry; apply Nat.ltb_lt; lia); split; discriminate|].
           assert (SAME : nth_error (map Some (l ++ p' :: r1' ++ r2)) i = nth_error (mtens st) i) by (rewrite (proj1 HH), !nth_error_map; f_equal; rewrite !nth_error_app1 by lia; reflexivity).
           rewrite SAME. apply HT.
        -- lia.
      * split; intros j Hj; rewrite A8.
        -- destruct (Nat.ltb_spec k j); [|lia]. destruct (Nat.leb_spec j (k + length r1)); cbn [andb]; auto.
           destruct (Nat.eqb_spec j k); [lia|]. cbn [andb]. apply O3. lia.
        -- destruct (Nat.ltb_spec k j); [lia|]. destruct (Nat.eqb_spec j k); [lia|]. reflexivity.
  - exists st, ts. split; [reflexivity|]. split; [exact HH|]. split; [apply same4_refl; exact HF|]. split; [exact HT|]. split; [|reflexivity]. intros j Hj. apply O2. lia.
Qed.

Lemma mcentral_ok : forall dbg ts st k, holds4 cx st ts -> fit4 cx 1 ts 1 -> truthful4 st -> k < length ts ->
  exists st' l p r, mcentralize qr svd dbg (Z.of_nat k) st = Ok st' /\ holds4 cx st' (l ++ p :: r) /\ same4 ts (l ++ p :: r) /\ truthful4 st' /\ mcenter st' = Z.of_nat k /\
    length l = k /\ Forall left4 l /\ Forall right4 r /\
    (forall j, j < k -> nth_error (mtypes st') j = Some LEFT) /\ (forall j, k < j < length ts -> nth_error (mtypes st') j = Some RIGHT).
Proof.
  intros dbg ts st k HH HF HT HK. unfold mcentralize.
  rewrite (proj2 (Z.leb_le 0 (Z.of_nat k))) by lia. rewrite asserted by reflexivity. cbn [bind].
  destruct (Z.ltb_spec (Z.of_nat k) 0); [lia|]. rewrite Nat2Z.id.
  assert (G1 : exists st1 ts1, (if k =? 0 then Ok st else mleft_cano qr dbg (k - 1) st) = Ok st1 /\ holds4 cx st1 ts1 /\ same4 ts ts1 /\ truthful4 st1 /\ (forall j, j < k -> nth_error (mtypes st1) j = Some LEFT)).
  { destruct (Nat.eqb_spec k 0).
    - exists st, ts. split; [reflexivity|]. split; [exact HH|]. split; [apply same4_refl; exact HF|]. split; [exact HT|]. intros. lia.
    - destruct (mleft_ok dbg ts st (k - 1) HH HF HT ltac:(lia)) as [st1 [ts1 [S1 [S2 [S3 [S4 [S5 S6]]]]]]]. exists st1, ts1. do 4 (split; [assumption|]). intros. apply S5. lia. }
  destruct G1 as [st1 [ts1 [S1 [S2 [S3 [S4 S5]]]]]]. rewrite S1. cbn [bind].
  assert (L1 : length ts1 = length ts) by (apply legs_len, S3).
  assert (LT : length (mtens st1) = length ts) by (rewrite (proj1 S2), map_length; exact L1). rewrite LT.
  assert (G2 : exists st2 ts2, (if k + 1 =? length ts then Ok st1 else mright_cano svd dbg (k + 1) st1) = Ok st2 /\ holds4 cx st2 ts2 /\ same4 ts1 ts2 /\ truthful4 st2 /\
    (forall j, j < k -> nth_error (mtypes st2) j = Some LEFT) /\ (forall j, k < j < length ts -> nth_error (mtypes st2) j = Some RIGHT)).
  { destruct (Nat.eqb_spec (k + 1) (length ts)).
    - exists st1, ts1. split; [reflexivity|]. split; [exact S2|]. split; [apply same4_refl; apply S3|]. split; [exact S4|]. split; [exact S5|]. intros. lia.
    - destruct (mright_ok dbg ts1 st1 (k + 1) S2 (s4_fit _ _ S3) S4 ltac:(lia)) as [st2 [ts2 [T1 [T2 [T3 [T4 [T5 T6]]]]]]]. exists st2, ts2. do 4 (split; [assumption|]). split.
      + intros j Hj. rewrite T6 by lia. auto.
      + intros j Hj. apply T5. lia. }
  destruct G2 as [st2 [ts2 [T1 [T2 [T3 [T4 [T5 T6]]]]]]]. rewrite T1. cbn [bind].
  assert (L2 : length ts2 = length ts) by (rewrite (legs_len _ _ (s4_legs _ _ T3)); exact L1).
  destruct (split_at ts2 k 0 ltac:(lia)) as [l [l0 [p [r [E [M1 [M2 M3]]]]]]]. destruct l0; [|discriminate]. cbn [app] in E. subst ts2. rewrite app_length in L2. cbn [length] in L2.
  eexists. exists l, p, r. split; [reflexivity|]. split; [exact T2|]. split; [eapply same4_trans; eauto|]. split; [exact T4|]. split; [reflexivity|]. split; [exact M1|].
  split. { apply Forall_forall. intros t Ht. apply In_nth_error in Ht. destruct Ht as [j Hj]. assert (j < length l) by (apply nth_error_Some; congruence).
    destruct (proj1 (T4 j) (T5 j ltac:(lia))) as [t' [E1 E2]]. rewrite (proj1 T2), nth_error_map, nth_error_app1, Hj in E1 by lia. injection E1 as <-. exact E2. }
  split. { apply Forall_forall. intros t Ht. apply In_nth_error in Ht. destruct Ht as [j Hj]. assert (j < length r) by (apply nth_error_Some; congruence).
    destruct (proj2 (T4 (k + S j)) (T6 (k + S j) ltac:(lia))) as [t' [E1 E2]]. rewrite (proj1 T2), nth_error_map, nth_error_app2 in E1 by lia. replace (k + S j - length l) with (S j) in E1 by lia. cbn [nth_error] in E1. rewrite Hj in E1. injection E1 as <-. exact E2. }
  split; [exact T5|exact T6].
Qed.
End Cano.
