(** Canonicalising a FiniteMPO: the loops keep the operator and reach the canonical form. *)
From Coq Require Import List Arith Lia Bool ZArith Reals Lra Ring.
From Verif Require Import Base CoefOpAlg Numeric FiniteMps FmpsSpec FmpsFacts EffHam EffHamSpec EffHamFacts ChainSpec ChainFacts ChainOne MeasureFacts FinMpo FinMpoSpec FinMpoFacts Cx GVec DmrgStep
  TruncMps TruncMpsSpec TruncMpsMath TruncMpsFacts MpoCano MpoCanoSpec MpoMath.
Import ListNotations.
Local Open Scope nat_scope.

(** *** accesses *)
Lemma mtouch_ok : forall i (st : cmpo), i < length (mtens st) -> i < length (mtypes st) -> mtouch cx i st = Ok (mkFmpo (mtens st) (upd (mtypes st) i NONE) (-1)%Z).
Proof. intros i st H1 H2. unfold mtouch. rewrite vset_ok by auto. cbn [bind]. destruct (vget_ok _ (mtens st) i H1) as [x [E _]]. rewrite E. reflexivity. Qed.
Lemma mput_ok : forall i p (st : cmpo), i < length (mtens st) -> mput cx i p st = Ok (mkFmpo (upd (mtens st) i p) (mtypes st) (mcenter st)).
Proof. intros. unfold mput. rewrite vset_ok by auto. reflexivity. Qed.
Lemma mflag_ok : forall i c (st : cmpo), i < length (mtypes st) -> mflag i c st = Ok (mkFmpo (mtens st) (upd (mtypes st) i c) (mcenter st)).
Proof. intros. unfold mflag. rewrite vset_ok by auto. reflexivity. Qed.
Lemma mderef_ok : forall (st : cmpo) i t, nth_error (mtens st) i = Some (Some t) -> mderef cx st i = Ok t.
Proof. intros st i t H. unfold mderef, vget. rewrite H. reflexivity. Qed.
Lemma map_mid : forall (l : list c4) a r, map Some (l ++ a :: r) = map Some l ++ Some a :: map Some r.
Proof. intros. rewrite map_app. reflexivity. Qed.
Ltac sm := first [rewrite mtouch_ok by (cbn [mtens mtypes]; rewrite ?upd_length; lia) | rewrite mput_ok by (cbn [mtens mtypes]; rewrite ?upd_length; lia)
  | rewrite mflag_ok by (cbn [mtens mtypes]; rewrite ?upd_length; lia)]; cbn [bind mtens mtypes mcenter].
Lemma asserted : forall dbg b, b = true -> assert_ dbg b = Ok tt.
Proof. intros [] b ->; reflexivity. Qed.

(** what follows the SVD of tensor |l| + 1 *)
Lemma absorb_ok : forall l p a r ty z u s vt, length ty = length (l ++ p :: a :: r) -> n1 u = length s -> m3 p = n0 u ->
  exists us p', contract_us u s = Ok us /\ contract_4m p us = Ok p' /\ n0 us = n0 u /\ n1 us = length s /\ (forall x k, me us x k = cmul (me u x k) (cre (nth k s 0%R))) /\
    exists ty', absorb (S (length l)) (length l) u s vt (mkFmpo (map Some (l ++ p :: a :: r)) ty z) = Ok (mkFmpo (map Some (l ++ p' :: vt :: r)) ty' (-1)%Z) /\ length ty' = length ty /\
      forall k, nth_error ty' k = if k =? length l then Some NONE else if k =? S (length l) then Some RIGHT else nth_error ty k.
Proof.
  intros l p a r ty z u s vt HY HU HP.
  assert (L1 : length (map Some (l ++ p :: a :: r)) = length l + S (S (length r))) by (rewrite map_length, app_length; reflexivity).
  assert (L2 : length ty = length l + S (S (length r))) by (rewrite HY, app_length; reflexivity).
  assert (C : exists us, contract_us u s = Ok us /\ n0 us = n0 u /\ n1 us = length s /\ forall x k, me us x k = cmul (me u x k) (cre (nth k s 0%R))).
  { unfold contract_us. rewrite HU, Nat.eqb_refl. eexists. split; [reflexivity|]. cbn. auto. }
  destruct C as [us [C1 [C2 [C3 C4]]]].
  assert (P : exists p', contract_4m p us = Ok p') by (unfold contract_4m; rewrite C2, HP, Nat.eqb_refl; eauto). destruct P as [p' P].
  exists us, p'. do 5 (split; [assumption|]). eexists. unfold absorb. sm. rewrite C1. cbn [bind]. sm.
  erewrite mderef_ok. 2:{ cbn [mtens]. rewrite map_mid. cbn [map]. rewrite <- (Nat.add_1_r (length l)), <- (map_length Some l), upd_app1. apply nth_mid. }
  cbn [bind]. rewrite P. cbn [bind]. sm. sm. sm. split.
  { f_equal. f_equal. rewrite !map_mid. cbn [map]. rewrite <- (Nat.add_1_r (length l)), <- (map_length Some l), upd_app1, upd_app. reflexivity. }
  split; [rewrite !upd_length; reflexivity|]. intros k. rewrite !nth_error_upd, !upd_length.
  rewrite (proj2 (Nat.ltb_lt (length l) (length ty)) ltac:(lia)), (proj2 (Nat.ltb_lt (S (length l)) (length ty)) ltac:(lia)), !andb_true_r, (Nat.eqb_sym (length l) k), (Nat.eqb_sym (S (length l)) k).
  destruct (Nat.eqb_spec k (length l)); [reflexivity|]. destruct (Nat.eqb_spec k (S (length l))); reflexivity.
Qed.

Section Loops.
Variables (qr : c4 -> c4 * cmat) (svd : c4 -> cmat * list real * c4).
Hypothesis QR : qr4_exact qr.
Hypothesis SV : svd4_exact svd.

Definition legs_same (a b : list c4) : Prop := map (@m1 cx) b = map (@m1 cx) a /\ map (@m2 cx) b = map (@m2 cx) a.
Lemma legs_dims : forall a b, legs_same a b -> dims (fz b) = dims (fz a).
Proof.
  induction a as [|x a IH]; intros [|y b] [H1 H2]; try discriminate; [reflexivity|]. cbn [map] in *. injection H1 as A1 A2. injection H2 as B1 B2. cbn [fuse d1]. rewrite A1, B1. f_equal. apply IH. split; auto.
Qed.
Lemma legs_len : forall a b, legs_same a b -> length b = length a.
Proof. intros a b [H _]. apply (f_equal (@length nat)) in H. rewrite !map_length in H. exact H. Qed.

(** one step to the left *)
Lemma rstep_ok : forall dbg l p a r st, holds4 cx st (l ++ p :: a :: r) -> m3 p = m0 a ->
  exists p' vt m n st', mrcan_ten svd dbg (S (length l)) st = Ok st' /\ holds4 cx st' (l ++ p' :: vt :: r) /\ mcenter st' = (-1)%Z /\
    times (fuse p) (fuse p') m n /\ m0 vt = n /\ m3 vt = m3 a /\ legs_same [p; a] [p'; vt] /\ right4 vt /\
    (forall c x y, In c (configs (dims (fz (a :: r)))) -> x < m0 a -> mm (fz (a :: r)) c x y = lsum (seq 0 n) (fun k => cmul (m x k) (mm (fz (vt :: r)) c k y))) /\
    (forall k, nth_error (mtypes st') k = if k =? length l then Some NONE else if k =? S (length l) then Some RIGHT else nth_error (mtypes st) k).
Proof.
  intros dbg l p a r [T ty z] [HT HY] HP. cbn [mtens mtypes] in *. subst T. unfold mrcan_ten. rewrite asserted by reflexivity. cbn [bind].
  assert (L1 : length (map Some (l ++ p :: a :: r)) = length l + S (S (length r))) by (rewrite map_length, app_length; reflexivity).
  assert (L2 : length ty = length l + S (S (length r))) by (rewrite HY, app_length; reflexivity).
  sm. erewrite mderef_ok. 2:{ cbn [mtens]. rewrite map_mid. cbn [map]. rewrite <- (Nat.add_1_r (length l)), <- (map_length Some l). apply nth_mid1. } cbn [bind].
  pose proof (SV a) as V. destruct (svd a) as [[u s] vt]. destruct V as [V1 [V2 [V3 [V4 [V5 [V6 [V7 V8]]]]]]].
  destruct (absorb_ok l p a r (upd ty (S (length l)) NONE) (-1)%Z u s vt) as [us [p' [C1 [C2 [C3 [C4 [C5 [ty' [A1 [A2 A3]]]]]]]]]].
  { rewrite upd_length. exact HY. } { exact V2. } { congruence. }
  exists p', vt, (me us), (n1 us). eexists. split; [exact A1|]. destruct (fuse_4m _ _ _ C2) as [F1 [F2 [F3 [F4 F5]]]].
  split. { split; [reflexivity|]. cbn [mtypes]. rewrite A2, upd_length, HY, !app_length. reflexivity. }
  split; [reflexivity|]. split; [apply tm0_times; exact F1|]. split; [congruence|]. split; [exact V6|]. split; [split; cbn [map]; congruence|]. split; [exact V7|]. split.
  - intros c x y HC Hx. cbn [map] in *. apply in_configs_nil in HC. destruct HC as [t [c' [-> [Ht HC]]]]. cbn [mps_mat]. rewrite sumn_lsum, C4.
    cbn [fuse d1 d2 el] in *. rewrite V6, ?V5.
    transitivity (lsum (seq 0 (m3 a)) (fun w => lsum (seq 0 (length s)) (fun k => cmul (me us x k) (cmul (e4 vt k (t / m2 a) (t mod m2 a) w) (mm (fz r) c' w y))))).
    + apply lsum_ext. intros w Hw. apply in_seq in Hw. assert (m2 a <> 0) by nia.
      rewrite V8; [|auto|apply Nat.div_lt_upper_bound; lia|apply Nat.mod_upper_bound; auto|lia]. rewrite sumn_lsum, lsum_mul_r. apply lsum_ext. intros k Hk. rewrite C5. ring.
    + etransitivity; [apply lsum_swap|]. apply lsum_ext. intros k Hk. rewrite sumn_lsum, lsum_mul_l. reflexivity.
  - intros k. cbn [mtypes]. rewrite A3, nth_error_upd. rewrite (Nat.eqb_sym (S (length l)) k). destruct (k =? length l); [reflexivity|]. destruct (k =? S (length l)); reflexivity.
Qed.

(** the loop of RightCanonicalize over the tensors r1; those of r2 are left alone *)
Lemma for_each_app : forall X S (f : X -> S -> res S) l1 l2 st, for_each (l1 ++ l2) f st = let! st := for_each l1 f st in for_each l2 f st.
Proof. intros X S f. induction l1 as [|x l1 IH]; intros l2 st; [reflexivity|]. cbn [app for_each]. destruct (f x st); cbn [bind]; auto. Qed.
Lemma of_times_self : forall r D, of_times r r (FmpsSpec.delta cx c0 c1) D D.
Proof. intros r D. split; [reflexivity|]. intros c j y _ Hj. symmetry. apply (EffHamFacts.delta_l cx c0 c1 cadd cmul csub copp cx_ring D j (fun k => mm r c k y)). exact Hj. Qed.
Lemma times_self : forall p, times p p (FmpsSpec.delta cx c0 c1) (d2 p).
Proof. intros p. do 3 (split; [reflexivity|]). intros x s k _ _ Hk. symmetry. apply (EffHamFacts.delta_r cx c0 c1 cadd cmul csub copp cx_ring (d2 p) k (fun j => el p x s j)). exact Hk. Qed.
Lemma rloop : forall dbg r1 l p r2 st, holds4 cx st (l ++ p :: r1 ++ r2) -> fit4 cx (m3 p) (r1 ++ r2) 1 ->
  exists p' r1' m st', for_each (rev (seq (S (length l)) (length r1))) (mrcan_ten svd dbg) st = Ok st' /\ holds4 cx st' (l ++ p' :: r1' ++ r2) /\
    fit4 cx (m3 p') (r1' ++ r2) 1 /\ Forall right4 r1' /\ times (fuse p) (fuse p') m (m3 p') /\ of_times (fz (r1 ++ r2)) (fz (r1' ++ r2)) m (m3 p) (m3 p') /\ legs_same (p :: r1) (p' :: r1') /\
    (forall k, nth_error (mtypes st') k = if (length l <? k) && (k <=? length l + length r1) then Some RIGHT else if (k =? length l) && (0 <? length r1) then Some NONE else nth_error (mtypes st) k) /\
    (0 < length r1 -> mcenter st' = (-1)%Z).
Proof.
  intros dbg. induction r1 as [|a r1 IH]; intros l p r2 st HH HF.
  - exists p, [], (FmpsSpec.delta cx c0 c1), st. cbn [length seq rev for_each app]. split; [reflexivity|]. split; [exact HH|]. split; [exact HF|]. split; [constructor|].
    split; [apply times_self|]. split; [apply of_times_self|]. split; [split; reflexivity|]. split; [|lia]. intros k. rewrite Nat.add_0_r, andb_false_r.
    destruct (Nat.ltb_spec (length l) k), (Nat.leb_spec k (length l)); cbn; auto; lia.
  - cbn [app] in HF. destruct HF as [HF1 HF2].
    destruct (IH (l ++ [p]) a r2 st) as [a' [r1' [m [st1 [E1 [E2 [E3 [E4 [E5 [E6 [E7 [E8 E9]]]]]]]]]]]].
    { rewrite <- app_assoc. exact HH. } { exact HF2. }
    rewrite <- app_assoc in E2. cbn [app] in E2.
    assert (D0 : m0 a' = m0 a) by (destruct E5 as [X _]; exact X).
    destruct (rstep_ok dbg l p a' (r1' ++ r2) st1 E2 ltac:(congruence)) as [p' [vt [m' [n [st2 [F1 [F2 [F3 [F4 [F5 [F6 [F7 [F8 [F9 F10]]]]]]]]]]]]]].
    assert (F4' : n = m3 p') by (destruct F4 as [_ [_ [X _]]]; symmetry; exact X). rewrite F4' in F4, F5, F9. clear n F4'.
    exists p', (vt :: r1'), m', st2. cbn [length]. split.
    { cbn [seq rev]. rewrite app_length in E1. cbn [length] in E1. rewrite Nat.add_1_r in E1. rewrite for_each_app, E1. cbn [bind for_each]. rewrite F1. reflexivity. }
    split; [exact F2|]. split. { cbn [app fit4]. split; [exact F5|]. rewrite F6. exact E3. }
    split; [constructor; assumption|]. split; [exact F4|]. destruct E7 as [G1 G2]. cbn [map] in G1, G2. injection G1 as G1 G1'. injection G2 as G2 G2'. destruct F7 as [G3 G4]. cbn [map] in G3, G4. injection G3 as G3 G3'. injection G4 as G4 G4'.
    split. { split.
      - apply legs_dims. split; cbn [app map]; rewrite !map_app; congruence.
      - intros c j y HC Hj. cbn [app map] in *.
        assert (HC' : In c (configs (dims (fz (a' :: r1' ++ r2))))).
        { cbn [map]. replace (dims (fz (r1' ++ r2))) with (dims (fz (r1 ++ r2))); [|destruct E6 as [X _]; symmetry; exact X]. cbn [fuse d1] in *. rewrite G1, G2. exact HC. }
        rewrite <- (F9 c j y HC' ltac:(rewrite D0; congruence)). cbn [map]. symmetry. eapply join; [exact E5|exact E6|exact HC|cbn [fuse d0]; congruence]. }
    split; [split; cbn [map]; congruence|]. split; [|intros; exact F3]. intros k. rewrite F10, E8, app_length. cbn [length].
    destruct (Nat.eqb_spec k (length l)), (Nat.eqb_spec k (S (length l))), (Nat.ltb_spec (length l + 1) k), (Nat.leb_spec k (length l + 1 + length r1)), (Nat.eqb_spec k (length l + 1)), (Nat.ltb_spec (length l) k), (Nat.leb_spec k (length l + S (length r1))), (Nat.ltb_spec 0 (S (length r1))); cbn; auto; lia.
Qed.

(** one step to the right *)
Lemma front_any : forall m b b' r c k y, contract_mt cx c0 cadd cmul m b = Ok b' -> In c (configs (dims (b :: r))) ->
  mm (b' :: r) c k y = lsum (seq 0 (n1 m)) (fun z => cmul (me m k z) (mm (b :: r) c z y)).
Proof.
  intros m b b' r c k y E HC. destruct (contract_mt_dims cx c0 cadd cmul m b b' E) as [E0 [E1 [E2 E3]]]. apply in_configs_nil in HC. destruct HC as [s [c' [-> [Hs HC]]]].
  cbn [mps_mat]. rewrite sumn_lsum, E2.
  transitivity (lsum (seq 0 (d2 b)) (fun w => lsum (seq 0 (n1 m)) (fun z => cmul (me m k z) (cmul (el b z s w) (mm r c' w y))))).
  - apply lsum_ext. intros w Hw. rewrite E3, sumn_lsum, lsum_mul_r. apply lsum_ext. intros z Hz. ring.
  - etransitivity; [apply lsum_swap|]. apply lsum_ext. intros z Hz. rewrite sumn_lsum, lsum_mul_l. reflexivity.
Qed.
Lemma lstep_ok : forall dbg l a b r st, holds4 cx st (l ++ a :: b :: r) -> m3 a = m0 b ->
  exists q b' st', mlcan_ten qr dbg (length l) st = Ok st' /\ holds4 cx st' (l ++ q :: b' :: r) /\ mcenter st' = (-1)%Z /\ m0 q = m0 a /\ m3 q = m0 b' /\ m3 b' = m3 b /\
    legs_same [a; b] [q; b'] /\ left4 q /\
    (forall c x y, In c (configs (dims (fz (a :: b :: r)))) -> x < m0 a -> mm (fz (q :: b' :: r)) c x y = mm (fz (a :: b :: r)) c x y) /\
    (forall k, nth_error (mtypes st') k = if k =? S (length l) then Some NONE else if k =? length l then Some LEFT else nth_error (mtypes st) k).
Proof.
  intros dbg l a b r [T ty z] [HT HY] HP. cbn [mtens mtypes] in *. subst T. unfold mlcan_ten.
  assert (L1 : length (map Some (l ++ a :: b :: r)) = length l + S (S (length r))) by (rewrite map_length, app_length; reflexivity).
  assert (L2 : length ty = length l + S (S (length r))) by (rewrite HY, app_length; reflexivity).
  cbn [mtens]. rewrite asserted by (rewrite L1; apply orb_true_iff; left; apply Nat.ltb_lt; lia). cbn [bind]. sm.
  erewrite mderef_ok. 2:{ cbn [mtens]. rewrite map_mid. cbn [map]. rewrite <- (map_length Some l). apply nth_mid. } cbn [bind].
  pose proof (QR a) as V. destruct (qr a) as [q m]. destruct V as [V0 [V1 [V2 [V3 [V4 [V5 V6]]]]]]. sm. sm.
  erewrite mderef_ok. 2:{ cbn [mtens]. rewrite map_mid. cbn [map]. rewrite <- (map_length Some l), upd_app. apply nth_mid1. } cbn [bind].
  assert (P : exists b', contract_m4 m b = Ok b') by (unfold contract_m4; rewrite V4, HP, Nat.eqb_refl; eauto). destruct P as [b' P]. rewrite P. cbn [bind]. sm. sm. sm.
  destruct (fuse_m4 _ _ _ P) as [F1 [F2 [F3 [F4 F5]]]].
  exists q, b'. eexists. split; [reflexivity|]. split.
  { split; [|cbn [mtypes]; rewrite !upd_length, HY, !app_length; reflexivity]. cbn [mtens]. rewrite !map_mid. cbn [map]. rewrite <- (map_length Some l), upd_app, upd_app1. reflexivity. }
  split; [reflexivity|]. split; [exact V0|]. split; [congruence|]. split; [exact F5|]. split; [split; cbn [map]; congruence|]. split; [exact V5|]. split.
  - intros c x y HC Hx. symmetry. apply (join (fuse q) (fuse a) (me m) (m3 a) (fz (b' :: r)) (fz (b :: r))).
    + unfold times; cbn [fuse d0 d1 d2 el]. split; [congruence|]. split; [congruence|]. split; [reflexivity|]. intros u s k Hu Hs Hk. cbn [fuse d0 d1 d2 el] in *.
      rewrite V2 in *. assert (m2 a <> 0) by nia. rewrite V6; [|lia|apply Nat.div_lt_upper_bound; nia|apply Nat.mod_upper_bound; auto|lia]. rewrite sumn_lsum, V3. reflexivity.
    + split. { cbn [map fuse d1]. rewrite F3, F4. reflexivity. }
      intros c' j w HC' Hj. cbn [map] in *. rewrite (front_any m (fuse b) (fuse b') (fz r) c' j w F1); [rewrite V4; reflexivity|]. cbn [fuse d1 map] in *. rewrite F3, F4 in HC'. exact HC'.
    + cbn [map fuse d1] in *. rewrite V1, V2, F3, F4. exact HC.
    + cbn [fuse d0]. congruence.
  - intros k. cbn [mtypes]. rewrite Nat.add_1_r. rewrite !nth_error_upd, !upd_length.
    rewrite (proj2 (Nat.ltb_lt (length l) (length ty)) ltac:(lia)), (proj2 (Nat.ltb_lt (S (length l)) (length ty)) ltac:(lia)), !andb_true_r, (Nat.eqb_sym (length l) k), (Nat.eqb_sym (S (length l)) k).
    destruct (Nat.eqb_spec k (S (length l))); [reflexivity|]. destruct (Nat.eqb_spec k (length l)); reflexivity.
Qed.
(** the loop of LeftCanonicalize over the tensors l2 *)
Lemma lloop : forall dbg n l2 l p r st, length l2 = n -> holds4 cx st (l ++ l2 ++ p :: r) -> forall D, fit4 cx D (l2 ++ [p]) (m3 p) ->
  exists l2' p' st', for_loop (length l) n (mlcan_ten qr dbg) st = Ok st' /\ holds4 cx st' (l ++ l2' ++ p' :: r) /\ fit4 cx D (l2' ++ [p']) (m3 p) /\ m3 p' = m3 p /\
    Forall left4 l2' /\ legs_same (l2 ++ [p]) (l2' ++ [p']) /\
    (forall c x y, In c (configs (dims (fz (l2 ++ p :: r)))) -> x < D -> mm (fz (l2' ++ p' :: r)) c x y = mm (fz (l2 ++ p :: r)) c x y) /\
    (forall k, nth_error (mtypes st') k = if (length l <=? k) && (k <? length l + n) then Some LEFT else if (k =? length l + n) && (0 <? n) then Some NONE else nth_error (mtypes st) k) /\
    (0 < n -> mcenter st' = (-1)%Z).
Proof.
  intros dbg. induction n as [|n IH]; intros l2 l p r st HL HH D HF.
  - destruct l2; [|discriminate]. exists [], p, st. cbn [for_loop app]. split; [reflexivity|]. split; [exact HH|]. split; [exact HF|]. split; [reflexivity|]. split; [constructor|]. split; [split; reflexivity|].
    split; [reflexivity|]. split; [|lia]. intros k. rewrite Nat.add_0_r, andb_false_r. destruct (Nat.leb_spec (length l) k), (Nat.ltb_spec k (length l)); cbn; auto; lia.
  - destruct l2 as [|a l2]; [discriminate|]. injection HL as HL.
    (* the next tensor *)
    assert (NX : exists b l2t pt, l2 ++ [p] = b :: l2t ++ pt /\ l2 ++ p :: r = b :: l2t ++ pt ++ r /\ (forall b', exists l2b p2, b' :: l2t ++ pt ++ r = l2b ++ p2 :: r /\ b' :: l2t ++ pt = l2b ++ [p2] /\ length l2b = n /\ (m3 b' = m3 b -> m3 p2 = m3 p))).
    { destruct l2 as [|b l2]; cbn [app] in *.
      - exists p, [], []. split; [reflexivity|]. split; [reflexivity|]. intros b'. exists [], b'. cbn in *. repeat split; auto.
      - exists b, l2, [p]. split; [reflexivity|]. split; [reflexivity|]. intros b'. exists (b' :: l2), p. cbn in *. repeat split; auto. }
    destruct NX as [b [l2t [pt [N1 [N2 N3]]]]]. cbn [app] in HH, HF. rewrite N2 in HH. rewrite N1 in HF. cbn [fit4] in HF. destruct HF as [HF1 [HF2 HF3]].
    destruct (lstep_ok dbg l a b (l2t ++ pt ++ r) st HH ltac:(congruence)) as [q [b' [st1 [E1 [E2 [E3 [E4 [E5 [E6 [E7 [E8 [E9 E10]]]]]]]]]]]].
    destruct (N3 b') as [l2b [p2 [M1 [M2 [M3 M4]]]]]. specialize (M4 E6).
    destruct (IH l2b (l ++ [q]) p2 r st1 M3) with (D := m3 q) as [l2' [p' [st2 [F1 [F2 [F3 [F3' [F4 [F5 [F6 [F7 F8]]]]]]]]]]].
    { rewrite <- app_assoc. cbn [app]. rewrite <- M1. exact E2. }
    { rewrite <- M2. cbn [fit4]. split; [congruence|]. rewrite E6, M4. exact HF3. }
    exists (q :: l2'), p', st2. cbn [for_loop]. rewrite E1. cbn [bind]. rewrite app_length in F1. cbn [length] in F1. rewrite Nat.add_1_r in F1.
    split; [exact F1|]. split; [rewrite <- app_assoc in F2; exact F2|]. split; [cbn [app fit4]; split; [congruence|rewrite <- M4; exact F3]|]. split; [congruence|]. split; [constructor; assumption|].
    destruct E7 as [G1 G2]. cbn [map] in G1, G2. injection G1 as G1 G1'. injection G2 as G2 G2'. destruct F5 as [G3 G4]. rewrite <- M2 in G3, G4. cbn [map] in G3, G4.
    assert (G5 : map (@m1 cx) (l2 ++ [p]) = m1 b' :: map (@m1 cx) (l2t ++ pt)) by (rewrite N1; cbn [map]; congruence).
    assert (G6 : map (@m2 cx) (l2 ++ [p]) = m2 b' :: map (@m2 cx) (l2t ++ pt)) by (rewrite N1; cbn [map]; congruence).
    split. { split; cbn [app map]; congruence. }
    split.
    + intros c x y HC Hx. cbn [app] in *. rewrite N2 in *. rewrite <- (E9 c x y HC ltac:(lia)). rewrite <- M1 in F6. cbn [map] in HC |- *.
      apply in_configs_nil in HC. destruct HC as [s [c' [-> [Hs HC]]]]. cbn [mps_mat]. rewrite !sumn_lsum. apply lsum_ext. intros w Hw. apply in_seq in Hw. f_equal.
      apply (F6 c' w y); [|cbn [fuse d2] in Hw; lia]. cbn [map fuse d1] in *. rewrite G1', G2'. exact HC.
    + split; [|intros _; destruct n as [|n']; [|apply F8; lia]; cbn in F1; injection F1 as <-; exact E3]. intros k. rewrite F7, E10, app_length. cbn [length].
      destruct (Nat.eqb_spec k (length l)), (Nat.eqb_spec k (S (length l))), (Nat.leb_spec (length l + 1) k), (Nat.ltb_spec k (length l + 1 + n)), (Nat.eqb_spec k (length l + 1 + n)), (Nat.leb_spec (length l) k), (Nat.ltb_spec k (length l + S n)), (Nat.eqb_spec k (length l + S n)), (Nat.ltb_spec 0 n), (Nat.ltb_spec 0 (S n)); cbn; auto; lia.
Qed.
End Loops.
