(** The sweeps of the variational product: files, loops, the whole call. *)
From Coq Require Import List Arith Lia Bool ZArith Reals Lra Psatz Ring.
From Verif Require Import Base CoefOpAlg Numeric FiniteMps FmpsSpec FmpsFacts EffHam EffHamSpec EffHamFacts ChainSpec ChainFacts ChainOne MeasureFacts VmpsState Legs VmpsEnv FinMpo FinMpoSpec FinMpoFacts Cx GVec DmrgStep
  TruncMps TruncMpsSpec TruncMpsMath TruncMpsFacts MpoCano MpoCanoSpec MpoMath MpoCanoFacts MpoCanoRun MpoTrunc MpoCanoInst MpoVar MpoVarSpec MpoVarEnv MpoVarStep.
Import ListNotations.
Local Open Scope nat_scope.

(** *** files *)
Definition lfiles (f : nat -> option cg) (l al bl : list c4) : Prop := forall l1 l2 al1 al2 bl1 bl2 D Da Db,
  l = l1 ++ l2 -> al = al1 ++ al2 -> bl = bl1 ++ bl2 -> length al1 = length l1 -> length bl1 = length l1 -> fit4 cx 1 l1 D -> fit4 cx 1 al1 Da -> fit4 cx 1 bl1 Db ->
  exists e, f (length l1) = Some e /\ lenv_ok l1 al1 bl1 D Da Db e.
Definition rfiles (f : nat -> option cg) (r ar br : list c4) : Prop := forall r1 r2 ar1 ar2 br1 br2 D Da Db,
  r = r1 ++ r2 -> ar = ar1 ++ ar2 -> br = br1 ++ br2 -> length ar2 = length r2 -> length br2 = length r2 -> fit4 cx D r2 1 -> fit4 cx Da ar2 1 -> fit4 cx Db br2 1 ->
  exists e, f (length r2) = Some e /\ renv_ok r2 ar2 br2 D Da Db e.
Lemma lfiles_add : forall f l al bl p a b e, lfiles f l al bl -> lenv_ok (l ++ [p]) (al ++ [a]) (bl ++ [b]) (m3 p) (m3 a) (m3 b) e -> length al = length l -> length bl = length l ->
  lfiles (fset f (length l + 1) (Some e)) (l ++ [p]) (al ++ [a]) (bl ++ [b]).
Proof.
  intros f l al bl p a b e HF HE La Lb l1 l2 al1 al2 bl1 bl2 D Da Db E1 E2 E3 N1 N2 F1 F2 F3.
  destruct l2 as [|x l2 _] using rev_ind.
  - rewrite app_nil_r in E1. subst l1. assert (length al2 = 0 /\ length bl2 = 0) as [Z1 Z2].
    { apply (f_equal (@length c4)) in E2. apply (f_equal (@length c4)) in E3. rewrite !app_length in E2, E3. rewrite app_length in N1, N2. cbn in *. lia. }
    destruct al2; [|discriminate]. destruct bl2; [|discriminate]. rewrite app_nil_r in E2, E3. subst al1 bl1. exists e. split; [unfold fset; rewrite app_length; cbn [length]; rewrite Nat.eqb_refl; reflexivity|].
    apply fit4_app in F1. apply fit4_app in F2. apply fit4_app in F3. destruct F1 as [? [_ [_ <-]]], F2 as [? [_ [_ <-]]], F3 as [? [_ [_ <-]]]. exact HE.
  - rewrite app_assoc in E1. apply app_inj_tail in E1. destruct E1 as [-> ->].
    assert (Hn : length l1 <= length (l1 ++ l2)) by (rewrite app_length; lia).
    destruct al2 as [|y al2 _] using rev_ind; [rewrite app_nil_r in E2; subst al1; rewrite app_length in N1; cbn in N1; lia|]. rewrite app_assoc in E2. apply app_inj_tail in E2. destruct E2 as [-> ->].
    destruct bl2 as [|z bl2 _] using rev_ind; [rewrite app_nil_r in E3; subst bl1; rewrite app_length in N2; cbn in N2; lia|]. rewrite app_assoc in E3. apply app_inj_tail in E3. destruct E3 as [-> ->].
    destruct (HF l1 l2 al1 al2 bl1 bl2 D Da Db) as [e' [G1 G2]]; auto. exists e'. split; [|exact G2]. unfold fset. destruct (Nat.eqb_spec (length l1) (length (l1 ++ l2) + 1)); [lia|exact G1].
Qed.
Lemma lfiles_drop : forall f l al bl p a b x, lfiles f (l ++ [p]) (al ++ [a]) (bl ++ [b]) -> lfiles (fset f (length l + 1) x) l al bl.
Proof.
  intros f l al bl p a b x HF l1 l2 al1 al2 bl1 bl2 D Da Db -> -> -> N1 N2 F1 F2 F3.
  destruct (HF l1 (l2 ++ [p]) al1 (al2 ++ [a]) bl1 (bl2 ++ [b]) D Da Db) as [e' [G1 G2]]; auto; try (rewrite <- app_assoc; reflexivity).
  exists e'. split; [|exact G2]. unfold fset. destruct (Nat.eqb_spec (length l1) (length (l1 ++ l2) + 1)) as [E|E]; [rewrite app_length in E; lia|exact G1].
Qed.
Lemma rfiles_add : forall f r ar br p a b e, rfiles f r ar br -> renv_ok (p :: r) (a :: ar) (b :: br) (m0 p) (m0 a) (m0 b) e -> length ar = length r -> length br = length r ->
  rfiles (fset f (length r + 1) (Some e)) (p :: r) (a :: ar) (b :: br).
Proof.
  intros f r ar br p a b e HF HE La Lb r1 r2 ar1 ar2 br1 br2 D Da Db E1 E2 E3 N1 N2 F1 F2 F3. destruct r1 as [|x r1].
  - cbn [app] in E1. subst r2. destruct ar1 as [|y ar1]. 2:{ apply (f_equal (@length c4)) in E2. cbn [app length] in E2. rewrite app_length in E2. cbn [length] in N1. lia. }
    destruct br1 as [|z br1]. 2:{ apply (f_equal (@length c4)) in E3. cbn [app length] in E3. rewrite app_length in E3. cbn [length] in N2. lia. }
    cbn [app] in E2, E3. subst ar2 br2. exists e. split; [unfold fset; cbn [length]; rewrite Nat.add_1_r, Nat.eqb_refl; reflexivity|].
    cbn in F1, F2, F3. destruct F1 as [<- _], F2 as [<- _], F3 as [<- _]. exact HE.
  - cbn [app] in E1. injection E1 as E1' E1. subst r. destruct ar1 as [|y ar1]. { cbn [app] in E2. subst ar2. cbn [length] in N1. rewrite app_length in La. lia. }
    destruct br1 as [|z br1]. { cbn [app] in E3. subst br2. cbn [length] in N2. rewrite app_length in Lb. lia. }
    cbn [app] in E2, E3. injection E2 as E2' E2. injection E3 as E3' E3. destruct (HF r1 r2 ar1 ar2 br1 br2 D Da Db) as [e' [G1 G2]]; auto. exists e'. split; [|exact G2].
    unfold fset. destruct (Nat.eqb_spec (length r2) (length (r1 ++ r2) + 1)) as [E|E]; [rewrite app_length in E; lia|exact G1].
Qed.
Lemma rfiles_drop : forall f r ar br p a b x, rfiles f (p :: r) (a :: ar) (b :: br) -> rfiles (fset f (length r + 1) x) r ar br.
Proof.
  intros f r ar br p a b x HF r1 r2 ar1 ar2 br1 br2 D Da Db -> -> -> N1 N2 F1 F2 F3.
  destruct (HF (p :: r1) r2 (a :: ar1) ar2 (b :: br1) br2 D Da Db) as [e' [G1 G2]]; auto. exists e'. split; [|exact G2].
  unfold fset. destruct (Nat.eqb_spec (length r2) (length (r1 ++ r2) + 1)) as [E|E]; [rewrite app_length in E; lia|exact G1].
Qed.
Lemma lfiles_top : forall f l al bl D Da Db, lfiles f l al bl -> length al = length l -> length bl = length l -> fit4 cx 1 l D -> fit4 cx 1 al Da -> fit4 cx 1 bl Db ->
  exists e, fread f (length l) = Ok e /\ lenv_ok l al bl D Da Db e.
Proof. intros f l al bl D Da Db HF La Lb F1 F2 F3. destruct (HF l [] al [] bl [] D Da Db) as [e [G1 G2]]; auto using app_nil_r; try (symmetry; apply app_nil_r). exists e. split; [|exact G2]. unfold fread. rewrite G1. reflexivity. Qed.
Lemma rfiles_top : forall f r ar br D Da Db, rfiles f r ar br -> length ar = length r -> length br = length r -> fit4 cx D r 1 -> fit4 cx Da ar 1 -> fit4 cx Db br 1 ->
  exists e, fread f (length r) = Ok e /\ renv_ok r ar br D Da Db e.
Proof. intros f r ar br D Da Db HF La Lb F1 F2 F3. destruct (HF [] r [] ar [] br D Da Db) as [e [G1 G2]]; auto. exists e. split; [|exact G2]. unfold fread. rewrite G1. reflexivity. Qed.

Section Run.
Variable svd6 : real -> nat -> nat -> cg -> c4 * list real * c4 * real.
Variables (terr : real) (Dmin Dmax : nat).
Hypothesis GOOD : good6 terr Dmin Dmax svd6.
Variables (ds : list nat) (ts1 ts2 : list c4) (P1 P2 : cmpo).
Hypothesis O1 : oper_on cx ds ts1.
Hypothesis O2 : oper_on cx ds ts2.
Hypothesis T1 : mtens P1 = map Some ts1.
Hypothesis T2 : mtens P2 = map Some ts2.
Notation xs := (prods ts1 ts2). Notation X := (melem xs).
Lemma OX : oper_on cx ds xs.
Proof. apply prod_oper; auto. Qed.

(** the sites of three chains that a step works on *)
Record cut3 (l r al ar bl br : list c4) (p q a1 a2 b1 b2 : c4) : Prop := {
  c3_1 : ts1 = al ++ a1 :: a2 :: ar; c3_2 : ts2 = bl ++ b1 :: b2 :: br; c3_a : length al = length l; c3_b : length bl = length l; c3_o : oper_on cx ds (l ++ p :: q :: r)
}.
Lemma cut3_legs : forall l r al ar bl br p q a1 a2 b1 b2, cut3 l r al ar bl br p q a1 a2 b1 b2 -> site3 p a1 b1 /\ site3 q a2 b2 /\ length ar = length r /\ length br = length r /\
  dims (fz (prods al bl)) = dims (fz l).
Proof.
  intros l r al ar bl br p q a1 a2 b1 b2 [C1 C2 CA CB CO]. pose proof O1 as Q1. pose proof O2 as Q2. rewrite C1 in Q1. rewrite C2 in Q2.
  destruct (pair_legs ds l r p q CO) as [_ [_ [_ [A1 [A2 A3]]]]], (pair_legs ds al ar a1 a2 Q1) as [_ [_ [_ [B1 [B2 B3]]]]], (pair_legs ds bl br b1 b2 Q2) as [_ [_ [_ [D1 [D2 D3]]]]].
  rewrite A3 in B3, D3. apply list_pair_app in B3; [|rewrite !map_length; auto]. apply list_pair_app in D3; [|rewrite !map_length; auto]. destruct B3 as [B3 B4], D3 as [D3 D4]. injection B4 as B4 B5 B6. injection D4 as D4 D5 D6.
  split; [exists (m1 p); repeat split; congruence|]. split; [exists (m1 q); repeat split; congruence|].
  split; [apply (f_equal (@length nat)) in B6; rewrite !map_length in B6; auto|]. split; [apply (f_equal (@length nat)) in D6; rewrite !map_length in D6; auto|].
  assert (E : forall ts, oper_on cx ds ts -> forall u v w x y, ts = u ++ v -> length u = length l -> map (@m1 cx) l = w -> x = w -> y = w -> map (@m1 cx) u = w -> map (@m2 cx) u = w).
  { intros ts [_ [E1 E2]] u v w x y -> Lu _ _ _ Ew. rewrite map_app in E1, E2. rewrite <- E1 in E2. apply list_pair_app in E2; [|rewrite !map_length; auto]. destruct E2 as [E2 _]. congruence. }
  assert (M2 : map (@m2 cx) l = map (@m1 cx) l) by (eapply (E _ CO l (p :: q :: r) (map (@m1 cx) l) _ _); eauto).
  assert (N2 : map (@m2 cx) al = map (@m1 cx) l) by (eapply (E _ Q1 al (a1 :: a2 :: ar) (map (@m1 cx) l) _ _); eauto).
  revert M2 N2 B3 D3 CA CB. clear. revert al bl. induction l as [|o l IH]; intros [|a al] [|b bl] M2 N2 B3 D3 CA CB; try discriminate; [reflexivity|].
  cbn [map length mpo_prod] in *. injection M2 as M2 M3. injection N2 as N2 N3. injection B3 as B3 B4. injection D3 as D3 D4. f_equal; [cbn [fuse d1 pr4 m1 m2]; congruence|]. apply IH; auto.
Qed.

Definition dist2 (ms : list c4) : real := hsdist2 ds (melem ms) X.
(** what a step has done *)
Record step_rel (l r : list c4) (p q : c4) (e : real) (k : nat) : Prop := {
  sr_o : oper_on cx ds (l ++ p :: q :: r); sr_k : m3 p = k; sr_max : k <= Dmax /\ (k < Dmax -> (e <= terr)%R); sr_e : (0 <= e < 1)%R;
  sr_p : hs ds (melem (l ++ p :: q :: r)) X = hs ds (melem (l ++ p :: q :: r)) (melem (l ++ p :: q :: r)); sr_nz : hs ds (melem (l ++ p :: q :: r)) X <> c0;
  sr_2 : hs2 ds (melem (l ++ p :: q :: r)) = ((1 - e) * gg l r xs p q)%R
}.
Lemma step_rel_best : forall l r p q e k p' q', Forall left4 l -> Forall right4 r -> step_rel l r p q e k -> oper_on cx ds (l ++ p' :: q' :: r) ->
  (dist2 (l ++ p :: q :: r) <= dist2 (l ++ p' :: q' :: r) + e * hs2 ds X)%R.
Proof. intros l r p q e k p' q' HL HR S O. unfold dist2. eapply (step_best ds l r xs OX HL HR); [apply (sr_o _ _ _ _ _ _ S)|apply (sr_e _ _ _ _ _ _ S)|apply (sr_p _ _ _ _ _ _ S)|apply (sr_2 _ _ _ _ _ _ S)|exact O]. Qed.

Lemma vupdate_ok : forall rt l r al ar bl br p q a1 a2 b1 b2 le re out, cut3 l r al ar bl br p q a1 a2 b1 b2 -> holds4 cx out (l ++ p :: q :: r) -> Forall left4 l -> Forall right4 r ->
  hs ds (melem (l ++ p :: q :: r)) X <> c0 -> lenv_ok l al bl (m0 p) (m0 a1) (m0 b1) le -> renv_ok r ar br (m3 q) (m3 a2) (m3 b2) re ->
  exists out' e p' q', vupdate svd6 terr Dmin Dmax rt (length l) le re P1 P2 out = Ok (out', (e, m3 p')) /\ holds4 cx out' (l ++ p' :: q' :: r) /\
    (if rt then left4 p' else right4 q') /\ step_rel l r p' q' e (m3 p').
Proof.
  intros rt l r al ar bl br p q a1 a2 b1 b2 le re [T ty z] C [HT HY] HL HR NZ LE RE. cbn [mtens mtypes] in *. subst T.
  destruct (cut3_legs _ _ _ _ _ _ _ _ _ _ _ _ C) as [S1 [S2 [La [Lb ED]]]]. destruct C as [C1 C2 CA CB CO].
  pose proof O1 as Q1. pose proof O2 as Q2. rewrite C1 in Q1. rewrite C2 in Q2.
  destruct (pair_legs ds l r p q CO) as [_ [_ [_ [A1 [A2 A3]]]]], (pair_legs ds al ar a1 a2 Q1) as [B0 [B1 [_ _]]], (pair_legs ds bl br b1 b2 Q2) as [D0 [D1 [_ _]]].
  assert (L1 : length (map Some (l ++ p :: q :: r)) = length l + S (S (length r))) by (rewrite map_length, app_length; reflexivity).
  assert (L2 : length ty = length l + S (S (length r))) by (rewrite HY, app_length; reflexivity).
  assert (FP : fit4 cx 1 (prods al bl) (m0 a1 * m0 b1)).
  { pose proof (proj1 OX) as F. rewrite C1, C2 in F. rewrite (prod_app al bl) in F by congruence. cbn [mpo_prod] in F. apply fit4_app in F. destruct F as [d [F1 [F2 _]]]. subst d. exact F1. }
  destruct (two_ok l r al bl ar br (m0 p) (m0 a1) (m0 b1) (m3 q) (m3 a2) (m3 b2) le re p q a1 a2 b1 b2 (m1 p) (m1 q)) as [g [G1 [G2 G3]]]; auto; try congruence.
  rewrite <- C1, <- C2 in G3.
  assert (GN : norm6 (m0 p) (m1 p) (m1 p) (m1 q) (m1 q) (m3 q) g <> 0%R).
  { rewrite (norm6_dot _ _ _ _ g _ G3). apply (gg_nz ds l r xs OX HL HR p q CO NZ). }
  pose proof (GOOD _ _ _ _ _ _ g G2 GN) as TR. unfold vupdate.
  rewrite (mderef_ok P1 (length l) a1) by (rewrite T1, C1, map_mid, <- CA, <- (map_length Some al); apply nth_mid). cbn [bind].
  rewrite (mderef_ok P1 (length l + 1) a2) by (rewrite T1, C1, map_mid, <- CA, <- (map_length Some al); apply nth_mid1). cbn [bind].
  rewrite (mderef_ok P2 (length l) b1) by (rewrite T2, C2, map_mid, <- CB, <- (map_length Some bl); apply nth_mid). cbn [bind].
  rewrite (mderef_ok P2 (length l + 1) b2) by (rewrite T2, C2, map_mid, <- CB, <- (map_length Some bl); apply nth_mid1). cbn [bind].
  sm. erewrite mderef_ok. 2:{ cbn [mtens]. rewrite map_mid, <- (map_length Some l). apply nth_mid. } cbn [bind].
  sm. erewrite mderef_ok. 2:{ cbn [mtens]. rewrite map_mid, <- (map_length Some l). apply nth_mid1. } cbn [bind].
  unfold vsingle. rewrite G1. cbn [bind]. destruct (svd6 terr Dmin Dmax g) as [[[u s] vt] e] eqn:ES.
  assert (Z : exists p' q', (if rt then let! q := contract_s4 s vt in Ok (u, q, (e, length s)) else let! p := contract_4s u s in Ok (p, vt, (e, length s))) = Ok (p', q', (e, length s)) /\
    ((contract_s4 s vt = Ok q' /\ p' = u) \/ (contract_4s u s = Ok p' /\ q' = vt)) /\ (if rt then left4 p' else right4 q')).
  { pose proof (t6_dims _ _ _ _ _ _ _ _ _ _ TR) as TD. cbv beta iota in TD. destruct TD as [_ [_ [_ [U3 [V0 _]]]]].
    destruct rt.
    - assert (K : exists q', contract_s4 s vt = Ok q') by (unfold contract_s4; rewrite V0, Nat.eqb_refl; eauto). destruct K as [q' K]. exists u, q'. rewrite K. split; [reflexivity|]. split; [left; auto|]. apply (t6_left _ _ _ _ _ _ _ _ _ _ TR).
    - assert (K : exists p', contract_4s u s = Ok p') by (unfold contract_4s; rewrite U3, Nat.eqb_refl; eauto). destruct K as [p' K]. exists p', vt. rewrite K. split; [reflexivity|]. split; [right; auto|]. apply (t6_right _ _ _ _ _ _ _ _ _ _ TR). }
  destruct Z as [p' [q' [Z1 [Z2 Z3]]]]. rewrite Z1. cbn [bind]. sm. sm.
  destruct (step_math ds l r xs OX HL HR p q g terr Dmax u s vt e p' q' CO G3 TR Z2) as [K1 [K2 [K3 [K4 [K5 [K6 [K7 K8]]]]]]].
  rewrite mtouch_ok by (cbn [mtens mtypes]; rewrite ?upd_length; destruct rt; lia). cbn [bind mtens mtypes]. do 4 eexists. rewrite K6. split; [reflexivity|].
  split. { split; [|cbn [mtypes]; rewrite !upd_length, HY, !app_length; reflexivity]. cbn [mtens]. rewrite !map_mid. cbn [map]. rewrite <- (map_length Some l), upd_app, upd_app1. reflexivity. }
  split; [exact Z3|]. pose proof (t6_err _ _ _ _ _ _ _ _ _ _ TR) as TE. pose proof (t6_max _ _ _ _ _ _ _ _ _ _ TR) as TM. cbv beta iota in TE, TM.
  assert (GE : gg l r xs p' q' = gg l r xs p q) by (unfold gg; rewrite K2, K3, K4, K5; reflexivity).
  split; auto; try tauto; [|rewrite GE; exact K8]. rewrite K7. intros E0. apply (f_equal fst) in E0. unfold hs2 in K8. rewrite K8 in E0. cbn [c0 fst] in E0.
  pose proof (gg_nz ds l r xs OX HL HR p q CO NZ) as GZ. destruct TE as [TE _]. apply Rmult_integral in E0. destruct E0; [lra|contradiction].
Qed.

(** what was printed by a sequence of steps that led from ms to ms' *)
Definition okl (o : real * nat) : Prop := (0 <= fst o < 1)%R /\ snd o <= Dmax /\ (snd o < Dmax -> (fst o <= terr)%R).
Definition logged (ms ms' : list c4) (lg : list (real * nat)) : Prop := Forall okl lg /\ (dist2 ms' <= dist2 ms + lost_sum (map fst lg) * hs2 ds X)%R.
Lemma lost_app : forall a b, lost_sum (a ++ b) = (lost_sum a + lost_sum b)%R.
Proof. intros a b. unfold lost_sum. induction a as [|x a IH]; cbn [app fold_right]; [lra|]. rewrite IH. lra. Qed.
Lemma logged_app : forall ms ms' ms'' a b, logged ms ms' a -> logged ms' ms'' b -> logged ms ms'' (a ++ b).
Proof. intros ms ms' ms'' a b [A1 A2] [B1 B2]. split; [apply Forall_app; auto|]. rewrite map_app, lost_app. lra. Qed.
Lemma logged_step : forall l r p q e k p' q', Forall left4 l -> Forall right4 r -> step_rel l r p q e k -> oper_on cx ds (l ++ p' :: q' :: r) -> logged (l ++ p' :: q' :: r) (l ++ p :: q :: r) [(e, k)].
Proof.
  intros l r p q e k p' q' HL HR S O. split; [constructor; [|constructor]; split; [apply (sr_e _ _ _ _ _ _ S)|apply (sr_max _ _ _ _ _ _ S)]|].
  pose proof (step_rel_best l r p q e k p' q' HL HR S O). cbn [map fst lost_sum fold_right]. lra.
Qed.
Lemma logged_nil : forall ms, logged ms ms [].
Proof. intros ms. split; [constructor|]. cbn. lra. Qed.

Definition tightR (t : c4) : Prop := m3 t <= Dmax.
Definition tightL (t : c4) : Prop := m0 t <= Dmax.

Lemma vright_ok : forall l r al ar bl br p q a1 a2 b1 b2 le v, cut3 l r al ar bl br p q a1 a2 b1 b2 -> holds4 cx (vout v) (l ++ p :: q :: r) -> Forall left4 l -> Forall right4 r ->
  hs ds (melem (l ++ p :: q :: r)) X <> c0 -> lenv_ok l al bl (m0 p) (m0 a1) (m0 b1) le -> lfiles (vl v) l al bl -> rfiles (vr v) r ar br ->
  exists le' v' p' q' e, vright svd6 terr Dmin Dmax P1 P2 (length l) (le, v) = Ok (le', v') /\ holds4 cx (vout v') (l ++ p' :: q' :: r) /\ left4 p' /\ step_rel l r p' q' e (m3 p') /\
    lenv_ok (l ++ [p']) (al ++ [a1]) (bl ++ [b1]) (m3 p') (m3 a1) (m3 b1) le' /\ lfiles (vl v') (l ++ [p']) (al ++ [a1]) (bl ++ [b1]) /\ vr v' = fset (vr v) (length r) None /\
    vlog v' = vlog v ++ [(e, m3 p')] /\ vnorms v' = vnorms v.
Proof.
  intros l r al ar bl br p q a1 a2 b1 b2 le v C HO HL HR NZ LE LF RF.
  destruct (cut3_legs _ _ _ _ _ _ _ _ _ _ _ _ C) as [S1 [S2 [La [Lb ED]]]]. pose proof C as [C1 C2 CA CB CO].
  pose proof O1 as Q1. pose proof O2 as Q2. rewrite C1 in Q1. rewrite C2 in Q2.
  destruct (pair_legs ds l r p q CO) as [A0 [_ [A1 _]]], (pair_legs ds al ar a1 a2 Q1) as [B0 [_ [B1 _]]], (pair_legs ds bl br b1 b2 Q2) as [D0 [_ [D1 _]]].
  destruct (rfiles_top (vr v) r ar br (m3 q) (m3 a2) (m3 b2) RF La Lb A1 B1 D1) as [re [R1 R2]].
  destruct (vupdate_ok true l r al ar bl br p q a1 a2 b1 b2 le re (vout v) C HO HL HR NZ LE R2) as [out [e [p' [q' [V1 [V2 [V3 V4]]]]]]].
  unfold vright. assert (EL : length (mtens P1) - (length l + 1) - 1 = length r) by (rewrite T1, C1, map_length, app_length; cbn [length]; lia). rewrite EL.
  rewrite R1. cbn [bind]. rewrite V1. cbn [bind].
  erewrite mderef_ok. 2:{ rewrite (proj1 V2), map_mid, <- (map_length Some l). apply nth_mid. } cbn [bind].
  rewrite (mderef_ok P1 (length l) a1) by (rewrite T1, C1, map_mid, <- CA, <- (map_length Some al); apply nth_mid). cbn [bind].
  rewrite (mderef_ok P2 (length l) b1) by (rewrite T2, C2, map_mid, <- CB, <- (map_length Some bl); apply nth_mid). cbn [bind].
  assert (C' : cut3 l r al ar bl br p' q' a1 a2 b1 b2) by (split; auto; apply (sr_o _ _ _ _ _ _ V4)).
  destruct (cut3_legs _ _ _ _ _ _ _ _ _ _ _ _ C') as [S1' _]. destruct (pair_legs ds l r p' q' (sr_o _ _ _ _ _ _ V4)) as [A0' _]. pose proof (fit4_det _ _ _ _ A0' A0) as EP.
  assert (FP : fit4 cx 1 (prods al bl) (m0 a1 * m0 b1)).
  { pose proof (proj1 OX) as F. rewrite C1, C2 in F. rewrite (prod_app al bl) in F by congruence. cbn [mpo_prod] in F. apply fit4_app in F. destruct F as [d [F1 [F2 _]]]. subst d. exact F1. }
  destruct (lenv_step l al bl (m0 p) (m0 a1) (m0 b1) le p' a1 b1 LE EP eq_refl eq_refl S1' A0 FP ED ltac:(congruence)) as [le' [E1 E2]].
  rewrite E1. cbn [bind]. exists le'. eexists. exists p', q', e. split; [reflexivity|]. cbn [vout vl vr vlog vnorms]. do 4 (split; [assumption|]).
  split; [apply lfiles_add; auto|]. auto.
Qed.

Lemma app2 : forall A (l : list A) x y r, l ++ x :: y :: r = (l ++ [x]) ++ y :: r.
Proof. intros. rewrite <- app_assoc. reflexivity. Qed.
Lemma forward : forall r l al ar bl br p q a1 a2 b1 b2 le v, cut3 l r al ar bl br p q a1 a2 b1 b2 -> holds4 cx (vout v) (l ++ p :: q :: r) -> Forall left4 l -> Forall right4 r -> Forall tightR l ->
  hs ds (melem (l ++ p :: q :: r)) X <> c0 -> lenv_ok l al bl (m0 p) (m0 a1) (m0 b1) le -> lfiles (vl v) l al bl -> rfiles (vr v) r ar br ->
  exists le' v' l' p' q' al' bl' a1' a2' b1' b2' lg, for_loop (length l) (length r) (vright svd6 terr Dmin Dmax P1 P2) (le, v) = Ok (le', v') /\ length l' = length l + length r /\
    cut3 l' [] al' [] bl' [] p' q' a1' a2' b1' b2' /\ holds4 cx (vout v') (l' ++ [p'; q']) /\ Forall left4 l' /\ Forall tightR l' /\ hs ds (melem (l' ++ [p'; q'])) X <> c0 /\
    lfiles (vl v') l' al' bl' /\ rfiles (vr v') [] [] [] /\ vlog v' = vlog v ++ lg /\ length lg = length r /\ logged (l ++ p :: q :: r) (l' ++ [p'; q']) lg /\ vnorms v' = vnorms v.
Proof.
  induction r as [|o r IH]; intros l al ar bl br p q a1 a2 b1 b2 le v C HO HL HR HB NZ LE LF RF.
  - destruct (cut3_legs _ _ _ _ _ _ _ _ _ _ _ _ C) as [_ [_ [La [Lb _]]]]. destruct ar; [|discriminate]. destruct br; [|discriminate].
    exists le, v, l, p, q, al, bl, a1, a2, b1, b2, []. cbn [length for_loop]. rewrite Nat.add_0_r, app_nil_r. repeat (split; [solve [auto]|]). split; [apply logged_nil|reflexivity].
  - destruct (cut3_legs _ _ _ _ _ _ _ _ _ _ _ _ C) as [_ [_ [La [Lb _]]]]. destruct ar as [|a3 ar]; [discriminate|]. destruct br as [|b3 br]; [discriminate|].
    destruct (vright_ok _ _ _ _ _ _ _ _ _ _ _ _ le v C HO HL HR NZ LE LF RF) as [le1 [v1 [p' [q' [e [V1 [V2 [V3 [V4 [V5 [V6 [V7 [V8 V9]]]]]]]]]]]]].
    destruct C as [C1 C2 CA CB CO]. pose proof (sr_o _ _ _ _ _ _ V4) as O'.
    assert (C' : cut3 (l ++ [p']) r (al ++ [a1]) ar (bl ++ [b1]) br q' o a2 a3 b2 b3).
    { split; [rewrite C1, app2; reflexivity|rewrite C2, app2; reflexivity|rewrite !app_length, CA; reflexivity|rewrite !app_length, CB; reflexivity|rewrite <- app2; exact O']. }
    assert (ELN : length (l ++ [p']) = S (length l)) by (rewrite app_length; cbn; lia).
    inversion HR as [|? ? HR1 HR2]; subst.
    destruct (IH (l ++ [p']) (al ++ [a1]) ar (bl ++ [b1]) br q' o a2 a3 b2 b3 le1 v1 C') as [le' [v' [l' [p'' [q'' [al' [bl' [a1' [a2' [b1' [b2' [lg [W1 [W2 [W3 [W4 [W5 [W6 [W7 [W8 [W9 [W10 [W11 [W12 W13]]]]]]]]]]]]]]]]]]]]]]]].
    { rewrite <- app2. exact V2. } { apply Forall_app. auto. } { exact HR2. }
    { apply Forall_app. split; [exact HB|]. constructor; [|constructor]. unfold tightR. apply (sr_max _ _ _ _ _ _ V4). }
    { rewrite <- app2. apply (sr_nz _ _ _ _ _ _ V4). }
    { destruct (pair_legs ds l (o :: r) p' q' O') as [_ [E1 _]]. rewrite <- E1.
      pose proof O1 as Q1. pose proof O2 as Q2. rewrite C1 in Q1. rewrite C2 in Q2. destruct (pair_legs ds al (a3 :: ar) a1 a2 Q1) as [_ [E2 _]], (pair_legs ds bl (b3 :: br) b1 b2 Q2) as [_ [E3 _]]. rewrite <- E2, <- E3. exact V5. }
    { exact V6. } { rewrite V7. cbn [length]. rewrite <- Nat.add_1_r. apply rfiles_drop with o a3 b3. exact RF. }
    exists le', v', l', p'', q'', al', bl', a1', a2', b1', b2', ((e, m3 p') :: lg). cbn [length for_loop]. rewrite V1. cbn [bind]. rewrite ELN in W1, W2.
    split; [exact W1|]. split; [lia|]. do 7 (split; [assumption|]). split; [rewrite W10, V8, <- app_assoc; reflexivity|]. split; [lia|].
    split; [|congruence]. change ((e, m3 p') :: lg) with ([(e, m3 p')] ++ lg). apply logged_app with ((l ++ [p']) ++ q' :: o :: r); [|exact W12]. rewrite <- app2. apply logged_step; auto.
Qed.

Lemma vleft_ok : forall l r al ar bl br p q a1 a2 b1 b2 re v, cut3 l r al ar bl br p q a1 a2 b1 b2 -> holds4 cx (vout v) (l ++ p :: q :: r) -> Forall left4 l -> Forall right4 r ->
  hs ds (melem (l ++ p :: q :: r)) X <> c0 -> renv_ok r ar br (m3 q) (m3 a2) (m3 b2) re -> lfiles (vl v) l al bl -> rfiles (vr v) r ar br ->
  exists re' v' p' q' e, vleft svd6 terr Dmin Dmax P1 P2 (length l) (re, v) = Ok (re', v') /\ holds4 cx (vout v') (l ++ p' :: q' :: r) /\ right4 q' /\ step_rel l r p' q' e (m3 p') /\
    renv_ok (q' :: r) (a2 :: ar) (b2 :: br) (m0 q') (m0 a2) (m0 b2) re' /\ rfiles (vr v') (q' :: r) (a2 :: ar) (b2 :: br) /\ vl v' = fset (vl v) (length l) None /\
    vlog v' = vlog v ++ [(e, m3 p')] /\ vnorms v' = vnorms v.
Proof.
  intros l r al ar bl br p q a1 a2 b1 b2 re v C HO HL HR NZ RE LF RF.
  destruct (cut3_legs _ _ _ _ _ _ _ _ _ _ _ _ C) as [S1 [S2 [La [Lb ED]]]]. pose proof C as [C1 C2 CA CB CO].
  pose proof O1 as Q1. pose proof O2 as Q2. rewrite C1 in Q1. rewrite C2 in Q2.
  destruct (pair_legs ds l r p q CO) as [A0 [_ [A1 _]]], (pair_legs ds al ar a1 a2 Q1) as [B0 [_ [B1 _]]], (pair_legs ds bl br b1 b2 Q2) as [D0 [_ [D1 _]]].
  destruct (lfiles_top (vl v) l al bl (m0 p) (m0 a1) (m0 b1) LF CA CB A0 B0 D0) as [le [R1 R2]].
  destruct (vupdate_ok false l r al ar bl br p q a1 a2 b1 b2 le re (vout v) C HO HL HR NZ R2 RE) as [out [e [p' [q' [V1 [V2 [V3 V4]]]]]]].
  unfold vleft. rewrite R1. cbn [bind]. rewrite V1. cbn [bind].
  erewrite mderef_ok. 2:{ rewrite (proj1 V2), map_mid, <- (map_length Some l). apply nth_mid1. } cbn [bind].
  rewrite (mderef_ok P1 (length l + 1) a2) by (rewrite T1, C1, map_mid, <- CA, <- (map_length Some al); apply nth_mid1). cbn [bind].
  rewrite (mderef_ok P2 (length l + 1) b2) by (rewrite T2, C2, map_mid, <- CB, <- (map_length Some bl); apply nth_mid1). cbn [bind].
  assert (C' : cut3 l r al ar bl br p' q' a1 a2 b1 b2) by (split; auto; apply (sr_o _ _ _ _ _ _ V4)).
  destruct (cut3_legs _ _ _ _ _ _ _ _ _ _ _ _ C') as [_ [S2' _]]. destruct (pair_legs ds l r p' q' (sr_o _ _ _ _ _ _ V4)) as [_ [_ [A1' _]]]. pose proof (fit4_det_l _ _ _ A1' A1) as EP.
  destruct (renv_step r ar br (m3 q) (m3 a2) (m3 b2) re q' a2 b2 RE EP eq_refl eq_refl S2') as [re' [E1 E2]].
  assert (EL : length (mtens P1) - length l - 1 = length r + 1) by (rewrite T1, C1, map_length, app_length; cbn [length]; lia). rewrite EL.
  rewrite E1. cbn [bind]. exists re'. eexists. exists p', q', e. split; [reflexivity|]. cbn [vout vl vr vlog vnorms]. do 4 (split; [assumption|]).
  split; [apply rfiles_add; auto|]. auto.
Qed.

Lemma rev_seq_S : forall n, rev (seq 1 (S n)) = S n :: rev (seq 1 n).
Proof. intros n. rewrite seq_S, rev_app_distr. cbn. reflexivity. Qed.
Lemma backward : forall n l r al ar bl br p q a1 a2 b1 b2 re v, length l = S n -> cut3 l r al ar bl br p q a1 a2 b1 b2 -> holds4 cx (vout v) (l ++ p :: q :: r) -> Forall left4 l -> Forall right4 r ->
  Forall tightR l -> Forall tightL r -> hs ds (melem (l ++ p :: q :: r)) X <> c0 -> renv_ok r ar br (m3 q) (m3 a2) (m3 b2) re -> lfiles (vl v) l al bl -> rfiles (vr v) r ar br ->
  exists re' v' a p' q' r' ar' br' a0' a1' a2' b0' b1' b2' e lg, for_each (rev (seq 1 (S n))) (vleft svd6 terr Dmin Dmax P1 P2) (re, v) = Ok (re', v') /\
    cut3 [a] r' [a0'] ar' [b0'] br' p' q' a1' a2' b1' b2' /\ holds4 cx (vout v') (a :: p' :: q' :: r') /\ left4 a /\ right4 q' /\ Forall right4 r' /\ tightR a /\ Forall tightL (q' :: r') /\
    step_rel [a] r' p' q' e (m3 p') /\ lfiles (vl v') [] [] [] /\ rfiles (vr v') (q' :: r') (a2' :: ar') (b2' :: br') /\
    vlog v' = vlog v ++ lg ++ [(e, m3 p')] /\ length lg = n /\ logged (l ++ p :: q :: r) (a :: p' :: q' :: r') (lg ++ [(e, m3 p')]) /\ vnorms v' = vnorms v.
Proof.
  induction n as [|n IH]; intros l r al ar bl br p q a1 a2 b1 b2 re v LN C HO HL HR HB HBR NZ RE LF RF.
  - destruct (vleft_ok _ _ _ _ _ _ _ _ _ _ _ _ re v C HO HL HR NZ RE LF RF) as [re1 [v1 [p' [q' [e [V1 [V2 [V3 [V4 [V5 [V6 [V7 [V8 V9]]]]]]]]]]]]].
    destruct l as [|a [|? ?]]; try discriminate. destruct C as [C1 C2 CA CB CO]. destruct al as [|a0 [|? ?]]; try discriminate. destruct bl as [|b0 [|? ?]]; try discriminate.
    exists re1, v1, a, p', q', r, ar, br, a0, a1, a2, b0, b1, b2, e, []. cbn [length] in V1. rewrite rev_seq_S. cbn [seq rev for_each]. rewrite V1. cbn [bind]. split; [reflexivity|].
    pose proof (sr_o _ _ _ _ _ _ V4) as O'. inversion HL; subst. inversion HB; subst.
    split; [split; auto|]. do 5 (split; [assumption|]).
    split. { constructor; [|exact HBR]. unfold tightL. destruct (pair_legs ds [a] r p' q' O') as [_ [E _]]. rewrite <- E. apply (sr_max _ _ _ _ _ _ V4). }
    split; [exact V4|]. split. { rewrite V7. apply (lfiles_drop (vl v) [] [] [] a a0 b0). exact LF. }
    split; [exact V6|]. split; [exact V8|]. split; [reflexivity|]. split; [|exact V9]. exact (logged_step [a] r p' q' e (m3 p') p q HL HR V4 CO).
  - destruct (vleft_ok _ _ _ _ _ _ _ _ _ _ _ _ re v C HO HL HR NZ RE LF RF) as [re1 [v1 [p' [q' [e [V1 [V2 [V3 [V4 [V5 [V6 [V7 [V8 V9]]]]]]]]]]]]].
    destruct C as [C1 C2 CA CB CO]. pose proof (sr_o _ _ _ _ _ _ V4) as O'.
    destruct l as [|o l _] using rev_ind; [discriminate|]. rewrite app_length in LN. cbn [length] in LN.
    destruct al as [|x al _] using rev_ind; [rewrite app_length in CA; cbn in CA; lia|]. destruct bl as [|y bl _] using rev_ind; [rewrite app_length in CB; cbn in CB; lia|].
    rewrite !app_length in CA, CB. cbn [length] in CA, CB.
    assert (EL : length (l ++ [o]) = S (S n)) by (rewrite app_length; cbn; lia). rewrite EL in V1, V7.
    apply Forall_app in HL. destruct HL as [HL HL']. apply Forall_app in HB. destruct HB as [HB _].
    assert (C' : cut3 l (q' :: r) al (a2 :: ar) bl (b2 :: br) o p' x a1 y b1).
    { split; [rewrite C1, <- app_assoc; reflexivity|rewrite C2, <- app_assoc; reflexivity|lia|lia|rewrite app2; exact O']. }
    destruct (IH l (q' :: r) al (a2 :: ar) bl (b2 :: br) o p' x a1 y b1 re1 v1) as [re' [v' [a [p'' [q'' [r' [ar' [br' [a0' [a1' [a2' [b0' [b1' [b2' [e' [lg [W1 [W2 [W3 [W4 [W5 [W6 [W7 [W8 [W9 [W10 [W11 [W12 [W13 [W14 W15]]]]]]]]]]]]]]]]]]]]]]]]]]]]]]; auto.
    { lia. } { rewrite app2. exact V2. }
    { constructor; [|exact HBR]. unfold tightL. destruct (pair_legs ds _ r p' q' O') as [_ [E _]]. rewrite <- E. apply (sr_max _ _ _ _ _ _ V4). }
    { rewrite app2. apply (sr_nz _ _ _ _ _ _ V4). }
    { destruct (pair_legs ds _ r p' q' O') as [_ [E1 _]]. rewrite E1.
      pose proof O1 as Q1. pose proof O2 as Q2. rewrite C1 in Q1. rewrite C2 in Q2. destruct (pair_legs ds _ ar a1 a2 Q1) as [_ [E2 _]], (pair_legs ds _ br b1 b2 Q2) as [_ [E3 _]]. rewrite E2, E3. exact V5. }
    { rewrite V7. replace (S (S n)) with (length l + 1) by lia. apply lfiles_drop with o x y. exact LF. }
    exists re', v', a, p'', q'', r', ar', br', a0', a1', a2', b0', b1', b2', e', ((e, m3 p') :: lg). rewrite rev_seq_S. cbn [for_each]. rewrite V1. cbn [bind].
    split; [exact W1|]. do 10 (split; [assumption|]). split; [rewrite W12, V8, <- app_assoc; reflexivity|]. split; [cbn; lia|]. split; [|congruence].
    change (((e, m3 p') :: lg) ++ [(e', m3 p'')]) with ([(e, m3 p')] ++ (lg ++ [(e', m3 p'')])). apply logged_app with (l ++ o :: p' :: q' :: r); [|exact W14]. rewrite (app2 _ l o p' (q' :: r)).
    apply logged_step; auto. apply Forall_app. auto.
Qed.

(** *** sweeps *)
Definition start (v : vstate) (ms : list c4) : Prop := exists p q r ar br a1 a2 b1 b2, ms = p :: q :: r /\ cut3 [] r [] ar [] br p q a1 a2 b1 b2 /\ holds4 cx (vout v) ms /\ Forall right4 r /\
  hs ds (melem ms) X <> c0 /\ lfiles (vl v) [] [] [] /\ rfiles (vr v) r ar br.
Definition ended (ms : list c4) (e : real) : Prop := exists a p q r, ms = a :: p :: q :: r /\ left4 a /\ Forall right4 (q :: r) /\ Forall tightL (p :: q :: r) /\ step_rel [a] r p q e (m3 p).
Lemma sweep_ok : forall v ms, 3 <= length ts1 -> start v ms ->
  exists v' ms' e k lg, vsweep svd6 terr Dmin Dmax P1 P2 v = Ok (sqrt (hs2 ds (melem ms')), v') /\ start v' ms' /\ ended ms' e /\ vlog v' = vlog v ++ lg ++ [(e, k)] /\ length (lg ++ [(e, k)]) = 2 * (length ts1 - 2) /\
    logged ms ms' (lg ++ [(e, k)]) /\ vnorms v' = vnorms v ++ [sqrt (hs2 ds (melem ms'))].
Proof.
  intros v ms N3 [p [q [r [ar [br [a1 [a2 [b1 [b2 [-> [C [HO [HR [NZ [LF RF]]]]]]]]]]]]]]]. unfold vsweep.
  destruct (cut3_legs _ _ _ _ _ _ _ _ _ _ _ _ C) as [_ [_ [La [Lb _]]]]. pose proof C as [C1 C2 _ _ CO].
  assert (EN : length (mtens P1) - 2 = length r) by (rewrite T1, C1, map_length; cbn [app length]; lia). rewrite EN.
  assert (EN' : length ts1 = length r + 2) by (rewrite C1; cbn [app length]; lia).
  pose proof O1 as Q1. pose proof O2 as Q2. rewrite C1 in Q1. rewrite C2 in Q2.
  destruct (pair_legs ds [] r p q CO) as [A0 _], (pair_legs ds [] ar a1 a2 Q1) as [B0 _], (pair_legs ds [] br b1 b2 Q2) as [D0 _].
  destruct (lfiles_top (vl v) [] [] [] _ _ _ LF eq_refl eq_refl A0 B0 D0) as [le [L1 L2]]. cbn [length] in L1. rewrite L1. cbn [bind].
  destruct (forward r [] [] ar [] br p q a1 a2 b1 b2 le v C HO (Forall_nil _) HR (Forall_nil _) NZ L2 LF RF)
    as [le' [v1 [l' [p' [q' [al' [bl' [a1' [a2' [b1' [b2' [lg [W1 [W2 [W3 [W4 [W5 [W6 [W7 [W8 [W9 [W10 [W11 [W12 W13]]]]]]]]]]]]]]]]]]]]]]]].
  cbn [length] in W1, W2. rewrite W1. cbn [bind snd].
  pose proof W3 as [X1 X2 _ _ XO]. pose proof O1 as Y1. pose proof O2 as Y2. rewrite X1 in Y1. rewrite X2 in Y2.
  destruct (pair_legs ds l' [] p' q' XO) as [_ [_ [F1 _]]], (pair_legs ds al' [] a1' a2' Y1) as [_ [_ [F2 _]]], (pair_legs ds bl' [] b1' b2' Y2) as [_ [_ [F3 _]]].
  destruct (rfiles_top (vr v1) [] [] [] _ _ _ W9 eq_refl eq_refl F1 F2 F3) as [re [R1 R2]]. cbn [length] in R1. rewrite R1. cbn [bind].
  destruct (length r) as [|n] eqn:ER; [lia|].
  destruct (backward n l' [] al' [] bl' [] p' q' a1' a2' b1' b2' re v1 ltac:(lia) W3 W4 W5 (Forall_nil _) W6 (Forall_nil _) W7 R2 W8 W9)
    as [re' [v2 [a [p2 [q2 [r2 [ar2 [br2 [x0 [x1 [x2 [y0 [y1 [y2 [e [lg2 [Z1 [Z2 [Z3 [Z4 [Z5 [Z6 [Z7 [Z8 [Z9 [Z10 [Z11 [Z12 [Z13 [Z14 Z15]]]]]]]]]]]]]]]]]]]]]]]]]]]]]].
  rewrite Z1. cbn [bind snd]. pose proof (sr_o _ _ _ _ _ _ Z9) as OZ. cbn [app] in OZ.
  destruct Z3 as [Z3 Z3']. rewrite mtouch_ok by (rewrite ?Z3, ?Z3', ?map_length; cbn [length]; lia). cbn [bind].
  erewrite mderef_ok by (cbn [mtens]; rewrite Z3; reflexivity). cbn [bind].
  assert (HN : hs2 ds (melem (a :: p2 :: q2 :: r2)) = ten2 p2) by (apply (center_norm ds [a] p2 (q2 :: r2)); [exact OZ|constructor; auto|constructor; auto]).
  eexists. exists (a :: p2 :: q2 :: r2), e, (m3 p2), (lg ++ lg2). rewrite HN. split; [reflexivity|]. cbn [vout vl vr vlog vnorms].
  split.
  { exists a, p2, (q2 :: r2), (x2 :: ar2), (y2 :: br2), x0, x1, y0, y1. destruct Z2 as [U1 U2 _ _ _]. split; [reflexivity|]. split; [split; auto|].
    split; [split; [exact Z3|cbn [vout mtypes]; rewrite upd_length; exact Z3']|]. split; [constructor; auto|]. split; [exact (sr_nz _ _ _ _ _ _ Z9)|]. auto. }
  split. { exists a, p2, q2, r2. split; [reflexivity|]. split; [exact Z4|]. split; [constructor; auto|]. split; [|exact Z9]. constructor; [|exact Z8]. unfold tightL. pose proof (proj1 OZ) as F. cbn in F. destruct F as [_ [F _]]. rewrite F. exact Z7. }
  split; [rewrite Z12, W10, <- !app_assoc; reflexivity|]. split; [rewrite !app_length, W11, Z13; cbn [length]; lia|]. split; [rewrite <- app_assoc; eapply logged_app; [exact W12|exact Z14]|]. rewrite Z15, W13. reflexivity.
Qed.
Lemma sweeps_ok : forall tol k sweep old v ms, 3 <= length ts1 -> start v ms -> (1 <= sweep -> exists pre, vnorms v = pre ++ [old]) ->
  exists v' ms' e kk lg norms, vsweeps svd6 terr Dmin Dmax tol P1 P2 (S k) sweep old v = Ok v' /\ start v' ms' /\ ended ms' e /\ vlog v' = vlog v ++ lg ++ [(e, kk)] /\
    length (lg ++ [(e, kk)]) = length (norms ++ [sqrt (hs2 ds (melem ms'))]) * (2 * (length ts1 - 2)) /\ logged ms ms' (lg ++ [(e, kk)]) /\ vnorms v' = vnorms v ++ norms ++ [sqrt (hs2 ds (melem ms'))] /\
    length norms <= k /\ (length norms < k -> exists pre b, vnorms v' = pre ++ [b; sqrt (hs2 ds (melem ms'))] /\ b <> 0%R /\ (Rabs (sqrt (hs2 ds (melem ms')) - b) / b < tol)%R).
Proof.
  induction k as [|k IH]; intros sweep old v ms N3 HS HP.
  - destruct (sweep_ok v ms N3 HS) as [v' [ms' [e [kk [lg [E1 [E2 [E3 [E4 [E5 [E6 E7]]]]]]]]]]]. exists v', ms', e, kk, lg, []. cbn [vsweeps]. rewrite E1. cbn [bind].
    split; [destruct (_ && _); reflexivity|]. do 3 (split; [assumption|]). split; [cbn [app length]; lia|]. split; [assumption|]. split; [assumption|]. cbn. split; [lia|]. lia.
  - destruct (sweep_ok v ms N3 HS) as [v1 [ms1 [e1 [k1 [lg1 [E1 [E2 [E3 [E4 [E5 [E6 E7]]]]]]]]]]].
    assert (U : vsweeps svd6 terr Dmin Dmax tol P1 P2 (S (S k)) sweep old v = if (1 <=? sweep) && converged tol old (sqrt (hs2 ds (melem ms1))) then Ok v1 else vsweeps svd6 terr Dmin Dmax tol P1 P2 (S k) (S sweep) (sqrt (hs2 ds (melem ms1))) v1).
    { change (vsweeps svd6 terr Dmin Dmax tol P1 P2 (S (S k)) sweep old v) with (let! x := vsweep svd6 terr Dmin Dmax P1 P2 v in let (new, v) := x in if (1 <=? sweep) && converged tol old new then Ok v else vsweeps svd6 terr Dmin Dmax tol P1 P2 (S k) (S sweep) new v). rewrite E1. reflexivity. }
    destruct ((1 <=? sweep) && converged tol old (sqrt (hs2 ds (melem ms1)))) eqn:EC.
    + exists v1, ms1, e1, k1, lg1, []. split; [exact U|]. do 3 (split; [assumption|]). split; [cbn [app length]; lia|]. split; [assumption|]. split; [assumption|]. split; [cbn; lia|]. intros _.
      apply andb_prop in EC. destruct EC as [EC1 EC2]. apply Nat.leb_le in EC1. destruct (HP EC1) as [pre HP']. exists pre, old. split; [rewrite E7, HP', <- app_assoc; reflexivity|].
      unfold converged in EC2. destruct (Req_EM_T old 0); [discriminate|]. destruct (Rlt_dec _ _); [|discriminate]. auto.
    + destruct (IH (S sweep) (sqrt (hs2 ds (melem ms1))) v1 ms1 N3 E2) as [v' [ms' [e [kk [lg [norms [F1 [F2 [F3 [F4 [F5 [F6 [F7 [F8 F9]]]]]]]]]]]]]]. { intros _. exists (vnorms v). exact E7. }
      exists v', ms', e, kk, ((lg1 ++ [(e1, k1)]) ++ lg), (sqrt (hs2 ds (melem ms1)) :: norms). split; [rewrite U; exact F1|]. do 2 (split; [assumption|]).
      split; [rewrite F4, E4, <- !app_assoc; reflexivity|]. split. { rewrite <- app_assoc, app_length, F5, E5. cbn [app length]. lia. }
      split; [rewrite <- app_assoc; eapply logged_app; [exact E6|exact F6]|]. split; [rewrite F7, E7, <- app_assoc; reflexivity|]. split; [cbn; lia|]. cbn [length]. intros H. apply F9. lia.
Qed.

(** *** the environments at the start *)
Lemma triv_r : forall D Da Db, fit4 cx D [] 1 -> fit4 cx Da [] 1 -> fit4 cx Db [] 1 -> renv_ok [] [] [] D Da Db (vtriv D Da Db).
Proof.
  intros D Da Db H1 H2 H3. cbn in H1, H2, H3. subst. split; [reflexivity|]. intros o z Ho Hz. assert (o = 0) by lia. assert (z = 0) by lia. subst. cbn. unfold rov. cbn. unfold FmpsSpec.delta. cbn. rewrite cconj1. ring.
Qed.
Lemma triv_l : forall D Da Db, fit4 cx 1 [] D -> fit4 cx 1 [] Da -> fit4 cx 1 [] Db -> lenv_ok [] [] [] D Da Db (vtriv D Da Db).
Proof.
  intros D Da Db H1 H2 H3. cbn in H1, H2, H3. subst. split; [reflexivity|]. intros o z Ho Hz. assert (o = 0) by lia. assert (z = 0) by lia. subst. cbn. unfold lov. cbn. unfold FmpsSpec.delta. cbn. rewrite cconj1. ring.
Qed.
Lemma vgen_loop : forall out n l r al ar bl br re f, mtens out = map Some (l ++ r) -> ts1 = al ++ ar -> ts2 = bl ++ br -> length al = length l -> length bl = length l -> length ar = length r -> length br = length r ->
  oper_on cx ds (l ++ r) -> n <= length l -> (forall D Da Db, fit4 cx D r 1 -> fit4 cx Da ar 1 -> fit4 cx Db br 1 -> renv_ok r ar br D Da Db re) -> rfiles f r ar br ->
  exists re' f' l' r' al' ar' bl' br', for_loop (length r + 1) n (vstep_env out P1 P2) (re, f) = Ok (re', f') /\ l ++ r = l' ++ r' /\ ts1 = al' ++ ar' /\ ts2 = bl' ++ br' /\
    length l' = length l - n /\ length al' = length l' /\ length bl' = length l' /\ rfiles f' r' ar' br'.
Proof.
  intros out. induction n as [|n IH]; intros l r al ar bl br re f HT C1 C2 La Lb Lar Lbr HO Hn RE RF.
  - exists re, f, l, r, al, ar, bl, br. cbn [for_loop]. rewrite Nat.sub_0_r. auto 10.
  - destruct l as [|o l _] using rev_ind; [cbn in Hn; lia|]. rewrite app_length in *. cbn [length] in *.
    destruct al as [|a al _] using rev_ind; [cbn in La; lia|]. destruct bl as [|b bl _] using rev_ind; [cbn in Lb; lia|]. rewrite app_length in La, Lb. cbn [length] in La, Lb.
    rewrite <- app_assoc in *. cbn [app] in *.
    assert (EJ : length (mtens out) - (length r + 1) = length l) by (rewrite HT, map_length, app_length; cbn [length]; lia).
    cbn [for_loop]. unfold vstep_env at 1. rewrite EJ.
    rewrite (mderef_ok out (length l) o) by (rewrite HT, map_mid, <- (map_length Some l); apply nth_mid). cbn [bind].
    rewrite (mderef_ok P1 (length l) a) by (rewrite T1, C1, map_mid; replace (length l) with (length al) by lia; rewrite <- (map_length Some al); apply nth_mid). cbn [bind].
    rewrite (mderef_ok P2 (length l) b) by (rewrite T2, C2, map_mid; replace (length l) with (length bl) by lia; rewrite <- (map_length Some bl); apply nth_mid). cbn [bind].
    assert (S3 : site3 o a b /\ fit4 cx (m3 o) r 1 /\ fit4 cx (m3 a) ar 1 /\ fit4 cx (m3 b) br 1).
    { pose proof O1 as Q1. pose proof O2 as Q2. rewrite C1 in Q1. rewrite C2 in Q2. destruct HO as [F1 [G1 K1]], Q1 as [F2 [G2 K2]], Q2 as [F3 [G3 K3]]. rewrite map_app in G1, G2, G3, K1, K2, K3. cbn [map] in *.
      apply fit4_app in F1. apply fit4_app in F2. apply fit4_app in F3. destruct F1 as [? [_ [_ F1]]], F2 as [? [_ [_ F2]]], F3 as [? [_ [_ F3]]]. split; [|auto].
      assert (N : forall f g (u v w y : list c4) c d, map f u ++ c :: map f v = ds -> map g w ++ d :: map g y = ds -> length u = length w -> c = d).
      { intros f0 g u v w y c d H1 H2 HL. rewrite <- H2 in H1. apply list_pair_app in H1; [|rewrite !map_length; auto]. destruct H1 as [_ H1]. injection H1; auto. }
      exists (m1 o). split; [reflexivity|]. repeat split.
      - exact (N _ _ l r l r _ _ K1 G1 eq_refl).
      - exact (N _ _ al ar l r _ _ G2 G1 ltac:(lia)).
      - exact (N _ _ al ar l r _ _ K2 G1 ltac:(lia)).
      - exact (N _ _ bl br l r _ _ G3 G1 ltac:(lia)).
      - exact (N _ _ bl br l r _ _ K3 G1 ltac:(lia)). }
    destruct S3 as [S3 [F1 [F2 F3]]]. destruct (renv_step r ar br _ _ _ re o a b (RE _ _ _ F1 F2 F3) eq_refl eq_refl eq_refl S3) as [re1 [E1 E2]]. rewrite E1. cbn [bind].
    destruct (IH l (o :: r) al (a :: ar) bl (b :: br) re1 (fset f (length r + 1) (Some re1))) as [re' [f' [l' [r' [al' [ar' [bl' [br' [U1 [U2 [U3 [U4 [U5 [U6 [U7 U8]]]]]]]]]]]]]]]; auto; try (cbn [length]; lia).
    + intros D Da Db G1 G2 G3. cbn in G1, G2, G3. destruct G1 as [<- _], G2 as [<- _], G3 as [<- _]. exact E2.
    + apply rfiles_add; auto.
    + exists re', f', l', r', al', ar', bl', br'. change (length (o :: r) + 1) with (S (length r + 1)) in U1. split; [exact U1|]. repeat (split; [assumption|]). split; [lia|]. auto.
Qed.
Lemma vgen_ok : forall dbg out p q r fl fr, 2 <= length ts1 -> mtens out = map Some (p :: q :: r) -> oper_on cx ds (p :: q :: r) -> length ts1 = length (p :: q :: r) ->
  exists fl' fr' ar br a1 a2 b1 b2, vgen dbg out P1 P2 fl fr = Ok (fl', fr') /\ cut3 [] r [] ar [] br p q a1 a2 b1 b2 /\ lfiles fl' [] [] [] /\ rfiles fr' r ar br.
Proof.
  intros dbg out p q r fl fr N2 HT HO HN. assert (L2 : length ts2 = length ts1).
  { destruct O1 as [_ [E1 _]], O2 as [_ [E2 _]]. rewrite <- E1 in E2. apply (f_equal (@length nat)) in E2. rewrite !map_length in E2. exact E2. }
  unfold vgen. assert (EN : length (mtens out) = length ts1) by (rewrite HT, map_length; auto). rewrite T1, T2, !map_length, EN, L2, Nat.eqb_refl. rewrite asserted by reflexivity. cbn [bind].
  assert (LST : forall (st : cmpo) ts, mtens st = map Some ts -> 2 <= length ts -> exists l t, ts = l ++ [t] /\ vlast st = Ok t).
  { intros st ts E H. destruct ts as [|t l _] using rev_ind; [cbn in H; lia|]. exists l, t. split; [reflexivity|]. unfold vlast. rewrite E, map_length, app_length. cbn [length]. rewrite Nat.add_sub. apply mderef_ok. rewrite E, map_mid, <- (map_length Some l). apply nth_mid. }
  destruct (LST out (p :: q :: r) HT ltac:(cbn; lia)) as [lo [o [Eo Vo]]], (LST P1 ts1 T1 N2) as [la [a [Ea Va]]], (LST P2 ts2 T2 ltac:(lia)) as [lb [b [Eb Vb]]]. rewrite Vo, Va, Vb. cbn [bind].
  assert (FO : fit4 cx (m3 o) [] 1) by (pose proof (proj1 HO) as F; rewrite Eo in F; apply fit4_app in F; destruct F as [? [_ [_ F]]]; exact F).
  assert (FA : fit4 cx (m3 a) [] 1) by (pose proof (proj1 O1) as F; rewrite Ea in F; apply fit4_app in F; destruct F as [? [_ [_ F]]]; exact F).
  assert (FB : fit4 cx (m3 b) [] 1) by (pose proof (proj1 O2) as F; rewrite Eb in F; apply fit4_app in F; destruct F as [? [_ [_ F]]]; exact F).
  destruct (vgen_loop out (length ts1 - 2) (p :: q :: r) [] ts1 [] ts2 [] (vtriv (m3 o) (m3 a) (m3 b)) (fset fr 0 (Some (vtriv (m3 o) (m3 a) (m3 b))))) as [re' [f' [l' [r' [al' [ar' [bl' [br' [U1 [U2 [U3 [U4 [U5 [U6 [U7 U8]]]]]]]]]]]]]]];
    rewrite ?app_nil_r; auto; try lia.
  { intros D Da Db H1 H2 H3. assert (D = m3 o) by (cbn in H1, FO; congruence). assert (Da = m3 a) by (cbn in H2, FA; congruence). assert (Db = m3 b) by (cbn in H3, FB; congruence). subst D Da Db. apply triv_r; auto. }
  { intros r1 r2 ar1 ar2 br1 br2 D Da Db E1 E2 E3 _ _ H1 H2 H3. symmetry in E1, E2, E3. apply app_eq_nil in E1. apply app_eq_nil in E2. apply app_eq_nil in E3. destruct E1 as [-> ->], E2 as [-> ->], E3 as [-> ->].
    eexists. split; [reflexivity|]. assert (D = m3 o) by (cbn in H1, FO; congruence). assert (Da = m3 a) by (cbn in H2, FA; congruence). assert (Db = m3 b) by (cbn in H3, FB; congruence). subst D Da Db. apply triv_r; auto. }
  cbn [length] in U1. rewrite Nat.add_0_l in U1. rewrite U1. cbn [bind snd].
  rewrite app_nil_r in U2. assert (L' : length l' = 2) by (rewrite U5, HN; cbn [length]; lia). destruct l' as [|? [|? [|? ?]]]; try discriminate. cbn [app] in U2. injection U2 as <- <- <-.
  destruct al' as [|a1 [|a2 [|? ?]]]; try discriminate. destruct bl' as [|b1 [|b2 [|? ?]]]; try discriminate. cbn [app] in U3, U4.
  erewrite (mderef_ok out 0) by (rewrite HT; reflexivity). cbn [bind]. erewrite (mderef_ok P1 0) by (rewrite T1, U3; reflexivity). cbn [bind]. erewrite (mderef_ok P2 0) by (rewrite T2, U4; reflexivity). cbn [bind].
  do 2 eexists. exists ar', br', a1, a2, b1, b2. split; [reflexivity|]. split; [split; auto|]. split; [|exact U8].
  intros l1 l2 al1 al2 bl1 bl2 D Da Db E1 E2 E3 _ _ H1 H2 H3. symmetry in E1, E2, E3. apply app_eq_nil in E1. apply app_eq_nil in E2. apply app_eq_nil in E3. destruct E1 as [-> ->], E2 as [-> ->], E3 as [-> ->].
  eexists. split; [reflexivity|]. cbn in H1, H2, H3. subst D Da Db. pose proof (proj1 HO) as G1. pose proof (proj1 O1) as G2. pose proof (proj1 O2) as G3. rewrite U3 in G2. rewrite U4 in G3. cbn in G1, G2, G3.
  destruct G1 as [-> _], G2 as [-> _], G3 as [-> _]. apply triv_l; reflexivity.
Qed.
End Run.
