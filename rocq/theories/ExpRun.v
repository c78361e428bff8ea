(** ExpFiniteMPO: the run. *)
From Coq Require Import List Arith Lia Bool ZArith Reals Lra Psatz Ring Factorial.
From Verif Require Import Base CoefOpAlg Numeric FiniteMps FmpsSpec FmpsFacts EffHam EffHamSpec EffHamFacts ChainSpec ChainFacts ChainOne MeasureFacts VmpsState Legs FinMpo FinMpoSpec FinMpoFacts FinMpoExp Cx GVec DmrgStep
  TruncMps TruncMpsSpec TruncMpsMath TruncMpsFacts MpoCano MpoCanoSpec MpoMath MpoCanoFacts MpoCanoRun MpoTrunc MpoCanoInst MpoVar MpoVarSpec MpoVarEnv MpoVarStep MpoVarRun MpoVarTop ExpMpo ExpMpoSpec ExpMath.
From Verif Require TruncMpsInst.
Import ListNotations.
Local Open Scope nat_scope.

Lemma none_truthful : forall T n z, truthful4 (mkFmpo T (repeat NONE n) z).
Proof.
  intros T n z i. cbn [mtypes mtens]. destruct (Nat.lt_ge_cases i n) as [L|L]; [rewrite (nth_error_repeat NONE L); split; discriminate|].
  rewrite (proj2 (nth_error_None (repeat NONE n) i)) by (rewrite repeat_length; exact L). split; discriminate.
Qed.
Lemma width_le : forall A b, width A <= b <-> 1 <= b /\ Forall (fun t => m0 t <= b) (tl A).
Proof.
  intros A b. unfold width. generalize (tl A). induction l as [|t l IH]; cbn [map fold_right]; [split; [intros H; split; [exact H|constructor]|tauto]|]. split.
  - intros H. assert (fold_right Nat.max 1 (map (@m0 cx) l) <= b) as H' by lia. apply IH in H'. destruct H' as [H1 H2]. split; [exact H1|]. constructor; [lia|exact H2].
  - intros [H1 H2]. inversion H2 as [|x y H3 H4]. subst. assert (fold_right Nat.max 1 (map (@m0 cx) l) <= b) as H' by (apply IH; auto). lia.
Qed.
Lemma width_pos : forall A, 1 <= width A.
Proof. intros A. destruct (proj1 (width_le A (width A)) (le_n _)) as [H _]. exact H. Qed.
Lemma width_in : forall A, Forall (fun t => m0 t <= width A) (tl A).
Proof. intros A. destruct (proj1 (width_le A (width A)) (le_n _)) as [_ H]. exact H. Qed.
Lemma bond_loop : forall (st : cmpo) A pre D0 x, mtens st = map Some (pre ++ A) -> fit4 cx x A 1 -> 1 <= length A ->
  for_loop (length pre) (length A - 1) (fun i D => let! t := mderef cx st i in Ok (Nat.max D (m3 t))) D0 = Ok (fold_right Nat.max D0 (map (@m0 cx) (tl A))).
Proof.
  intros st. induction A as [|a A IH]; intros pre D0 x HT HF HN; [cbn in HN; lia|]. destruct A as [|b A]; [reflexivity|]. replace (length (a :: b :: A) - 1) with (S (length (b :: A) - 1)) by (cbn; lia). cbn [for_loop].
  unfold mderef at 1. rewrite HT. rewrite (vget_nth _ (length pre) (Some a)) by (rewrite nth_error_map, nth_error_app2, Nat.sub_diag by lia; reflexivity). cbn [bind].
  specialize (IH (pre ++ [a]) (Nat.max D0 (m3 a)) (m3 a)). rewrite app_length in IH. change (length [a]) with 1 in IH. rewrite Nat.add_1_r in IH. rewrite IH; [|rewrite <- app_assoc; exact HT|apply HF|cbn; lia].
  f_equal. cbn [tl map]. destruct HF as [_ [HB _]]. cbn [fold_right]. rewrite HB. generalize (map (@m0 cx) A) (m3 a). clear. intros l m. revert D0. induction l as [|y l IH]; intros D0; cbn [fold_right]; [lia|]. rewrite IH. lia.
Qed.
Lemma bond_ok : forall (st : cmpo) ds A, holds4 cx st A -> oper_on cx ds A -> 1 <= length A -> cmax_bond st = Ok (width A).
Proof.
  intros st ds A [HT HY] HO HN. unfold max_bond. replace (length (mtens st)) with (length A) by (rewrite HT, map_length; auto). destruct (Nat.eqb_spec (length A) 0); [lia|]. apply (bond_loop st A [] 1 1); auto. apply HO.
Qed.
Lemma width_scale : forall A i s t, nth_error A i = Some t -> width (upd A i (tscale cx cmul s t)) = width A.
Proof.
  intros A i s t H. unfold width. f_equal. assert (E : map (@m0 cx) (upd A i (tscale cx cmul s t)) = map (@m0 cx) A). { revert i H. induction A as [|a A IH]; intros [|i] H; cbn in *; try discriminate; auto; [injection H as ->; reflexivity|f_equal; apply IH; exact H]. }
  assert (TM : forall l : list c4, map (@m0 cx) (tl l) = tl (map (@m0 cx) l)) by (intros [|]; reflexivity). rewrite !TM, E. reflexivity.
Qed.
Lemma width_prod : forall A B, length A = length B -> width (mpo_prod cx c0 cadd cmul A B) <= width A * width B.
Proof.
  intros A B HL. apply width_le. pose proof (width_pos A) as PA. pose proof (width_pos B) as PB. split; [nia|]. pose proof (width_in A) as WA. pose proof (width_in B) as WB. revert WA WB PA PB. generalize (width A) (width B). intros wa wb WA WB PA PB.
  destruct A as [|a A], B as [|b B]; try discriminate; [constructor|]. cbn [mpo_prod tl] in *. injection HL as HL. revert B HL WB. induction A as [|x A IH]; intros [|y B] HL WB; try discriminate; [constructor|]. cbn [mpo_prod]. inversion WA; inversion WB; subst. constructor; [cbn [pr4 m0]; nia|]. apply IH; auto.
Qed.
Lemma width_sum : forall A B, length A = length B -> width (mpo_sum cx c0 cadd A B) <= width A + width B.
Proof.
  intros A B HL. apply width_le. pose proof (width_pos A) as PA. split; [lia|]. pose proof (width_in A) as WA. pose proof (width_in B) as WB. revert WA WB. generalize (width A) (width B). intros wa wb WA WB.
  unfold mpo_sum, add_all. destruct A as [|a A], B as [|b B]; try discriminate; [constructor|]. cbn [tl] in *. injection HL as HL. clear PA. revert B HL WB. induction A as [|x A IH]; intros [|y B] HL WB; try discriminate; [constructor|]. inversion WA as [|? ? W1 W2]; inversion WB as [|? ? W3 W4]; subst.
  cbn [add_tail]. destruct A as [|x' A], B as [|y' B]; try discriminate; (constructor; [cbn [ex4 m0]; lia|]); [constructor|]. apply IH; auto.
Qed.
Lemma lsum_pos0 : forall l, Forall (fun e => (0 <= e)%R) l -> (0 <= lost_sum l)%R.
Proof. induction 1; cbn [lost_sum fold_right]; [lra|]. fold (lost_sum l). lra. Qed.
Lemma cut_same : forall ds P P' es M, same_oper ds P P' -> cut_from ds P es M -> cut_from ds P' es M.
Proof. intros ds P P' es M S [H1 [H2 [H3 H4]]]. rewrite (hs2_same _ _ _ S) in H2, H4. rewrite (hs_same ds M M P P' (same_refl _ _) S) in H3. repeat split; auto. Qed.
Lemma printed_sound : forall terr D l, Forall (printed4 terr D) l -> sound_errors terr D l.
Proof. intros terr D l H. exact H. Qed.
Lemma sound_range : forall terr D l, sound_errors terr D l -> Forall (fun e => (0 <= e < 1)%R) (map fst l).
Proof. intros terr D l H. apply Forall_map. eapply Forall_impl; [|exact H]. intros o [X _]. exact X. Qed.
Lemma still_dec : forall ds k, still ds k \/ ~ still ds k.
Proof. intros ds k. unfold still. destruct (Nat.eq_dec (length ds) 2), (Nat.eq_dec k 0); tauto. Qed.
Lemma cx_dec : forall z : cx, z = c0 \/ z <> c0.
Proof. intros [x y]. destruct (Req_EM_T x 0) as [->|N]; [destruct (Req_EM_T y 0) as [->|N]; [left; reflexivity|]|]; right; intros E; injection E; auto. Qed.
(** last of a list *)
Lemma orders_snoc : forall ds X stored h n T S o, orders ds X stored n T S h -> power_of ds X stored (n + length h) (last_term T h) (od_made o) (od_term o) -> sum_of ds (last_sum S h) (od_term o) (od_cut o) (od_sum o) -> orders ds X stored n T S (h ++ [o]).
Proof.
  assert (L : forall A (l : list A) a b, last (a :: l) b = last l a).
  { induction l as [|x l IH]; intros a b; [reflexivity|]. cbn [last]. destruct l; [reflexivity|]. change (last (x :: a0 :: l) b = last (x :: a0 :: l) a). rewrite (IH x b), (IH x a). reflexivity. }
  intros ds X stored. induction h as [|d h IH]; intros n T S o H1 H2 H3.
  - cbn in *. rewrite Nat.add_0_r in H2. auto.
  - cbn [orders app length] in *. destruct H1 as [A [B C]]. split; [exact A|]. split; [exact B|]. unfold last_term, last_sum in H2, H3. cbn [map] in H2, H3. rewrite L in H2, H3. apply IH; auto. replace (n + 1 + length h) with (n + Datatypes.S (length h)) by lia. exact H2.
Qed.
Lemma last_nonzero : forall ds X stored h n T S, hs2 ds S <> 0%R -> orders ds X stored n T S h -> hs2 ds (last_sum S h) <> 0%R.
Proof.
  assert (L : forall A (l : list A) a b, last (a :: l) b = last l a).
  { induction l as [|x l IH]; intros a b; [reflexivity|]. cbn [last]. destruct l; [reflexivity|]. change (last (x :: a0 :: l) b = last (x :: a0 :: l) a). rewrite (IH x b), (IH x a). reflexivity. }
  intros ds X stored. induction h as [|o h IH]; intros n T S HS HO; [exact HS|]. unfold last_sum. cbn [map]. rewrite L. destruct HO as [_ [H2 H3]]. apply (IH (n + 1) (od_term o)); [exact (cut_nonzero _ _ _ _ H2)|exact H3].
Qed.
Lemma widths_snoc : forall Q DH Dmax h D E o, widths Q DH Dmax D E h -> widths Q DH Dmax (last (map od_bond h) D) (last (map od_sbond h) E) [o] -> widths Q DH Dmax D E (h ++ [o]).
Proof.
  assert (L : forall A (l : list A) a b, last (a :: l) b = last l a).
  { induction l as [|x l IH]; intros a b; [reflexivity|]. cbn [last]. destruct l; [reflexivity|]. change (last (x :: a0 :: l) b = last (x :: a0 :: l) a). rewrite (IH x b), (IH x a). reflexivity. }
  intros Q DH Dmax. induction h as [|d h IH]; intros D E o H1 H2; [exact H2|]. cbn [map] in H2. rewrite !L in H2. cbn [app widths] in *. destruct H1 as [A [B [C F]]]. split; [exact A|]. split; [exact B|]. split; [exact C|]. apply IH; assumption.
Qed.
Lemma last_term_snoc : forall T h o, last_term T (h ++ [o]) = od_term o.
Proof. intros. unfold last_term. rewrite map_app. cbn [map]. apply last_last. Qed.
Lemma last_sum_snoc : forall T h o, last_sum T (h ++ [o]) = od_sum o.
Proof. intros. unfold last_sum. rewrite map_app. cbn [map]. apply last_last. Qed.

Section Run.
Variable qr : c4 -> c4 * cmat.
Variable svd : c4 -> cmat * list real * c4.
Variable svdt : real -> nat -> nat -> c4 -> cmat * list real * c4 * real.
Variable svd6 : real -> nat -> nat -> cg -> c4 * list real * c4 * real.
Variables (terr : real) (Dmin Dmax sweeps : nat) (tol ttol eps : real).
Hypothesis QR : qr4_exact qr.
Hypothesis SV : svd4_exact svd.
Hypothesis ST : forall a b, 1 <= b -> good4 eps a b svdt.
Hypothesis S6 : good6 terr Dmin Dmax svd6.
Hypothesis DM : 1 <= Dmax.
Variable ds : list nat.
Hypothesis N2 : 2 <= length ds.
Variables (X : coper) (stored : nat -> option coper) (mth : cmpo) (xs : list c4).
Hypothesis MH : holds4 cx mth xs.
Hypothesis MO : oper_on cx ds xs.
Hypothesis MX : same_oper ds (melem xs) X.
Variable DH : nat.
Hypothesis WX : width xs = DH.
Let olen : forall A, oper_on cx ds A -> length A = length ds.
Proof. intros A H. exact (oper_len cx _ _ H). Qed.

(** *** truncation *)
Lemma cut_ok : forall dbg a b st ts, 1 <= b -> holds4 cx st ts -> oper_on cx ds ts -> truthful4 st -> hs2 ds (melem ts) <> 0%R ->
  exists st' ts' l, mpo_truncate qr svd svdt dbg eps a b st = Ok (st', l) /\ holds4 cx st' ts' /\ oper_on cx ds ts' /\ truthful4 st' /\ mcenter st' = (-1)%Z /\ sound_errors eps b l /\ width ts' <= b /\ l <> [] /\
    cut_from ds (melem ts) (map fst l) (melem ts').
Proof.
  intros dbg a b st ts Hb H1 H2 H3 H4. assert (LT := olen ts H2). destruct (trunc_ok qr svd svdt QR SV eps a b (ST a b Hb) dbg ds st ts H1 H2 H3 ltac:(destruct dbg; lia) H4) as [st' [ts' [out [A1 [A2 [A3 [A4 [A5 [A6 [A7 [A8 [A9 [A10 _]]]]]]]]]]]]].
  exists st', ts', out. split; [exact A1|]. split; [exact A2|]. split; [exact A3|]. split; [exact A4|]. split; [apply A10; lia|]. split; [exact (printed_sound _ _ _ A6)|].
  split. { apply width_le. split; [exact Hb|]. apply Forall_forall. intros t Ht. assert (In (m0 t) (rev (map snd out))) as Hi by (rewrite <- A5; apply in_map; exact Ht). apply in_rev in Hi. apply in_map_iff in Hi. destruct Hi as [o [<- Ho]]. apply (proj1 (Forall_forall _ _) A6 o Ho). }
  split; [intros ->; cbn in A7; lia|]. split; [exact (sound_range _ _ _ A6)|]. split; [exact H4|]. split; [exact A8|]. unfold hs2. rewrite A9, hs_re. unfold cre, cmul. cbn [fst snd]. ring.
Qed.
(** *** the next power *)
Definition made_of (m : pmade) (d : made) : Prop :=
  match m, d with PFirst, First => True | PExact l, Exact e => e = map fst l /\ exists D, sound_errors eps D l | PVar l, Varied _ e => e = map fst l /\ sound_errors terr Dmax l | PVar l, Kept _ => l = [] | _, _ => False end.
Definition start_of (n : nat) (T G : coper) : Prop := match stored n with Some G0 => G = G0 | None => same_oper ds G T end.
Definition made_width (D : nat) (d : made) (D' : nat) : Prop :=
  match d with First => D' = D | Exact _ => DH * D <= Dmax /\ D' <= DH * D | Varied _ _ => ~ still ds sweeps /\ Dmax < DH * D /\ D' <= Dmax | Kept _ => still ds sweeps /\ Dmax < DH * D end.
Lemma power_ok : forall dbg n x ts T, 1 < n -> holds4 cx (es_term x) ts -> oper_on cx ds ts -> truthful4 (es_term x) -> same_oper ds (melem ts) T -> dir_holds ds (es_dirs x n) (stored n) ->
  hs2 ds (product ds T X) = 0%R \/ (exists G, start_of n T G /\ hs ds G (product ds T X) = c0) \/
  exists p m fl fr d ms, next_power qr svd svdt svd6 terr Dmin Dmax sweeps tol eps dbg DH mth n x = Ok (p, m, fl, fr) /\ holds4 cx p ms /\ oper_on cx ds ms /\ good_center cx p (length ms) /\
    power_of ds X stored n T d (melem ms) /\ made_of m d /\ made_width (width ts) d (width ms).
Proof.
  intros dbg n x ts T Hn H1 H2 H3 H4 H5. assert (LT := olen ts H2). assert (LX := olen xs MO). destruct (Req_EM_T (hs2 ds (product ds T X)) 0) as [Z|NZ]; [left; exact Z|right].
  assert (PS : same_oper ds (product ds (melem ts) (melem xs)) (product ds T X)) by (apply product_same; assumption). unfold next_power.
  rewrite (bond_ok _ ds ts H1 H2 ltac:(lia)). cbn [bind]. set (D := width ts) in *. assert (NE : (n =? 1) = false) by (apply Nat.eqb_neq; lia).
  assert (LM : length (mtens mth) = length ts) by (rewrite (proj1 MH), map_length; lia).
  assert (SC : forall p ms, holds4 cx p ms -> oper_on cx ds ms -> good_center cx p (length ms) -> exists p' ms', cscale (cre (/ INR n)) p = Ok p' /\ holds4 cx p' ms' /\ oper_on cx ds ms' /\ good_center cx p' (length ms') /\ same_oper ds (melem ms') (o_times (/ INR n) (melem ms)) /\ width ms' = width ms).
  { intros p ms P1 P2 P3. destruct (op_scale cx c0 c1 cadd cmul csub copp cx_ring ds ltac:(lia) p (melem ms) (cre (/ INR n))) as [p' [E [ms' [Q1 [Q2 [Q3 Q4]]]]]]; [exists ms; repeat (split; auto); intros c c' _ _; reflexivity|].
    exists p', ms'. split; [exact E|]. split; [exact Q1|]. split; [exact Q2|]. split; [exact Q3|]. split; [exact Q4|]. destruct (scale_form cx cmul (cre (/ INR n)) p ms P1 P3 ltac:(rewrite (olen _ P2); lia)) as [t [S1 S2]]. rewrite E in S2. injection S2 as ->.
    assert (ms' = upd ms (where_ cx p) (tscale cx cmul (cre (/ INR n)) t)) as -> by (apply TruncMpsInst.map_some_inj; symmetry; exact (proj1 Q1)). apply width_scale. exact S1. }
  destruct (Nat.leb_spec (DH * D) Dmax) as [LE|LE].
  - right. rewrite (mpo_product_ok cx c0 cadd cmul (es_term x) mth _ ts xs ds) by (auto; cbn [mpo_new mtens mtypes]; rewrite ?repeat_length; lia). cbn [bind].
    set (p0 := mkFmpo _ _ _). assert (OP := prod_oper cx c0 cadd cmul ds ts xs H2 MO). assert (LP := olen _ OP). assert (HP : holds4 cx p0 (mpo_prod cx c0 cadd cmul ts xs)) by (split; [reflexivity|cbn [p0 mtypes]; rewrite repeat_length; lia]).
    assert (SP : same_oper ds (melem (mpo_prod cx c0 cadd cmul ts xs)) (product ds T X)) by (intros c c' Hc Hc'; rewrite <- PS by auto; apply (prod_same ds ts xs H2 MO); auto).
    rewrite (bond_ok _ ds _ HP OP ltac:(lia)). cbn [bind]. set (Dp := width (mpo_prod cx c0 cadd cmul ts xs)) in *. assert (DP : 1 <= Dp) by apply width_pos. assert (DL : Dp <= DH * D) by (rewrite Nat.mul_comm, <- WX; apply width_prod; lia).
    destruct (cut_ok dbg 1 Dp p0 _ DP HP OP (none_truthful _ _ _)) as [p1 [ms [l [A1 [A2 [A3 [A4 [A5 [A6 [AW [_ A7]]]]]]]]]]]; [rewrite (hs2_same _ _ _ SP); exact NZ|].
    rewrite A1. cbn [bind fst snd]. destruct (SC p1 ms A2 A3 ltac:(left; exact A5)) as [p' [ms' [B1 [B2 [B3 [B4 [B5 BW]]]]]]]. rewrite B1. cbn [bind]. exists p', (PExact l), (es_fl x), (es_fr x), (Exact (map fst l)), ms'. split; [reflexivity|]. split; [exact B2|]. split; [exact B3|]. split; [exact B4|].
    split; [|split; [split; [reflexivity|exists Dp; exact A6]|cbn [made_width]; rewrite BW; lia]]. unfold power_of. rewrite NE. split; [intros G e [E|E]; discriminate|]. exists (melem ms). split; [|exact B5]. exact (cut_same _ _ _ _ _ SP A7).
  - assert (EG : exists gs, oper_on cx ds gs /\ guess (es_dirs x n) ts gs /\ start_of n T (melem gs)).
    { unfold dir_holds in H5. unfold start_of, guess, saved. destruct (es_dirs x n) as [d|], (stored n) as [G0|]; try contradiction; [destruct H5 as [gs [[G1 [G3 G4]] G2]]; exists gs; auto|exists ts; auto]. }
    destruct EG as [gs [OG [GU SG]]]. rewrite LM. destruct (load_starts ds (es_dirs x n) ts gs (es_term x) H2 OG ltac:(lia) H1 H3 GU) as [b [out [L1 L2]]]. rewrite L1. cbn [bind snd].
    destruct (still_dec ds sweeps) as [SW|SW].
    { right. destruct (vproduct_none qr svd QR SV svd6 terr Dmin Dmax ds ts xs gs (es_term x) mth out H2 MO OG (proj1 H1) (proj1 MH) L2 dbg sweeps tol (es_fl x) (es_fr x)) as [v [p [r [V1 [V2 [V3 [V4 [V5 [V6 [V7 V8]]]]]]]]]]; [unfold still in SW; lia|].
      rewrite V1. cbn [bind]. destruct (SC (vout v) (p :: r) V2 V3) as [p' [ms' [B1 [B2 [B3 [B4 [B5 BW]]]]]]]; [right; rewrite V7, (olen _ V3); lia|].
      rewrite B1. cbn [bind]. exists p', (PVar (vlog v)), (vl v), (vr v), (Kept (melem gs)), ms'. split; [reflexivity|]. split; [exact B2|]. split; [exact B3|]. split; [exact B4|].
      split; [|split; [exact V8|split; [exact SW|exact LE]]]. unfold power_of. rewrite NE. split; [intros G e [E|E]; [discriminate|injection E as <-; exact SG]|]. exists (melem (p :: r)). split; [exact V4|exact B5]. }
    destruct (cx_dec (hs ds (melem gs) (product ds T X))) as [Z|NZ2]; [left; exists (melem gs); auto|right].
    destruct (vproduct_ok qr svd QR SV svd6 terr Dmin Dmax ds ts xs gs (es_term x) mth out H2 MO OG (proj1 H1) (proj1 MH) L2 dbg sweeps tol (es_fl x) (es_fr x) S6 ltac:(unfold still in SW; lia) ltac:(unfold still in SW; lia)) as [v [ms [V1 [V2 _]]]].
    { rewrite (hs_same ds _ _ _ _ (same_refl ds (melem gs)) PS). exact NZ2. }
    rewrite V1. cbn [bind]. destruct (SC (vout v) ms (vr_holds _ _ _ _ _ _ _ _ V2) (vr_oper _ _ _ _ _ _ _ _ V2)) as [p' [ms' [B1 [B2 [B3 [B4 [B5 BW]]]]]]].
    { destruct (vr_flags _ _ _ _ _ _ _ _ V2) as [_ C]. right. rewrite C, (olen _ (vr_oper _ _ _ _ _ _ _ _ V2)). lia. }
    rewrite B1. cbn [bind]. exists p', (PVar (vlog v)), (vl v), (vr v), (Varied (melem gs) (map fst (vlog v))), ms'. split; [reflexivity|]. split; [exact B2|]. split; [exact B3|]. split; [exact B4|].
    split; [|split; [split; [reflexivity|exact (vr_log _ _ _ _ _ _ _ _ V2)]|cbn [made_width]; split; [exact SW|]; split; [exact LE|]; rewrite BW; apply width_le; split; [exact DM|exact (vr_bonds _ _ _ _ _ _ _ _ V2)]]]. unfold power_of. rewrite NE. split; [intros G e [E|E]; [injection E as <- <-; exact SG|discriminate]|]. exists (melem ms). split; [|exact B5]. split; [exact (sound_range _ _ _ (vr_log _ _ _ _ _ _ _ _ V2))|].
    pose proof (vr_near _ _ _ _ _ _ _ _ V2) as A7. destruct (vr_proj _ _ _ _ _ _ _ _ V2) as [A8 A9]. rewrite (hs_same ds (melem ms) (melem ms) _ (product ds T X) (same_refl _ _) PS) in A8. split; [exact A8|]. split; [exact A9|]. rewrite (dist_same ds (melem ms) (melem ms) _ (product ds T X) (same_refl _ _) PS), (dist_same ds (melem gs) (melem gs) _ (product ds T X) (same_refl _ _) PS), (hs2_same ds _ _ PS) in A7. exact A7.
Qed.
(** *** one order *)
(** the state before order n: T the last power, S the sum *)
Record before (n : nat) (T S : coper) (D E : nat) (x : estate) : Prop := {
  b_rho : exists rs, holds4 cx (es_rho x) rs /\ oper_on cx ds rs /\ truthful4 (es_rho x) /\ same_oper ds (melem rs) S /\ width rs = E;
  b_term : exists ts, holds4 cx (es_term x) ts /\ oper_on cx ds ts /\ good_center cx (es_term x) (length ts) /\ (1 < n -> truthful4 (es_term x)) /\ same_oper ds (melem ts) T /\ width ts = D;
  b_dirs : forall m, n <= m -> dir_holds ds (es_dirs x m) (stored m)
}.
Lemma add_ok : forall dbg a b A B, holds4 cx a A -> holds4 cx b B -> oper_on cx ds A -> oper_on cx ds B ->
  exists st C, add2 cx c0 cadd dbg a b = Ok st /\ holds4 cx st C /\ oper_on cx ds C /\ truthful4 st /\ same_oper ds (melem C) (o_plus (melem A) (melem B)) /\ width C <= width A + width B.
Proof.
  intros dbg a b A B H1 H2 H3 H4. assert (LA := olen _ H3). assert (LB := olen _ H4). unfold add2. destruct (mpo_add_ok cx c0 cadd dbg 0 1 [a; b] a b A B ds eq_refl eq_refl H1 H2 H3 H4 ltac:(lia)) as [w' [W1 [W2 [W3 W4]]]].
  rewrite W1. cbn [bind]. unfold vget. rewrite W4. assert (O := mpo_sum_oper cx c0 cadd ds A B H3 H4 ltac:(lia)). eexists. exists (mpo_sum cx c0 cadd A B). split; [reflexivity|].
  split; [split; [reflexivity|cbn [mtypes]; rewrite repeat_length, (olen _ O); reflexivity]|]. split; [exact O|]. split; [apply none_truthful|]. split; [|apply width_sum; lia].
  intros c c' Hc Hc'. unfold melem, FinMpoSpec.elem, o_plus. apply (mpo_sum_elem cx c0 c1 cadd cmul csub copp cx_ring); try apply H3; try apply H4; try lia; rewrite LA; apply cfg_len; assumption.
Qed.
Lemma order_ok : forall dbg n T S D E x, 1 <= n -> before n T S D E x -> (n = 1 -> same_oper ds T X) ->
  (1 < n /\ hs2 ds (product ds T X) = 0%R) \/ (1 < n /\ exists G, start_of n T G /\ hs ds G (product ds T X) = c0) \/ (exists m T', power_of ds X stored n T m T' /\ hs2 ds (o_plus S T') = 0%R) \/
  exists x' o d, power_of ds X stored n T (od_made d) (od_term d) /\ sum_of ds S (od_term d) (od_cut d) (od_sum d) /\ reported ds terr eps Dmax o d /\ before (n + 1) (od_term d) (od_sum d) (od_bond d) (od_sbond d) x' /\ widths (still ds sweeps) DH Dmax D E [d] /\
    (exists f gs, es_dirs x' n = Some f /\ dir_chain ds f gs /\ od_term d = melem gs /\ od_bond d = width gs) /\ (forall m, m <> n -> es_dirs x' m = es_dirs x m) /\
    exp_order qr svd svdt svd6 terr Dmin Dmax sweeps tol ttol eps dbg DH mth (trace ds ident) n x =
      (if Nat.even n then let! _ := assert_ dbg (pos_trace (trace ds (od_term d))) in Ok (x', o, small_trace ttol (trace ds (od_term d)) (trace ds ident)) else Ok (x', o, false)).
Proof.
  intros dbg n T S D E x Hn [[rs [R1 [R2 [R3 [R4 RW]]]]] [ts [T1 [T2 [T3 [T4 [T5 TW]]]]]] BD] HT1.
  assert (P : (1 < n /\ hs2 ds (product ds T X) = 0%R) \/ (1 < n /\ exists G, start_of n T G /\ hs ds G (product ds T X) = c0) \/
    exists p m fl fr d ms, (if 1 <? n then next_power qr svd svdt svd6 terr Dmin Dmax sweeps tol eps dbg DH mth n x else Ok (es_term x, PFirst, es_fl x, es_fr x)) = Ok (p, m, fl, fr) /\ holds4 cx p ms /\ oper_on cx ds ms /\ good_center cx p (length ms) /\ power_of ds X stored n T d (melem ms) /\ made_of m d /\ made_width D d (width ms)).
  { destruct (Nat.ltb_spec 1 n) as [L|L].
    - destruct (power_ok dbg n x ts T L T1 T2 (T4 L) T5 (BD n (le_n n))) as [Z|[Z|Z]]; [left; auto|right; left; auto|right; right; rewrite TW in Z; exact Z].
    - right; right. exists (es_term x), PFirst, (es_fl x), (es_fr x), First, ts. split; [reflexivity|]. split; [exact T1|]. split; [exact T2|]. split; [exact T3|]. split; [|split; [exact I|exact TW]]. unfold power_of. assert (n = 1) by lia. subst n. cbn [Nat.eqb]. split; [reflexivity|].
      intros c c' Hc Hc'. rewrite T5 by auto. apply HT1; auto. }
  destruct P as [Z|[Z|[p [m [fl [fr [d [ms [E1 [P1 [P2 [P3 [P4 [P5 PW]]]]]]]]]]]]]]; [left; exact Z|right; left; exact Z|].
  assert (LM := olen _ P2). destruct (add_ok dbg (es_rho x) p rs ms R1 P1 R2 P2) as [rho [cs [A1 [A2 [A3 [A4 [A5 AW]]]]]]]. rewrite RW in AW. assert (LC := olen _ A3).
  assert (SP : same_oper ds (melem cs) (o_plus S (melem ms))) by (intros c c' Hc Hc'; rewrite A5 by auto; unfold o_plus; rewrite R4 by auto; reflexivity).
  destruct (Req_EM_T (hs2 ds (o_plus S (melem ms))) 0) as [Z|NZ]; [right; right; left; exists d, (melem ms); auto|right; right; right].
  destruct (dump_form cx p ms (es_dirs x n) P1) as [dd [D1 [D2 D3]]]. assert (ED := bond_ok _ ds _ A2 A3 ltac:(lia)).
  assert (W : exists rho2 cs2 ol cut, (if Dmax <? width cs then let! w := mpo_truncate qr svd svdt dbg eps Dmax Dmax rho in Ok (fst w, Some (snd w)) else Ok (rho, None)) = Ok (rho2, ol) /\ holds4 cx rho2 cs2 /\ oper_on cx ds cs2 /\ truthful4 rho2 /\
    cut_from ds (melem cs) cut (melem cs2) /\ match ol with None => cut = [] | Some l => cut = map fst l /\ sound_errors eps Dmax l end /\ (cut <> [] -> Dmax < E + width ms) /\ width cs2 <= Nat.min Dmax (E + width ms)).
  { destruct (Nat.ltb_spec Dmax (width cs)) as [LL|LL].
    - destruct (cut_ok dbg Dmax Dmax rho cs DM A2 A3 A4) as [p1 [ms1 [l [B1 [B2 [B3 [B4 [B5 [B6 [BW [_ B7]]]]]]]]]]]; [rewrite (hs2_same _ _ _ SP); exact NZ|]. exists p1, ms1, (Some l), (map fst l). rewrite B1. cbn [bind fst snd]. split; [reflexivity|]. split; [exact B2|]. split; [exact B3|]. split; [exact B4|]. split; [exact B7|]. split; [split; [reflexivity|exact B6]|]. split; lia.
    - exists rho, cs, None, []. split; [reflexivity|]. split; [exact A2|]. split; [exact A3|]. split; [exact A4|]. split; [|split; [reflexivity|split; [intros C; exfalso; apply C; reflexivity|lia]]]. split; [constructor|]. split; [rewrite (hs2_same _ _ _ SP); exact NZ|]. split; [reflexivity|]. cbn [remains fold_right]. ring. }
  destruct W as [rho2 [cs2 [ol [cut [W1 [W2 [W3 [W4 [W5 [W6 [W7 W8]]]]]]]]]]].
  exists (mkEst rho2 (mkFmpo (mtens p) (repeat NONE (length ds)) (-1)%Z) (dset (es_dirs x) n dd) fl fr), (mkOlog m ol (trace ds (melem ms))), (mkOrder d (melem ms) cut (melem cs2) (width ms) (width cs2)). cbn [od_made od_term od_cut od_sum od_bond od_sbond es_dirs widths].
  split; [exact P4|]. split; [exact (cut_same _ _ _ _ _ SP W5)|].
  split. { split; [exact P5|]. split; [exact W6|reflexivity]. }
  split. { split; cbn [es_rho es_term es_dirs].
    - exists cs2. split; [exact W2|]. split; [exact W3|]. split; [exact W4|]. split; [apply same_refl|reflexivity].
    - exists ms. split; [split; [exact (proj1 P1)|cbn [mtypes]; rewrite repeat_length; lia]|]. split; [exact P2|]. split; [left; reflexivity|]. split; [intros _; apply none_truthful|]. split; [apply same_refl|reflexivity].
    - intros k Hk. unfold dset. destruct (Nat.eqb_spec k n); [lia|]. apply BD. lia. }
  split. { split; [exact PW|]. split; [exact W7|]. split; [exact W8|exact I]. }
  split. { unfold dset. rewrite Nat.eqb_refl. exists dd, ms. split; [reflexivity|]. split; [|split; reflexivity]. split; [exact P2|]. split; [intros i t Hi; rewrite D3, Hi; reflexivity|]. rewrite D2. destruct P3 as [P3|P3]; [rewrite P3; lia|lia]. }
  split. { intros k Hk. unfold dset. destruct (Nat.eqb_spec k n); [contradiction|reflexivity]. }
  unfold exp_order. rewrite E1. cbn [bind]. rewrite A1. cbn [bind]. rewrite D1. cbn [bind]. rewrite (mpo_trace_ok cx c0 c1 cadd cmul csub copp cx_ring p ms ds P1 P2 ltac:(lia)). cbn [bind]. rewrite ED. cbn [bind]. rewrite W1. cbn [bind fst snd]. reflexivity.
Qed.
(** *** all orders *)
Lemma tiny_ok : forall T, small_trace ttol (trace ds T) (trace ds ident) = true <-> tiny ds ttol T.
Proof.
  intros T. unfold small_trace, tiny. destruct (Req_EM_T (cmod (trace ds ident)) 0) as [E|E]; [split; [discriminate|intros [A _]; contradiction]|].
  destruct (Rlt_dec (cmod (trace ds T) / cmod (trace ds ident)) ttol) as [L|L]; split; intros; auto; [discriminate|tauto].
Qed.
(** the state after the orders [h] *)
Record after (dirs : hdirs) (h : list order) (out : list olog) (x : estate) : Prop := {
  a_orders : orders ds X stored 1 X ident h;
  a_before : before (length h + 1) (last_term X h) (last_sum ident h) (last (map od_bond h) DH) (last (map od_sbond h) 1) x;
  a_width : widths (still ds sweeps) DH Dmax DH 1 h;
  a_out : Forall2 (reported ds terr eps Dmax) out h;
  a_files : files ds dirs h (es_dirs x);
  a_on : went_on ds ttol h
}.
Lemma orders_ok : forall dbg dirs top fuel h out x, after dirs h out x -> top = length h + fuel -> (1 <= length h -> Nat.even (length h) = true -> ~ tiny ds ttol (last_term X h)) ->
  exists h', orders ds X stored 1 X ident h' /\ widths (still ds sweeps) DH Dmax DH 1 h' /\ went_on ds ttol h' /\ length h' <= top /\
  ((exists x' out', exp_orders qr svd svdt svd6 terr Dmin Dmax sweeps tol ttol eps dbg DH mth (trace ds ident) (length h + 1) fuel x out = Ok (x', out') /\ after dirs h' out' x' /\ ended ds ttol X top h') \/
   (exp_orders qr svd svdt svd6 terr Dmin Dmax sweeps tol ttol eps dbg DH mth (trace ds ident) (length h + 1) fuel x out = Abort /\ stopped_at_sign ds X dbg h') \/
   degenerate ds X stored top h').
Proof.
  intros dbg dirs top. induction fuel as [|fuel IH]; intros h out x [A1 A2 AW A3 A4 A5] HT HS.
  - exists h. split; [exact A1|]. split; [exact AW|]. split; [exact A5|]. split; [lia|]. left. exists x, out. split; [reflexivity|]. split; [split; assumption|]. left. lia.
  - assert (T1 : length h + 1 = 1 -> same_oper ds (last_term X h) X) by (intros E; destruct h; [apply same_refl|cbn in E; lia]).
    destruct (order_ok dbg (length h + 1) (last_term X h) (last_sum ident h) _ _ x ltac:(lia) A2 T1) as [Z|[Z|[Z|Z]]].
    1-3: exists h; split; [exact A1|]; split; [exact AW|]; split; [exact A5|]; split; [lia|]; right; right; unfold degenerate; left; split; [lia|].
    { left. exact Z. } { right. left. exact Z. } { right. right. exact Z. }
    destruct Z as [x' [o [d [O1 [O2 [O3 [O4 [OW [O5 [O6 O7]]]]]]]]]]. set (h1 := h ++ [d]). assert (L1 : length h1 = length h + 1) by (unfold h1; rewrite app_length; reflexivity).
    assert (LT : last_term X h1 = od_term d) by apply last_term_snoc. assert (LS : last_sum ident h1 = od_sum d) by apply last_sum_snoc.
    assert (R1 : orders ds X stored 1 X ident h1). { unfold h1. apply orders_snoc; auto. rewrite Nat.add_comm. exact O1. }
    assert (R5 : went_on ds ttol h1). { intros i e Hi Hl He. rewrite L1 in Hl. unfold h1 in Hi. rewrite nth_error_app1 in Hi by lia. destruct (Nat.eq_dec (i + 1) (length h)) as [E|E]; [|apply (A5 i e); auto; lia].
      replace (od_term e) with (last_term X h); [apply HS; [lia|rewrite <- E; exact He]|]. destruct h as [|e0 h0] using rev_ind; [cbn in E; lia|]. rewrite last_term_snoc. rewrite app_length in E. cbn [length] in E. rewrite nth_error_app2 in Hi by lia. replace (i - length h0) with 0 in Hi by lia. injection Hi as <-. reflexivity. }
    assert (RW : widths (still ds sweeps) DH Dmax DH 1 h1) by (apply widths_snoc; auto).
    assert (R : after dirs h1 (out ++ [o]) x').
    { split; [exact R1|unfold h1; rewrite !map_app; cbn [map]; rewrite !last_last; fold h1; rewrite L1, LT, LS; exact O4|exact RW|apply Forall2_app; auto| |exact R5]. destruct A4 as [F1 F2]. split.
      - intros i e Hi. unfold h1 in Hi. destruct (Nat.lt_ge_cases i (length h)) as [L|L].
        + rewrite nth_error_app1 in Hi by lia. rewrite O6 by lia. apply F1. exact Hi.
        + assert (i < length h1) by (apply nth_error_Some; unfold h1; rewrite Hi; discriminate). assert (i = length h) by lia. subst i. rewrite nth_error_app2, Nat.sub_diag in Hi by lia. injection Hi as <-. exact O5.
      - intros m Hm. rewrite L1 in Hm. rewrite O6 by lia. apply F2. lia. }
    cbn [exp_orders]. rewrite O7. destruct (Nat.even (length h + 1)) eqn:EV.
    + destruct (pos_trace (trace ds (od_term d))) eqn:EP.
      * replace (assert_ dbg true) with (Ok tt) by (destruct dbg; reflexivity). cbn [bind]. destruct (small_trace ttol (trace ds (od_term d)) (trace ds ident)) eqn:ES.
        -- apply tiny_ok in ES. exists h1. split; [exact R1|]. split; [exact RW|]. split; [exact R5|]. split; [lia|]. left. exists x', (out ++ [o]). split; [reflexivity|]. split; [exact R|]. unfold ended. rewrite LT. rewrite L1. destruct fuel; [left; lia|right; split; [lia|]; split; [lia|]; split; assumption].
        -- replace (S (length h + 1)) with (length h1 + 1) by lia. apply IH; [exact R|lia|]. intros _ _ C. rewrite LT in C. apply tiny_ok in C. congruence.
      * assert (SG : (fst (trace ds (od_term d)) <= 0)%R) by (unfold pos_trace in EP; destruct (Rlt_dec 0 (fst (trace ds (od_term d)))); [discriminate|lra]).
        destruct dbg eqn:EB.
        -- exists h1. split; [exact R1|]. split; [exact RW|]. split; [exact R5|]. split; [lia|]. right. left. split; [reflexivity|]. split; [reflexivity|]. rewrite LT, L1. repeat split; auto; lia.
        -- cbn [assert_ bind]. destruct (small_trace ttol (trace ds (od_term d)) (trace ds ident)) eqn:ES.
           ++ apply tiny_ok in ES. exists h1. split; [exact R1|]. split; [exact RW|]. split; [exact R5|]. split; [lia|]. left. exists x', (out ++ [o]). split; [reflexivity|]. split; [exact R|]. unfold ended. rewrite LT. rewrite L1. destruct fuel; [left; lia|right; split; [lia|]; split; [lia|]; split; assumption].
           ++ replace (S (length h + 1)) with (length h1 + 1) by lia. apply IH; [exact R|lia|]. intros _ _ C. rewrite LT in C. apply tiny_ok in C. congruence.
    + cbn [bind]. replace (S (length h + 1)) with (length h1 + 1) by lia. apply IH; [exact R|lia|]. intros _ C _. rewrite L1 in C. congruence.
Qed.
(** *** the end *)
Lemma finish_ok : forall dbg rho rs S, holds4 cx rho rs -> oper_on cx ds rs -> truthful4 rho -> same_oper ds (melem rs) S -> hs2 ds S <> 0%R ->
  exists rho', (let! rho := mcentralize qr svd dbg 0 rho in let! rho := mtouch cx 0 rho in let! t := mderef cx rho 0 in let! rho := mput cx 0 (Some (tscale cx cmul (cinv (norm4 t)) t)) rho in Ok (fst (norm4 t), rho)) = Ok (onorm ds S, rho') /\
    normal_form ds S rho'.
Proof.
  intros dbg rho rs S H1 H2 H3 H4 H5. assert (LR := olen _ H2).
  destruct (mcentral_ok qr svd QR SV dbg rs rho 0 H1 ltac:(apply H2) H3 ltac:(lia)) as [st [l [p [r [E1 [E2 [E3 [E4 [E5 [E6 [E7 [E8 [E9 E10]]]]]]]]]]]]]. destruct l; [|discriminate]. cbn [app] in *.
  change (Z.of_nat 0) with 0%Z in E1. rewrite E1. cbn [bind]. destruct (same4_oper ds _ _ H2 E3) as [OP SM].
  assert (LP := olen _ OP). cbn [length] in LP. destruct E2 as [T1 T2]. cbn [map] in T1. assert (T3 : length (mtypes st) = length ds) by (cbn [length] in T2; lia).
  rewrite mtouch_ok by (rewrite ?T1; cbn [length map]; lia). cbn [bind]. unfold mderef, mput. cbn [mtens mtypes mcenter]. rewrite T1. cbn [vget nth_error bind]. unfold vset. cbn [length Nat.ltb Nat.leb bind upd].
  assert (SS : same_oper ds (melem (p :: r)) S) by (intros c c' Hc Hc'; rewrite <- H4 by auto; apply SM; auto).
  assert (CN : hs2 ds S = ten2 p) by (rewrite <- (hs2_same _ _ _ SS); apply (center_norm ds [] p r OP (Forall_nil _) E8)).
  eexists. split; [unfold norm4, cre, onorm at 1; cbn [fst]; rewrite CN; reflexivity|].
  destruct (melem_scale ds [] p r (cinv (norm4 p)) OP) as [S1 S2]. cbn [app] in S1, S2.
  assert (CI : cinv (norm4 p) = cre (/ onorm ds S)) by (unfold cinv, norm4, onorm; rewrite CN; reflexivity). assert (P0 := hs2_pos ds S). assert (N0 : (0 < onorm ds S)%R) by (apply sqrt_lt_R0; lra).
  assert (S3 : same_oper ds (melem (tscale cx cmul (cinv (norm4 p)) p :: r)) (o_times (/ onorm ds S) S)) by (intros c c' Hc Hc'; rewrite S2 by auto; rewrite CI, SS by auto; reflexivity).
  exists (tscale cx cmul (cinv (norm4 p)) p :: r). split; [split; [reflexivity|cbn [mtypes]; rewrite upd_length; cbn [length] in *; lia]|]. split; [exact S1|].
  split. { rewrite (hs2_same _ _ _ S3). pose proof (onorm_times ds (/ onorm ds S) S (Rlt_le _ _ (Rinv_0_lt_compat _ N0))) as E. rewrite <- (onorm_sq ds (o_times _ S)), E. field. lra. }
  split. { intros c c' Hc Hc'. unfold o_times at 1. rewrite S3 by auto. unfold o_times. transitivity (cmul (cmul (cre (onorm ds S)) (cre (/ onorm ds S))) (S c c')); [ring|]. rewrite <- cre_mul, Rinv_r by lra. change (cre 1) with c1. ring. }
  split; [reflexivity|]. split; [cbn [mtypes]; rewrite nth_error_upd, Nat.eqb_refl, T3; destruct (Nat.ltb_spec 0 (length ds)); [reflexivity|lia]|].
  intros j Hj. cbn [mtypes mtens]. rewrite nth_error_upd. destruct (Nat.eqb_spec 0 j); [lia|]; cbn [andb]. split; [apply E10; lia|]. destruct j; [lia|]. cbn [nth_error]. rewrite nth_error_map. destruct (nth_error r j) as [t|] eqn:ER; [|apply nth_error_None in ER; lia]. exists t. split; [reflexivity|].
  apply (proj1 (Forall_forall _ _) E8). eapply nth_error_In. exact ER.
Qed.
End Run.

(** *** the call *)
Theorem exp_mpo_ok : forall qr svd svdt svd6 terr Dmin Dmax sweeps tol ttol eps dbg ds ham H tau top dirs stored fl fr,
  qr4_exact qr -> svd4_exact svd -> (forall a b, 1 <= b -> good4 eps a b svdt) -> good6 terr Dmin Dmax svd6 -> 1 <= Dmax -> 2 <= length ds ->
  holds4 cx ham H -> oper_on cx ds H -> good_center cx ham (length ds) -> (forall n, dir_holds ds (dirs n) (stored n)) ->
  exists h, orders ds (o_times (- tau) (melem H)) stored 1 (o_times (- tau) (melem H)) ident h /\ widths (still ds sweeps) (width H) Dmax (width H) 1 h /\ went_on ds ttol h /\ length h <= top - 1 /\
  ((exists rho x out, exp_finite_mpo qr svd svdt svd6 terr Dmin Dmax sweeps tol ttol eps dbg ham tau top dirs fl fr = Ok (onorm ds (last_sum ident h), rho, x, out) /\
      normal_form ds (last_sum ident h) rho /\ ended ds ttol (o_times (- tau) (melem H)) (top - 1) h /\ Forall2 (reported ds terr eps Dmax) out h /\ files ds dirs h (es_dirs x)) \/
   (exp_finite_mpo qr svd svdt svd6 terr Dmin Dmax sweeps tol ttol eps dbg ham tau top dirs fl fr = Abort /\ stopped_at_sign ds (o_times (- tau) (melem H)) dbg h) \/
   degenerate ds (o_times (- tau) (melem H)) stored (top - 1) h).
Proof.
  intros qr svd svdt svd6 terr Dmin Dmax sweeps tol ttol eps dbg ds ham H tau top dirs stored fl fr QR SV ST S6 DM N2 H1 H2 H3 H4. set (X := o_times (- tau) (melem H)).
  assert (LH := oper_len cx _ _ H2). assert (E1 := bond_ok ham ds H H1 H2 ltac:(lia)).
  destruct (op_scale cx c0 c1 cadd cmul csub copp cx_ring ds ltac:(lia) ham (melem H) (cre (- tau))) as [mth [E2 [xs [M1 [M2 [M3 M4]]]]]]; [exists H; rewrite LH; repeat (split; auto); intros c c' _ _; reflexivity|].
  assert (WX : width xs = width H). { destruct (scale_form cx cmul (cre (- tau)) ham H H1 ltac:(rewrite LH; exact H3) ltac:(lia)) as [t [S1 S2]]. rewrite E2 in S2. injection S2 as ->. assert (xs = upd H (where_ cx ham) (tscale cx cmul (cre (- tau)) t)) as -> by (apply TruncMpsInst.map_some_inj; symmetry; exact (proj1 M1)). apply width_scale. exact S1. }
  assert (E3 := mpo_identity_ok cx c0 c1 ham H ds H1 H2 ltac:(lia)). set (r0 := mkFmpo (map Some (map (id_ten cx c0 c1) H)) (repeat NONE (length ds)) (-1)%Z) in E3. set (is := map (id_ten cx c0 c1) H) in *.
  assert (I1 : oper_on cx ds is) by (apply id_oper; exact H2). assert (I2 : holds4 cx r0 is) by (split; [reflexivity|cbn [r0 mtypes]; rewrite repeat_length; symmetry; apply (oper_len cx _ _ I1)]).
  assert (I3 : same_oper ds (melem is) ident). { intros c c' Hc Hc'. unfold melem, FinMpoSpec.elem, ident, is. apply (id_elem cx c0 c1 cadd cmul csub copp cx_ring); [rewrite (proj1 (proj2 H2)); apply cfg_in; exact Hc|rewrite LH; apply (cfg_len ds); exact Hc']. }
  assert (E4 := mpo_trace_ok cx c0 c1 cadd cmul csub copp cx_ring r0 is ds I2 I1 ltac:(lia)).
  assert (E5 : o_trace cx c0 cadd ds (elem cx c0 c1 cadd cmul is) = trace ds ident) by (unfold trace, o_trace; apply csum_ext; intros c Hc; apply I3; exact Hc).
  destruct (orders_ok qr svd svdt svd6 terr Dmin Dmax sweeps tol ttol eps QR SV ST S6 DM ds N2 X stored mth xs M1 M2 M4 (width H) WX dbg dirs (top - 1) (top - 1) [] [] (mkEst (mkFmpo (mtens r0) (repeat NONE (length ds)) (-1)%Z) mth dirs fl fr)) as [h [O1 [OW [O2 [O3 O4]]]]].
  { split; [exact I| |exact I| |split; [intros [|] o E; discriminate|auto]|intros [|] o E; discriminate].
    - split; cbn [es_rho es_term es_dirs length Nat.add map last].
      + exists is. split; [split; [reflexivity|cbn [mtypes]; rewrite repeat_length; symmetry; apply (oper_len cx _ _ I1)]|]. split; [exact I1|]. split; [apply none_truthful|]. split; [exact I3|].
        apply Nat.le_antisymm; [|apply width_pos]. apply width_le. split; [lia|]. unfold is. clear. destruct H; [constructor|]. cbn [map tl]. apply Forall_map, Forall_forall. intros y _. cbn [id_ten m0]. lia.
      + exists xs. split; [exact M1|]. split; [exact M2|]. split; [exact M3|]. split; [lia|]. split; [exact M4|exact WX].
      + intros m _. apply H4.
    - constructor. }
  { reflexivity. } { cbn. lia. }
  exists h. split; [exact O1|]. split; [exact OW|]. split; [exact O2|]. split; [exact O3|]. unfold exp_finite_mpo. rewrite E1. cbn [bind]. rewrite E2. cbn [bind]. rewrite E3. cbn [bind]. rewrite E4. cbn [bind]. rewrite E5. cbn [length Nat.add] in O4.
  destruct O4 as [[x [out [P1 [P2 P3]]]]|[[P1 P2]|P1]].
  - rewrite P1. cbn [bind]. destruct P2 as [_ PB _ PO PF _]; destruct PB as [PR _ _]; destruct PR as [rs [R1 [R2 [R3 [R4 _]]]]]. destruct (Req_EM_T (hs2 ds ident) 0) as [Z|NI]; [right; right; right; exact Z|left].
    assert (NZ := last_nonzero ds X stored h 1 X ident NI O1).
    destruct (finish_ok qr svd Dmax QR SV DM ds N2 xs (width H) WX dbg (es_rho x) rs (last_sum ident h) R1 R2 R3 R4 NZ) as [rho [F1 F2]]. exists rho, x, out. split; [|split; [exact F2|]; split; [exact P3|]; split; [exact PO|exact PF]].
    revert F1. destruct (mcentralize qr svd dbg 0 (es_rho x)) as [a| |]; cbn [bind]; try discriminate. destruct (mtouch cx 0 a) as [b| |]; cbn [bind]; try discriminate. destruct (mderef cx b 0) as [t| |]; cbn [bind]; try discriminate.
    destruct (mput cx 0 (Some (tscale cx cmul (cinv (norm4 t)) t)) b) as [e| |]; cbn [bind]; try discriminate. intros F1. injection F1 as F3 F4. rewrite <- F3, F4. reflexivity.
  - right. left. rewrite P1. cbn [bind]. auto.
  - right. right. exact P1.
Qed.
