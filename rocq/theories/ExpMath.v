(** The 2-norm of operators: triangle inequality, norm of a product, and the Taylor series. *)
From Coq Require Import List Arith Lia Bool ZArith Reals Lra Psatz Ring Factorial.
From Verif Require Import Base FiniteMps FmpsSpec EffHam EffHamSpec EffHamFacts FinMpo FinMpoSpec FinMpoFacts FinMpoExp Cx GVec DmrgStep MpoCanoSpec MpoTrunc MpoCanoInst MpoVarSpec MpoVarTop ExpMpoSpec.
From Verif Require CorrSpec CorrRun.
Import ListNotations.
Local Open Scope nat_scope.
Notation ab2 := CorrSpec.ab2.
Notation rsum := CorrRun.rsum.

Lemma rsum_ext : forall A (l : list A) f g, (forall x, In x l -> f x = g x) -> rsum l f = rsum l g.
Proof. induction l as [|x l IH]; intros f g H; [reflexivity|]. cbn [CorrRun.rsum]. rewrite H, (IH f g); [reflexivity|intros; apply H; right; auto|left; auto]. Qed.
Lemma rsum_le : forall A (l : list A) f g, (forall x, In x l -> (f x <= g x)%R) -> (rsum l f <= rsum l g)%R.
Proof. induction l as [|x l IH]; intros f g H; cbn [CorrRun.rsum]; [lra|]. pose proof (H x (or_introl eq_refl)). pose proof (IH f g (fun y Hy => H y (or_intror Hy))). lra. Qed.
Lemma rsum_add : forall A (l : list A) f g, rsum l (fun x => (f x + g x)%R) = (rsum l f + rsum l g)%R.
Proof. induction l as [|x l IH]; intros f g; cbn [CorrRun.rsum]; [ring|]. rewrite IH. ring. Qed.
Lemma rsum_mul : forall A (l : list A) a f, rsum l (fun x => (a * f x)%R) = (a * rsum l f)%R.
Proof. induction l as [|x l IH]; intros a f; cbn [CorrRun.rsum]; [ring|]. rewrite IH. ring. Qed.
Lemma rsum_swap : forall A B (l : list A) (k : list B) f, rsum l (fun x => rsum k (fun y => f x y)) = rsum k (fun y => rsum l (fun x => f x y)).
Proof.
  induction l as [|x l IH]; intros k f; cbn [CorrRun.rsum]; [symmetry; induction k as [|y k IK]; cbn [CorrRun.rsum]; [reflexivity|]; rewrite IK; ring|].
  rewrite IH, rsum_add. reflexivity.
Qed.
Lemma rsum_prod : forall A B (l : list A) (k : list B) f, rsum (list_prod l k) f = rsum l (fun x => rsum k (fun y => f (x, y))).
Proof.
  assert (AP : forall A (l k : list A) f, rsum (l ++ k) f = (rsum l f + rsum k f)%R) by (induction l as [|x l IH]; intros k f; cbn [app CorrRun.rsum]; [ring|]; rewrite IH; ring).
  assert (MP : forall A B (g : A -> B) l f, rsum (map g l) f = rsum l (fun x => f (g x))) by (induction l as [|x l IH]; intros f; cbn [map CorrRun.rsum]; [reflexivity|]; rewrite IH; reflexivity).
  induction l as [|x l IH]; intros k f; [reflexivity|]. cbn [list_prod CorrRun.rsum]. rewrite AP, MP, IH. reflexivity.
Qed.
Lemma csum_ab2 : forall A (l : list A) f, csum_l l (fun x => cre (f x)) = cre (rsum l f).
Proof. induction l as [|x l IH]; intros f; [reflexivity|]. unfold csum_l in *. cbn [fold_right CorrRun.rsum]. rewrite IH. unfold cadd, cre. cbn [fst snd]. f_equal. ring. Qed.
(** all pairs of configurations *)
Definition cc (ds : list nat) := list_prod (configs ds) (configs ds).
Lemma hs2_rsum : forall ds A, hs2 ds A = rsum (cc ds) (fun p => ab2 (A (fst p) (snd p))).
Proof.
  intros ds A. unfold hs2, hs, cc. rewrite rsum_prod. cbn [fst snd]. rewrite (csum_ext _ _ _ (fun c => cre (rsum (configs ds) (fun c' => ab2 (A c c'))))), csum_ab2; [reflexivity|].
  intros c _. rewrite <- csum_ab2. apply csum_ext. intros c' _. apply CorrRun.self_ab2.
Qed.
Lemma hs2_pos : forall ds A, (0 <= hs2 ds A)%R.
Proof. intros. rewrite hs2_rsum. apply CorrRun.rsum_pos. intros; apply CorrRun.ab2_pos. Qed.
Lemma onorm_pos : forall ds A, (0 <= onorm ds A)%R. Proof. intros. apply sqrt_pos. Qed.
Lemma onorm_sq : forall ds A, (onorm ds A * onorm ds A = hs2 ds A)%R. Proof. intros. apply sqrt_sqrt, hs2_pos. Qed.
Lemma onorm_same : forall ds A B, same_oper ds A B -> onorm ds A = onorm ds B. Proof. intros ds A B H. unfold onorm. f_equal. apply hs2_same. exact H. Qed.
Lemma odist_same : forall ds A A' B B', same_oper ds A A' -> same_oper ds B B' -> odist ds A B = odist ds A' B'.
Proof. intros ds A A' B B' H1 H2. unfold odist. apply onorm_same. intros c c' Hc Hc'. unfold o_sub. rewrite H1, H2 by auto. reflexivity. Qed.
Lemma odist_sqrt : forall ds A B, odist ds A B = sqrt (hsdist2 ds A B). Proof. reflexivity. Qed.
Lemma sq_le : forall x y, (0 <= y -> x * x <= y * y -> x <= y)%R.
Proof. intros x y H1 H2. destruct (Rle_or_lt x y); [assumption|nra]. Qed.
Lemma onorm_plus : forall ds A B, (onorm ds (o_plus A B) <= onorm ds A + onorm ds B)%R.
Proof.
  intros ds A B. pose proof (onorm_pos ds A) as PA. pose proof (onorm_pos ds B) as PB. pose proof (onorm_sq ds A) as SA. pose proof (onorm_sq ds B) as SB. apply sq_le; [lra|]. rewrite onorm_sq.
  pose proof (CorrRun.schwarz _ (cc ds) (fun p => A (fst p) (snd p)) (fun p => B (fst p) (snd p))) as S. cbv beta in S. rewrite <- (hs2_rsum ds A), <- (hs2_rsum ds B) in S.
  set (z := lsum cx c0 cadd _ _) in S.
  assert (E : hs2 ds (o_plus A B) = (hs2 ds A + hs2 ds B + 2 * fst z)%R).
  { unfold z. clear. rewrite !hs2_rsum. unfold o_plus. induction (cc ds) as [|p l IH]; [cbn; ring|]. cbn [CorrRun.rsum lsum fold_right]. rewrite IH. unfold lsum. set (w := fold_right _ _ l). unfold CorrSpec.ab2, cadd, cmul, cconj. cbn [fst snd]. ring. }
  rewrite E. assert (F : (fst z <= onorm ds A * onorm ds B)%R).
  { apply sq_le; [nra|]. replace (onorm ds A * onorm ds B * (onorm ds A * onorm ds B))%R with (hs2 ds A * hs2 ds B)%R by (rewrite <- SA, <- SB; ring). eapply Rle_trans; [|exact S]. unfold CorrSpec.ab2. nra. }
  nra.
Qed.
Lemma odist_tri : forall ds A B C, (odist ds A C <= odist ds A B + odist ds B C)%R.
Proof. intros ds A B C. unfold odist. eapply Rle_trans; [|apply onorm_plus]. right. apply onorm_same. intros c c' _ _. unfold o_sub, o_plus. ring. Qed.
Lemma odist_plus : forall ds A B C D, (odist ds (o_plus A B) (o_plus C D) <= odist ds A C + odist ds B D)%R.
Proof. intros ds A B C D. unfold odist. eapply Rle_trans; [|apply onorm_plus]. right. apply onorm_same. intros c c' _ _. unfold o_sub, o_plus. ring. Qed.
Lemma onorm_times : forall ds a A, (0 <= a)%R -> onorm ds (o_times a A) = (a * onorm ds A)%R.
Proof.
  intros ds a A H. unfold onorm. replace (hs2 ds (o_times a A)) with (a * a * hs2 ds A)%R.
  - rewrite sqrt_mult by (try nra; apply hs2_pos). rewrite sqrt_square by exact H. reflexivity.
  - rewrite !hs2_rsum, <- rsum_mul. apply rsum_ext. intros p _. unfold o_times. rewrite CorrRun.ab2_mul. f_equal. unfold CorrSpec.ab2, cre. cbn [fst snd]. ring.
Qed.
Lemma odist_times : forall ds a A B, (0 <= a)%R -> odist ds (o_times a A) (o_times a B) = (a * odist ds A B)%R.
Proof. intros ds a A B H. unfold odist. rewrite <- onorm_times by exact H. apply onorm_same. intros c c' _ _. unfold o_sub, o_times. ring. Qed.
Lemma onorm_product : forall ds A B, (onorm ds (product ds A B) <= onorm ds A * onorm ds B)%R.
Proof.
  intros ds A B. pose proof (onorm_pos ds A) as PA. pose proof (onorm_pos ds B) as PB. apply sq_le; [nra|]. rewrite onorm_sq.
  replace (onorm ds A * onorm ds B * (onorm ds A * onorm ds B))%R with (hs2 ds A * hs2 ds B)%R by (rewrite <- !onorm_sq; ring).
  rewrite !hs2_rsum. unfold cc. rewrite !rsum_prod. cbn [fst snd].
  apply Rle_trans with (rsum (configs ds) (fun c => rsum (configs ds) (fun c' => (rsum (configs ds) (fun k => ab2 (A k c')) * rsum (configs ds) (fun k => ab2 (B c k)))%R))).
  - apply rsum_le. intros c _. apply rsum_le. intros c' _. unfold product, o_mul. pose proof (CorrRun.schwarz _ (configs ds) (fun k => cconj (A k c')) (fun k => B c k)) as S.
    rewrite (rsum_ext _ _ (fun k => ab2 (cconj (A k c'))) (fun k => ab2 (A k c'))) in S by (intros; apply CorrRun.ab2_conj). eapply Rle_trans; [|exact S]. right. f_equal. apply (lsum_ext cx c0 cadd). intros k _. rewrite cconj_conj. reflexivity.
  - right. rewrite (rsum_ext _ (configs ds) _ (fun c => (rsum (configs ds) (fun c' => rsum (configs ds) (fun k => ab2 (A k c'))) * rsum (configs ds) (fun k => ab2 (B c k)))%R)).
    + rewrite rsum_mul. f_equal. apply rsum_swap.
    + intros c _. rewrite Rmult_comm, <- rsum_mul. apply rsum_ext. intros c' _. ring.
Qed.
Lemma product_sub : forall ds A B X, same_oper ds (o_sub (product ds A X) (product ds B X)) (product ds (o_sub A B) X).
Proof.
  intros ds A B X c c' _ _. unfold o_sub, product, o_mul. induction (configs ds) as [|k l IH]; [cbn; unfold csub, c0; cbn; f_equal; ring|]. unfold lsum in *. cbn [fold_right]. rewrite <- IH. ring.
Qed.
Lemma product_same : forall ds A A' B B', same_oper ds A A' -> same_oper ds B B' -> same_oper ds (product ds A B) (product ds A' B').
Proof. intros ds A A' B B' H1 H2 c c' Hc Hc'. unfold product, o_mul. apply (lsum_ext cx c0 cadd). intros k Hk. rewrite H1, H2 by auto. reflexivity. Qed.
Lemma odist_product : forall ds A B X, (odist ds (product ds A X) (product ds B X) <= odist ds A B * onorm ds X)%R.
Proof. intros ds A B X. unfold odist. rewrite (onorm_same _ _ _ (product_sub ds A B X)). apply onorm_product. Qed.
Lemma odist_pos : forall ds A B, (0 <= odist ds A B)%R. Proof. intros. apply onorm_pos. Qed.
Lemma odist_self : forall ds A B, same_oper ds A B -> odist ds A B = 0%R.
Proof.
  intros ds A B H. unfold odist, onorm. rewrite hs2_rsum. rewrite (rsum_ext _ _ _ (fun _ => (0 * 0)%R)), rsum_mul, Rmult_0_l; [apply sqrt_0|].
  intros [c c'] Hp. apply in_prod_iff in Hp. destruct Hp as [Hc Hc']. unfold o_sub. cbn [fst snd]. rewrite H by auto. unfold CorrSpec.ab2, csub. cbn [fst snd]. ring.
Qed.
Lemma odist_sym : forall ds A B, odist ds A B = odist ds B A.
Proof. intros ds A B. unfold odist, onorm. f_equal. rewrite !hs2_rsum. apply rsum_ext. intros p _. unfold o_sub, CorrSpec.ab2, csub. cbn [fst snd]. ring. Qed.

(** *** the series *)
Lemma cut_dist : forall ds P es M, cut_from ds P es M -> (hsdist2 ds M P <= lost_sum es * hs2 ds P)%R.
Proof.
  intros ds P es M [H0 [_ [H1 H2]]]. rewrite (proj_dist _ _ _ H1). rewrite H2. destruct (remains_bound es H0) as [R1 [R2 R3]]. pose proof (hs2_pos ds P). nra.
Qed.
Lemma cut_nonzero : forall ds P es M, cut_from ds P es M -> hs2 ds M <> 0%R.
Proof. intros ds P es M [H0 [H1 [_ H2]]]. rewrite H2. destruct (remains_bound es H0) as [R1 _]. intros Z. apply Rmult_integral in Z. destruct Z; lra. Qed.
Section Series.
Variables (ds : list nat) (a : real) (H : coper).
Definition gen : coper := o_times a H.
Notation X := gen.
Lemma rnat_cx : forall n, rnat cx c0 c1 cadd n = cre (INR n).
Proof. induction n as [|n IH]; [reflexivity|]. cbn [rnat]. rewrite IH, S_INR. unfold cadd, cre, c1. cbn [fst snd]. f_equal; ring. Qed.
Lemma inv_cx : forall n, 1 <= n -> cmul (rnat cx c0 c1 cadd n) (cre (/ INR n)) = c1.
Proof. intros n Hn. rewrite rnat_cx. assert (INR n <> 0%R) by (apply not_0_INR; lia). unfold cmul, cre, c1. cbn [fst snd]. f_equal; field; assumption. Qed.
Lemma fact_cx : forall n, cmul (rnat cx c0 c1 cadd (fact n)) (cre (/ INR (fact n))) = c1.
Proof. intros n. apply inv_cx. pose proof (lt_O_fact n). lia. Qed.
Lemma id_prod : forall F, same_oper ds (product ds ident F) F.
Proof. exact (fun F => id_left cx c0 c1 cadd cmul csub copp cx_ring ds F). Qed.
Lemma cf_cx_S : forall n, cre (/ INR (fact (S n))) = cmul (cre (/ INR (S n))) (cre (/ INR (fact n))).
Proof. intros n. rewrite fact_simpl, mult_INR. assert (INR (fact n) <> 0%R) by apply INR_fact_neq_0. assert (INR (S n) <> 0%R) by (apply not_0_INR; lia). unfold cmul, cre. cbn [fst snd]. f_equal; [field; auto|ring]. Qed.
Lemma tterm_0 : same_oper ds (taylor_term ds a H 0) ident.
Proof. intros c c' _ _. unfold taylor_term, exp_term. cbn [rpow o_pow fact]. change (INR 1) with 1%R. rewrite Rinv_1. change (cre 1) with c1. unfold ident. ring. Qed.
Lemma tterm_S : forall n, same_oper ds (taylor_term ds a H (S n)) (o_times (/ INR (S n)) (product ds (taylor_term ds a H n) X)).
Proof.
  intros n c c' _ _. unfold taylor_term, exp_term, o_times, gen, o_times, product. cbn [rpow o_pow]. rewrite cf_cx_S. unfold o_mul.
  rewrite !(lsum_mul_l cx c0 c1 cadd cmul csub copp cx_ring). apply (lsum_ext cx c0 cadd). intros k _. ring.
Qed.
Lemma tterm_1 : same_oper ds (taylor_term ds a H 1) X.
Proof.
  intros c c' Hc Hc'. rewrite tterm_S by auto. unfold o_times at 1. rewrite (product_same ds _ ident _ X tterm_0 (same_refl _ _)) by auto. rewrite id_prod by auto. change (INR 1) with 1%R. rewrite Rinv_1. change (cre 1) with c1. ring.
Qed.
Lemma taylor_0 : same_oper ds (taylor ds a H 1) ident.
Proof. intros c c' Hc Hc'. unfold taylor, exp_sum. cbn [FmpsSpec.sumn]. fold (taylor_term ds a H 0). rewrite tterm_0 by auto. ring. Qed.
Lemma taylor_S : forall n, same_oper ds (taylor ds a H (S n)) (o_plus (taylor ds a H n) (taylor_term ds a H n)).
Proof. intros n c c' _ _. reflexivity. Qed.

(** *** the bound *)
Lemma power_dist : forall stored n T m T' e, 1 <= n -> power_of ds X stored n T m T' -> (1 < n -> (odist ds T (taylor_term ds a H (n - 1)) <= e)%R) ->
  (odist ds T' (taylor_term ds a H n) <= (if (n =? 1)%nat then 0 else (e * onorm ds X + sqrt (allowed ds (product ds T X) m)) / INR n))%R.
Proof.
  intros stored n T m T' e Hn HP HE. unfold power_of in HP. destruct (Nat.eqb_spec n 1) as [->|NE].
  - destruct HP as [_ HP]. rewrite (odist_self ds T'); [lra|]. intros c c' Hc Hc'. rewrite HP, tterm_1 by auto. reflexivity.
  - destruct HP as [_ [M [HM HT]]]. specialize (HE ltac:(lia)). destruct n as [|k]; [lia|]. replace (S k - 1) with k in HE by lia. rewrite (odist_same ds T' _ _ _ HT (tterm_S k)).
    assert (PN : (0 < INR (S k))%R) by (apply lt_0_INR; lia). assert (PI : (0 <= / INR (S k))%R) by (left; apply Rinv_0_lt_compat; exact PN). rewrite odist_times by exact PI. unfold Rdiv. rewrite (Rmult_comm _ (/ INR (S k))). apply Rmult_le_compat_l; [exact PI|].
    eapply Rle_trans; [apply (odist_tri ds M (product ds T X))|]. rewrite Rplus_comm. apply Rplus_le_compat.
    + eapply Rle_trans; [apply odist_product|]. apply Rmult_le_compat_r; [apply onorm_pos|exact HE].
    + rewrite odist_sqrt. apply sqrt_le_1_alt. destruct m as [|es|G es|G]; [contradiction|apply cut_dist; exact HM|apply HM|]. cbn [allowed]. rewrite (dist_same ds M G _ _ HM (same_refl _ _)). lra.
Qed.
Lemma bound_ok : forall stored h n T S e r, 1 <= n -> orders ds X stored n T S h -> (1 < n -> (odist ds T (taylor_term ds a H (n - 1)) <= e)%R) -> (odist ds S (taylor ds a H n) <= r)%R ->
  (odist ds (last_sum S h) (taylor ds a H (n + length h)) <= bound ds X n T S e r h)%R.
Proof.
  induction h as [|o h IH]; intros n T S e r Hn HO HE HR.
  - cbn. rewrite Nat.add_0_r. exact HR.
  - destruct HO as [HP [HS HO]]. pose proof (power_dist stored n T _ _ e Hn HP HE) as D1. cbn [bound]. set (e' := if n =? 1 then 0%R else _) in *.
    assert (D2 : (odist ds (od_sum o) (taylor ds a H (n + 1)) <= r + e' + sqrt (lost_sum (od_cut o) * hs2 ds (o_plus S (od_term o))))%R).
    { eapply Rle_trans; [apply (odist_tri ds _ (o_plus S (od_term o)))|]. rewrite Rplus_comm. apply Rplus_le_compat.
      - replace (n + 1) with (Datatypes.S n) by lia. rewrite (odist_same ds _ _ _ _ (same_refl _ _) (taylor_S n)). eapply Rle_trans; [apply odist_plus|]. apply Rplus_le_compat; assumption.
      - rewrite odist_sqrt. apply sqrt_le_1_alt. apply cut_dist. exact HS. }
    assert (LS : last_sum S (o :: h) = last_sum (od_sum o) h).
    { unfold last_sum. cbn [map]. destruct (map od_sum h) as [|y l] eqn:E; [reflexivity|]. cbn [last]. clear. revert y. induction l as [|z l IL]; intros y; [reflexivity|]. cbn [last] in *. destruct l; [reflexivity|]. apply (IL z). }
    rewrite LS. replace (n + length (o :: h)) with (n + 1 + length h) by (cbn [length]; lia). apply IH; [lia|exact HO| |exact D2]. intros _. replace (n + 1 - 1) with n by lia. exact D1.
Qed.
Theorem series_bound : forall stored h, orders ds X stored 1 X ident h -> (odist ds (last_sum ident h) (taylor ds a H (1 + length h)) <= bound ds X 1 X ident 0 0 h)%R.
Proof.
  intros stored h HO. apply (bound_ok stored); [lia|exact HO|lia|]. rewrite odist_self; [lra|]. intros c c' Hc Hc'. rewrite taylor_0 by auto. reflexivity.
Qed.

(** *** the rest of the series *)
Notation x := (onorm ds X).
Lemma term_norm : forall n, 1 <= n -> (onorm ds (taylor_term ds a H n) <= x ^ n / INR (fact n))%R.
Proof.
  intros n Hn. destruct n as [|n]; [lia|]. clear Hn. induction n as [|n IH].
  - rewrite (onorm_same _ _ _ tterm_1). cbn [fact Nat.mul Nat.add pow]. change (INR 1) with 1%R. right. field.
  - rewrite (onorm_same _ _ _ (tterm_S (S n))). assert (PN : (0 < INR (S (S n)))%R) by (apply lt_0_INR; lia). assert (PI : (0 <= / INR (S (S n)))%R) by (left; apply Rinv_0_lt_compat; exact PN).
    rewrite onorm_times by exact PI. rewrite (fact_simpl (S n)), mult_INR. assert (PF : (0 < INR (fact (S n)))%R) by apply INR_fact_lt_0.
    replace (x ^ S (S n) / (INR (S (S n)) * INR (fact (S n))))%R with (/ INR (S (S n)) * (x ^ S n / INR (fact (S n)) * x))%R by (cbn [pow]; field; split; lra).
    apply Rmult_le_compat_l; [exact PI|]. eapply Rle_trans; [apply onorm_product|]. apply Rmult_le_compat_r; [apply onorm_pos|exact IH].
Qed.
Lemma poly_S : forall y K, exp_poly y (S K) = (exp_poly y K + y ^ K / INR (fact K))%R.
Proof.
  intros y K. unfold exp_poly. rewrite seq_S, fold_right_app. cbn [fold_right Nat.add]. assert (G : forall l b, fold_right (fun n a => (y ^ n / INR (fact n) + a)%R) b l = (fold_right (fun n a => (y ^ n / INR (fact n) + a)%R) 0 l + b)%R).
  { induction l as [|n l IL]; intros b; cbn [fold_right]; [ring|]. rewrite IL. ring. }
  rewrite G. ring.
Qed.
Lemma tail_norm : forall K d, 1 <= K -> (odist ds (taylor ds a H (K + d)) (taylor ds a H K) <= exp_poly x (K + d) - exp_poly x K)%R.
Proof.
  intros K d HK. induction d as [|d IH].
  - rewrite Nat.add_0_r, odist_self by apply same_refl. lra.
  - rewrite Nat.add_succ_r, poly_S. eapply Rle_trans; [apply (odist_tri ds _ (taylor ds a H (K + d)))|]. assert (E : (odist ds (taylor ds a H (S (K + d))) (taylor ds a H (K + d)) <= x ^ (K + d) / INR (fact (K + d)))%R).
    { unfold odist. rewrite (onorm_same ds _ (taylor_term ds a H (K + d))); [apply term_norm; lia|]. intros c c' Hc Hc'. unfold o_sub. rewrite taylor_S by auto. unfold o_plus. ring. }
    lra.
Qed.
Lemma poly_sum : forall y K, exp_poly y (S K) = sum_f_R0 (fun i => (/ INR (fact i) * y ^ i)%R) K.
Proof. intros y K. induction K as [|K IH]; [unfold exp_poly; cbn; field|]. rewrite poly_S, IH. cbn [sum_f_R0]. unfold Rdiv. ring. Qed.
Lemma poly_lim : forall y, Un_cv (fun K => exp_poly y (S K)) (exp y).
Proof.
  intros y. unfold exp. destruct (exist_exp y) as [l Hl]. cbn [proj1_sig]. intros eps He. destruct (Hl eps He) as [N HN]. exists N. intros n Hn. rewrite poly_sum. apply HN. exact Hn.
Qed.
Lemma poly_mono : forall y K d, (0 <= y)%R -> (exp_poly y K <= exp_poly y (K + d))%R.
Proof.
  intros y K d Hy. induction d as [|d IH]; [rewrite Nat.add_0_r; lra|]. rewrite Nat.add_succ_r, poly_S. assert (0 <= y ^ (K + d) / INR (fact (K + d)))%R by (apply Rmult_le_pos; [apply pow_le; exact Hy|left; apply Rinv_0_lt_compat, INR_fact_lt_0]). lra.
Qed.
Lemma poly_le : forall y K, (0 <= y)%R -> (exp_poly y K <= exp y)%R.
Proof.
  intros y K Hy. destruct (Rle_or_lt (exp_poly y K) (exp y)) as [L|L]; [exact L|]. destruct (poly_lim y ((exp_poly y K - exp y) / 2)%R ltac:(lra)) as [N HN]. specialize (HN (N + K) ltac:(lia)). unfold R_dist in HN.
  pose proof (poly_mono y K (S N) Hy) as M. replace (K + S N) with (S (N + K)) in M by lia. apply Rabs_def2 in HN. lra.
Qed.
Lemma rsum_lim : forall A (l : list A) (f : nat -> A -> real), (forall z, In z l -> Un_cv (fun K => f K z) 0) -> Un_cv (fun K => rsum l (f K)) 0.
Proof.
  induction l as [|z l IH]; intros f Hf.
  - intros eps He. exists 0. intros n _. cbn. unfold R_dist. rewrite Rminus_0_r, Rabs_R0. exact He.
  - cbn [CorrRun.rsum]. rewrite <- (Rplus_0_l 0). apply CV_plus; [apply Hf; left; reflexivity|apply IH; intros; apply Hf; right; assumption].
Qed.
Lemma const_lim : forall b, Un_cv (fun _ => b) b.
Proof. intros b eps He. exists 0. intros n _. unfold R_dist. rewrite Rminus_diag_eq, Rabs_R0 by reflexivity. exact He. Qed.
Lemma exp_lim : forall E, is_exp ds a H E -> Un_cv (fun K => hs2 ds (o_sub E (taylor ds a H K))) 0.
Proof.
  intros E HE. apply (Un_cv_ext (fun K => rsum (cc ds) (fun p => ab2 (o_sub E (taylor ds a H K) (fst p) (snd p))))); [intros; symmetry; apply hs2_rsum|].
  apply (rsum_lim _ (cc ds) (fun K p => ab2 (o_sub E (taylor ds a H K) (fst p) (snd p)))). intros [c c'] Hp. apply in_prod_iff in Hp. destruct Hp as [Hc Hc']. cbn [fst snd]. destruct (HE c c' Hc Hc') as [H1 H2].
  unfold CorrSpec.ab2, o_sub, csub. cbn [fst snd]. replace 0%R with (0 * 0 + 0 * 0)%R by ring.
  assert (G : forall u l, Un_cv u l -> Un_cv (fun K => (l - u K)%R) 0%R) by (intros u l Hu; rewrite <- (Rminus_diag_eq l l eq_refl); apply CV_minus; [apply const_lim|exact Hu]).
  apply CV_plus; apply CV_mult; apply (G (fun K => _) _); assumption.
Qed.
Theorem exp_rest : forall E K, is_exp ds a H E -> 1 <= K -> (odist ds (taylor ds a H K) E <= exp x - exp_poly x K)%R.
Proof.
  intros E K HE HK. destruct (Rle_or_lt (odist ds (taylor ds a H K) E) (exp x - exp_poly x K)) as [L|L]; [exact L|exfalso].
  set (g := (odist ds (taylor ds a H K) E - (exp x - exp_poly x K))%R) in *. assert (PG : (0 < g)%R) by (unfold g; lra).
  destruct (exp_lim E HE (g * g)%R ltac:(nra)) as [N HN]. specialize (HN (K + N) ltac:(lia)). unfold R_dist in HN. rewrite Rminus_0_r, Rabs_right in HN by (apply Rle_ge, hs2_pos).
  rewrite <- onorm_sq in HN. fold (odist ds E (taylor ds a H (K + N))) in HN. pose proof (odist_pos ds E (taylor ds a H (K + N))) as P. assert (D : (odist ds E (taylor ds a H (K + N)) < g)%R) by nra.
  pose proof (odist_tri ds (taylor ds a H K) (taylor ds a H (K + N)) E) as T. rewrite (odist_sym ds (taylor ds a H K) (taylor ds a H (K + N))), (odist_sym ds (taylor ds a H (K + N)) E) in T. pose proof (tail_norm K N HK) as T2. pose proof (poly_le x (K + N) (onorm_pos _ _)) as T3. unfold g in D. lra.
Qed.
(** the exponential exists *)
Lemma entry_le : forall A B c c', In c (configs ds) -> In c' (configs ds) -> (Rabs (fst (A c c') - fst (B c c')) <= odist ds A B)%R /\ (Rabs (snd (A c c') - snd (B c c')) <= odist ds A B)%R.
Proof.
  intros A B c c' Hc Hc'. assert (M : (ab2 (o_sub A B c c') <= hs2 ds (o_sub A B))%R).
  { rewrite hs2_rsum. assert (I : In (c, c') (cc ds)) by (apply in_prod; auto). revert I. generalize (cc ds). induction l as [|p l IH]; intros I; [destruct I|]. cbn [CorrRun.rsum]. pose proof (CorrRun.ab2_pos (o_sub A B (fst p) (snd p))) as P1.
    pose proof (CorrRun.rsum_pos _ l (fun p => ab2 (o_sub A B (fst p) (snd p))) (fun p => CorrRun.ab2_pos _)) as P2. destruct I as [->|I]; [cbn [fst snd] in *; lra|]. specialize (IH I). lra. }
  rewrite <- onorm_sq in M. fold (odist ds A B) in M. pose proof (odist_pos ds A B) as P. unfold CorrSpec.ab2, o_sub, csub in M. cbn [fst snd] in M.
  set (u := (fst (A c c') - fst (B c c'))%R) in *. set (w := (snd (A c c') - snd (B c c'))%R) in *.
  pose proof (Rle_0_sqr u) as U. pose proof (Rle_0_sqr w) as W. unfold Rsqr in U, W.
  split; (apply sq_le; [exact P|]; rewrite <- Rabs_mult, Rabs_right by (apply Rle_ge; assumption); lra).
Qed.
Theorem exp_exists : exists E, is_exp ds a H E.
Proof.
  assert (C : Cauchy_crit (fun K => exp_poly x (S K))) by (apply CV_Cauchy; exists (exp x); apply poly_lim).
  assert (G : forall K M, 1 <= K -> 1 <= M -> (odist ds (taylor ds a H K) (taylor ds a H M) <= Rabs (exp_poly x K - exp_poly x M))%R).
  { intros K M HK HM. destruct (Nat.le_ge_cases M K) as [L|L].
    - pose proof (tail_norm M (K - M) HM) as T. replace (M + (K - M)) with K in T by lia. eapply Rle_trans; [exact T|apply RRle_abs].
    - pose proof (tail_norm K (M - K) HK) as T. replace (K + (M - K)) with M in T by lia. rewrite odist_sym, Rabs_minus_sym. eapply Rle_trans; [exact T|apply RRle_abs]. }
  assert (Q : forall (p : cx -> real), (forall A B c c', In c (configs ds) -> In c' (configs ds) -> (Rabs (p (A c c') - p (B c c')) <= odist ds A B)%R) ->
    forall c c', In c (configs ds) -> In c' (configs ds) -> Cauchy_crit (fun K => p (taylor ds a H K c c'))).
  { intros p Hp c c' Hc Hc' eps He. destruct (C eps He) as [N HN]. exists (S N). intros n m Hn Hm. unfold R_dist. eapply Rle_lt_trans; [apply (Hp (taylor ds a H n) (taylor ds a H m) c c' Hc Hc')|].
    eapply Rle_lt_trans; [apply G; lia|]. specialize (HN (n - 1) (m - 1) ltac:(lia) ltac:(lia)). unfold R_dist in HN. replace (S (n - 1)) with n in HN by lia. replace (S (m - 1)) with m in HN by lia. exact HN. }
  assert (I : forall c, {In c (configs ds)} + {~ In c (configs ds)}) by (intros c; apply in_dec, list_eq_dec, Nat.eq_dec).
  exists (fun c c' => match I c, I c' with
    | left p, left q => (proj1_sig (R_complete _ (Q fst (fun A B c c' Hc Hc' => proj1 (entry_le A B c c' Hc Hc')) c c' p q)), proj1_sig (R_complete _ (Q snd (fun A B c c' Hc Hc' => proj2 (entry_le A B c c' Hc Hc')) c c' p q)))
    | _, _ => c0 end).
  intros c c' Hc Hc'. destruct (I c) as [p|p]; [|contradiction]. destruct (I c') as [q|q]; [|contradiction]. cbn [fst snd]. split; [destruct (R_complete _ _) as [l Hl]; exact Hl|].
  match goal with |- Un_cv _ (proj1_sig ?u) => destruct u as [l Hl] end. exact Hl.
Qed.
End Series.
