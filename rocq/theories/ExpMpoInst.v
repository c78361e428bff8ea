(** A truncated SVD as assumed for every number of values kept, and concrete runs of ExpFiniteMPO. *)
From Coq Require Import List Arith Lia Bool ZArith Reals Lra Psatz Ring Factorial.
From Verif Require Import Base CoefOpAlg Numeric FiniteMps FmpsSpec FmpsFacts EffHam EffHamSpec EffHamFacts ChainSpec ChainFacts ChainOne MeasureFacts VmpsState Legs VmpsEnv FinMpo FinMpoSpec FinMpoFacts FinMpoExp Cx GVec DmrgStep
  TruncMps TruncMpsSpec TruncMpsMath TruncMpsFacts TruncMpsInst MpoCano MpoCanoSpec MpoMath MpoCanoFacts MpoCanoRun MpoTrunc MpoCanoInst MpoVar MpoSquare MpoVarSpec MpoVarEnv MpoVarStep MpoVarRun MpoVarTop MpoVarInst ExpMpo ExpMpoSpec ExpMath ExpRun.
Import ListNotations.
Local Open Scope nat_scope.

(** *** rows of a matrix written with orthonormal rows *)
Section Rows.
Variables (A : Type) (J : list A) (n : nat) (v : nat -> A -> cx).
Hypothesis ON : forall k k', k < n -> k' < n -> lsum J (fun z => cmul (cconj (v k z)) (v k' z)) = FmpsSpec.delta cx c0 c1 k k'.
Variables (f : A -> cx) (u : nat -> cx).
Hypothesis EX : forall z, In z J -> f z = lsum (seq 0 n) (fun k => cmul (u k) (v k z)).
Lemma row_proj : forall k, k < n -> lsum J (fun z => cmul (f z) (cconj (v k z))) = u k.
Proof.
  intros k Hk. transitivity (lsum J (fun z => lsum (seq 0 n) (fun j => cmul (u j) (cmul (cconj (v k z)) (v j z))))).
  { apply lsum_ext. intros z Hz. rewrite (EX z Hz). rewrite lsum_mul_r. apply lsum_ext. intros j _. ring. }
  rewrite lsum_swap.
  rewrite (EffHamFacts.lsum_one cx c0 c1 cadd cmul csub copp cx_ring n k); [| exact Hk|].
  - rewrite <- lsum_mul_l, ON by auto. unfold FmpsSpec.delta. rewrite Nat.eqb_refl. ring.
  - intros i Hi NE. rewrite <- lsum_mul_l, ON by auto. unfold FmpsSpec.delta. destruct (Nat.eqb_spec k i); [congruence|]. ring.
Qed.
Lemma row_norm : lsum J (fun z => cmul (cconj (f z)) (f z)) = lsum (seq 0 n) (fun k => cmul (cconj (u k)) (u k)).
Proof.
  transitivity (lsum J (fun z => lsum (seq 0 n) (fun k => cmul (u k) (cmul (cconj (f z)) (v k z))))).
  { apply lsum_ext. intros z Hz. rewrite (EX z Hz) at 2. rewrite lsum_mul_l. apply lsum_ext. intros j _. ring. }
  rewrite lsum_swap. apply lsum_ext. intros k Hk. apply in_seq in Hk. rewrite <- lsum_mul_l.
  transitivity (cmul (u k) (cconj (u k))); [|ring]. f_equal. rewrite <- (row_proj k) by lia. rewrite lsum_conj. apply lsum_ext. intros z _. rewrite cconj_mul, cconj_conj. reflexivity.
Qed.
End Rows.
Lemma lsum_prod : forall A B (l : list A) (k : list B) (f : A * B -> cx), lsum (list_prod l k) f = lsum l (fun x => lsum k (fun y => f (x, y))).
Proof.
  intros A B l k f. induction l as [|x l IH]; [reflexivity|]. cbn [list_prod]. rewrite lsum_app, IH. change (lsum (x :: l) (fun x => lsum k (fun y => f (x, y)))) with (cadd (lsum k (fun y => f (x, y))) (lsum l (fun x => lsum k (fun y => f (x, y))))).
  f_equal. clear. induction k as [|y k IK]; [reflexivity|]. change (cadd (f (x, y)) (lsum (map (fun y => (x, y)) k) f) = cadd (f (x, y)) (lsum k (fun y => f (x, y)))). f_equal. exact IK.
Qed.
Definition legs (a : c4) : list (nat * nat * nat) := list_prod (list_prod (seq 0 (m1 a)) (seq 0 (m2 a))) (seq 0 (m3 a)).
Definition at4 (a : c4) (x : nat) (z : nat * nat * nat) : cx := e4 a x (fst (fst z)) (snd (fst z)) (snd z).
Lemma legs_sum : forall (a : c4) (f : nat -> nat -> nat -> cx), csum (m1 a) (fun p => csum (m2 a) (fun q => csum (m3 a) (fun y => f p q y))) = lsum (legs a) (fun z => f (fst (fst z)) (snd (fst z)) (snd z)).
Proof.
  intros a f. unfold legs. rewrite lsum_prod, lsum_prod, sumn_lsum. apply lsum_ext. intros p _. rewrite sumn_lsum. apply lsum_ext. intros q _. apply sumn_lsum.
Qed.
Lemma legs_turn : forall (a : c4) (f : nat -> nat -> nat -> cx), csum (m3 a) (fun y => csum (m1 a) (fun p => csum (m2 a) (fun q => f p q y))) = csum (m1 a) (fun p => csum (m2 a) (fun q => csum (m3 a) (fun y => f p q y))).
Proof.
  intros a f. rewrite !sumn_lsum. transitivity (lsum (seq 0 (m3 a)) (fun y => lsum (seq 0 (m1 a)) (fun p => lsum (seq 0 (m2 a)) (fun q => f p q y)))).
  { apply lsum_ext. intros y _. rewrite sumn_lsum. apply lsum_ext. intros p _. apply sumn_lsum. }
  rewrite lsum_swap. apply lsum_ext. intros p _. rewrite lsum_swap, sumn_lsum. apply lsum_ext. intros q _. symmetry. apply sumn_lsum.
Qed.
(** *** the columns with a norm, the first Dmax of them *)
Section Any.
Variables (Dmax : nat) (a : c4) (u : cmat) (s : list real) (vt : c4).
Hypothesis XS : n0 u = m0 a /\ n1 u = length s /\ m0 vt = length s /\ m1 vt = m1 a /\ m2 vt = m2 a /\ m3 vt = m3 a /\ right4 vt /\
  forall x p q y, x < m0 a -> p < m1 a -> q < m2 a -> y < m3 a -> e4 a x p q y = csum (length s) (fun k => cmul (cmul (me u x k) (cre (nth k s 0%R))) (e4 vt k p q y)).
Hypothesis D1 : 1 <= Dmax.
Definition us (x k : nat) : cx := cmul (me u x k) (cre (nth k s 0%R)).
Definition col2 (k : nat) : real := fst (csum (m0 a) (fun x => cmul (cconj (us x k)) (us x k))).
Definition nz : list nat := filter (fun k => if Req_EM_T (col2 k) 0 then false else true) (seq 0 (length s)).
Definition idx : list nat := firstn Dmax nz.
Definition lsumR (l : list nat) : real := fold_right (fun k a => (col2 k + a)%R) 0%R l.
Definition any4 : cmat * list real * c4 * real :=
  (mkMat2 (m0 a) (length idx) (fun x j => cmul (cre (/ sqrt (col2 (nth j idx 0)))) (us x (nth j idx 0))), map (fun k => sqrt (col2 k)) idx,
   mkTen4 (length idx) (m1 a) (m2 a) (m3 a) (fun j p q y => e4 vt (nth j idx 0) p q y), (1 - lsumR idx / ten2 a)%R).
Lemma col_real : forall k, csum (m0 a) (fun x => cmul (cconj (us x k)) (us x k)) = cre (col2 k) /\ (0 <= col2 k)%R.
Proof.
  intros k. unfold col2. enough (G : forall (g : nat -> cx) n, csum n (fun x => cmul (cconj (g x)) (g x)) = cre (fst (csum n (fun x => cmul (cconj (g x)) (g x)))) /\ (0 <= fst (csum n (fun x => cmul (cconj (g x)) (g x))))%R) by exact (G (fun x => us x k) (m0 a)).
  clear. intros g n. induction n as [|n [IH1 IH2]].
  { split; [reflexivity|]. cbn. lra. }
  cbn [FmpsSpec.sumn]. rewrite IH1. revert IH2. set (w := fst (csum n (fun x => cmul (cconj (g x)) (g x)))). intros IH2. destruct (g n) as [p q]. unfold cre, cadd, cmul, cconj. cbn [fst snd]. split; [f_equal; ring|]. pose proof (Rle_0_sqr p). pose proof (Rle_0_sqr q). unfold Rsqr in *. lra.
Qed.
Lemma legs_on : forall k k', k < length s -> k' < length s -> lsum (legs a) (fun z => cmul (cconj (at4 vt k z)) (at4 vt k' z)) = FmpsSpec.delta cx c0 c1 k k'.
Proof.
  intros k k' Hk Hk'. destruct XS as [_ [_ [X1 [X2 [X3 [X4 [X5 _]]]]]]]. rewrite <- (X5 k k') by (rewrite X1; auto). rewrite X2, X3, X4. rewrite (legs_turn a (fun p q y => cmul (cconj (e4 vt k p q y)) (e4 vt k' p q y))), (legs_sum a (fun p q y => cmul (cconj (e4 vt k p q y)) (e4 vt k' p q y))). reflexivity.
Qed.
Lemma legs_ex : forall x z, x < m0 a -> In z (legs a) -> at4 a x z = lsum (seq 0 (length s)) (fun k => cmul (us x k) (at4 vt k z)).
Proof.
  intros x [[p q] y] Hx Hz. unfold legs in Hz. apply in_prod_iff in Hz. destruct Hz as [Hz Hy]. apply in_prod_iff in Hz. destruct Hz as [Hp Hq]. apply in_seq in Hp, Hq, Hy. unfold at4. cbn [fst snd].
  destruct XS as [_ [_ [_ [_ [_ [_ [_ X]]]]]]]. rewrite X by lia. apply sumn_lsum.
Qed.
Lemma total : ten2 a = lsumR (seq 0 (length s)).
Proof.
  unfold ten2. transitivity (fst (lsum (seq 0 (length s)) (fun k => csum (m0 a) (fun x => cmul (cconj (us x k)) (us x k))))).
  - f_equal. transitivity (lsum (seq 0 (m0 a)) (fun x => lsum (seq 0 (length s)) (fun k => cmul (cconj (us x k)) (us x k)))).
    + rewrite sumn_lsum. apply lsum_ext. intros x Hx. apply in_seq in Hx. rewrite (legs_sum a (fun p q y => cmul (cconj (e4 a x p q y)) (e4 a x p q y))).
      apply (row_norm _ (legs a) (length s) (at4 vt) legs_on (at4 a x) (us x)). intros z Hz. apply legs_ex; [lia|exact Hz].
    + rewrite lsum_swap. apply lsum_ext. intros k _. symmetry. apply sumn_lsum.
  - generalize (seq 0 (length s)). induction l as [|k l IH]; [reflexivity|]. unfold EffHamSpec.lsum in *. cbn [fold_right lsumR]. fold (lsumR l). rewrite <- IH. reflexivity.
Qed.
Lemma kept_nz : lsumR nz = lsumR (seq 0 (length s)).
Proof.
  unfold nz. induction (seq 0 (length s)) as [|k l IH]; [reflexivity|]. cbn [filter]. destruct (Req_EM_T (col2 k) 0) as [E|E]; cbn [lsumR fold_right]; fold (lsumR l).
  - rewrite IH, E. ring.
  - fold (lsumR (filter (fun k => if Req_EM_T (col2 k) 0 then false else true) l)). rewrite IH. reflexivity.
Qed.
Lemma lsumR_pos : forall l, (0 <= lsumR l)%R.
Proof. induction l as [|k l IH]; cbn [lsumR fold_right]; [lra|]. fold (lsumR l). destruct (col_real k). lra. Qed.
Lemma lsumR_app : forall l m, lsumR (l ++ m) = (lsumR l + lsumR m)%R.
Proof. induction l as [|k l IH]; intros m; cbn [app lsumR fold_right]; [fold (lsumR m); lra|]. fold (lsumR (l ++ m)). fold (lsumR l). rewrite IH. ring. Qed.
Lemma idx_in : forall j, j < length idx -> In (nth j idx 0) nz.
Proof. intros j Hj. assert (In (nth j idx 0) idx) as H by (apply nth_In; exact Hj). revert H. generalize (nth j idx 0). unfold idx. intros i H. rewrite <- (firstn_skipn Dmax nz). apply in_or_app. left. exact H. Qed.
Lemma idx_ok : forall j, j < length idx -> nth j idx 0 < length s /\ (0 < col2 (nth j idx 0%nat))%R.
Proof.
  intros j Hj. pose proof (idx_in j Hj) as H. unfold nz in H. apply filter_In in H. destruct H as [H1 H2]. apply in_seq in H1. split; [lia|]. destruct (Req_EM_T (col2 (nth j idx 0)) 0) as [E|E]; [discriminate|]. destruct (col_real (nth j idx 0)). lra.
Qed.
Lemma idx_nodup : NoDup idx.
Proof. unfold idx. assert (N : NoDup nz) by (unfold nz; apply NoDup_filter, seq_NoDup). rewrite <- (firstn_skipn Dmax nz) in N. revert N. generalize (firstn Dmax nz) (skipn Dmax nz). intros l m. induction l as [|x l IH]; [constructor|]. cbn [app]. intros N. inversion N as [|? ? N1 N2]; subst. constructor; [intros C; apply N1; apply in_or_app; left; exact C|apply IH; exact N2]. Qed.
Lemma any_good : forall terr, (0 <= terr)%R -> ten2 a <> 0%R -> truncated4 terr Dmax a any4.
Proof.
  intros terr HT HN. assert (T0 : (0 < ten2 a)%R) by (pose proof (lsumR_pos (seq 0 (length s))); rewrite total in *; lra).
  assert (SPL : ten2 a = (lsumR idx + lsumR (skipn Dmax nz))%R) by (rewrite <- lsumR_app; unfold idx; rewrite firstn_skipn, kept_nz; apply total).
  assert (P1 := lsumR_pos (skipn Dmax nz)). assert (P0 := lsumR_pos idx).
  assert (PI : (0 < lsumR idx)%R).
  { assert (L : 0 < length idx). { unfold idx. rewrite firstn_length. assert (nz <> []) as NE by (intros E; pose proof kept_nz as K; rewrite E, <- total in K; cbn in K; lra). destruct nz; [congruence|cbn [length]; lia]. }
    destruct idx as [|k l] eqn:EI; [cbn in L; lia|]. pose proof (idx_ok 0) as K. rewrite EI in K. cbn [nth] in K. destruct (K ltac:(cbn; lia)) as [_ K2]. cbn [lsumR fold_right]. fold (lsumR l). pose proof (lsumR_pos l). lra. }
  unfold any4. split; cbn [n0 n1 me m0 m1 m2 m3 e4]; rewrite ?map_length.
  - repeat split.
  - intros k k' Hk Hk'. cbn [m0 m1 m2 m3 e4] in *. rewrite (legs_turn a (fun p q y => cmul (cconj (e4 vt (nth k idx 0) p q y)) (e4 vt (nth k' idx 0) p q y))), (legs_sum a (fun p q y => cmul (cconj (e4 vt (nth k idx 0) p q y)) (e4 vt (nth k' idx 0) p q y))).
    etransitivity; [exact (legs_on (nth k idx 0) (nth k' idx 0) (proj1 (idx_ok k Hk)) (proj1 (idx_ok k' Hk')))|]. unfold FmpsSpec.delta. destruct (Nat.eqb_spec k k') as [->|NE]; [rewrite Nat.eqb_refl; reflexivity|].
    destruct (Nat.eqb_spec (nth k idx 0) (nth k' idx 0)) as [E|E]; [|reflexivity]. exfalso. apply NE. apply (proj1 (NoDup_nth idx 0) idx_nodup); auto.
  - intros k Hk. destruct (idx_ok k Hk) as [_ K]. set (i := nth k idx 0) in *. destruct (col_real i) as [CR _].
    transitivity (cmul (cre (/ sqrt (col2 i) * / sqrt (col2 i))) (csum (m0 a) (fun x => cmul (cconj (us x i)) (us x i)))).
    { rewrite !sumn_lsum, lsum_mul_l. apply lsum_ext. intros x _. rewrite cconj_mul, cconj_cre, cre_mul. ring. }
    rewrite CR, <- cre_mul. assert (SQ : (sqrt (col2 i) * sqrt (col2 i) = col2 i)%R) by (apply sqrt_sqrt; lra). assert (0 < sqrt (col2 i))%R by (apply sqrt_lt_R0; exact K). rewrite <- SQ at 3. replace (/ sqrt (col2 i) * / sqrt (col2 i) * (sqrt (col2 i) * sqrt (col2 i)))%R with 1%R by (field; lra). reflexivity.
  - intros x k Hx Hk. destruct (idx_ok k Hk) as [K1 K]. replace (nth k (map (fun k => sqrt (col2 k)) idx) 0%R) with (sqrt (col2 (nth k idx 0))) by (symmetry; rewrite (nth_indep _ 0%R (sqrt (col2 0))) by (rewrite map_length; exact Hk); apply (map_nth (fun k => sqrt (col2 k)))).
    set (i := nth k idx 0) in *. rewrite (legs_sum a (fun p q y => cmul (e4 a x p q y) (cconj (e4 vt i p q y)))).
    etransitivity; [exact (row_proj _ (legs a) (length s) (at4 vt) legs_on (at4 a x) (us x) (fun z Hz => legs_ex x z Hx Hz) i K1)|].
    assert (0 < sqrt (col2 i))%R by (apply sqrt_lt_R0; exact K). transitivity (cmul (cmul (cre (/ sqrt (col2 i))) (cre (sqrt (col2 i)))) (us x i)); [|ring]. rewrite <- cre_mul, Rinv_l by lra. change (cre 1) with c1. ring.
  - assert (Q : (lsumR idx / ten2 a * ten2 a = lsumR idx)%R) by (field; lra). assert (R0 : (0 < lsumR idx / ten2 a)%R) by (apply Rdiv_lt_0_compat; lra). split.
    + split; [|lra]. assert (lsumR idx / ten2 a <= 1)%R; [|lra]. apply (Rmult_le_reg_r (ten2 a)); [exact T0|]. lra.
    + transitivity (lsumR idx); [|lra]. clear. induction idx as [|k l IH]; [reflexivity|]. cbn [map sq_sum fold_right lsumR]. fold (sq_sum (map (fun k => sqrt (col2 k)) l)). fold (lsumR l). rewrite IH, sqrt_sqrt by apply col_real. reflexivity.
  - split; [unfold idx; rewrite firstn_length; lia|]. intros L. assert (E : skipn Dmax nz = []). { unfold idx in L. rewrite firstn_length in L. apply skipn_all2. lia. } rewrite E in SPL. cbn [lsumR fold_right] in SPL. replace (lsumR idx) with (ten2 a) by lra. unfold Rdiv. rewrite Rinv_r by lra. lra.
Qed.
End Any.
Definition svd4_any (terr : real) (Dmin Dmax : nat) (a : c4) : cmat * list real * c4 * real := let '(u, s, vt) := svd4 a in any4 Dmax a u s vt.
Lemma svd4_any_good : forall terr Dmin Dmax, (0 <= terr)%R -> 1 <= Dmax -> good4 terr Dmin Dmax svd4_any.
Proof.
  intros terr Dmin Dmax HT HD a HA. unfold svd4_any. pose proof (svd4_ok a) as X. destruct (svd4 a) as [[u s] vt]. apply any_good; auto. rewrite ten2_fuse. apply nonzero4_fuse. exact HA.
Qed.

(** *** overlap with the identity *)
Lemma ident_diag : forall ds, diag ds ident (fun _ => c1).
Proof. intros ds c c' _ _. reflexivity. Qed.
Lemma times_diag : forall ds a A w, diag ds A w -> diag ds (o_times a A) (fun c => cmul (cre a) (w c)).
Proof. intros ds a A w H c c' Hc Hc'. unfold o_times. rewrite H by auto. destruct (list_eq_dec _ _ _); ring. Qed.
Lemma plus_diag : forall ds A B v w, diag ds A v -> diag ds B w -> diag ds (o_plus A B) (fun c => cadd (v c) (w c)).
Proof. intros ds A B v w H H' c c' Hc Hc'. unfold o_plus. rewrite H, H' by auto. destruct (list_eq_dec _ _ _); ring. Qed.
Lemma same_diag : forall ds A B w, same_oper ds A B -> diag ds B w -> diag ds A w.
Proof. intros ds A B w H H' c c' Hc Hc'. rewrite H by auto. apply H'; auto. Qed.
Definition part (ds : list nat) (A : coper) : real := fst (hs ds A ident).
Lemma hs_mul_r : forall ds A x B, hs ds A (o_times x B) = cmul (cre x) (hs ds A B).
Proof. intros ds A x B. unfold hs, o_times. rewrite csum_mul. apply csum_ext. intros c _. rewrite csum_mul. apply csum_ext. intros c' _. ring. Qed.
Lemma hs_mul_l : forall ds A x B, hs ds (o_times x A) B = cmul (cre x) (hs ds A B).
Proof. intros ds A x B. unfold hs, o_times. rewrite csum_mul. apply csum_ext. intros c _. rewrite csum_mul. apply csum_ext. intros c' _. rewrite cconj_mul, cconj_cre. ring. Qed.
Lemma csum_plus : forall A (l : list A) f g, csum_l l (fun x => cadd (f x) (g x)) = cadd (csum_l l f) (csum_l l g).
Proof. intros A l f g. induction l as [|x l IH]; [cbn; ring|]. cbn [csum_l fold_right] in *. fold (csum_l l f) (csum_l l g) (csum_l l (fun x => cadd (f x) (g x))) in *. rewrite IH. ring. Qed.
Lemma hs_plus_l : forall ds A B C, hs ds (o_plus A B) C = cadd (hs ds A C) (hs ds B C).
Proof.
  intros ds A B C. unfold hs, o_plus. rewrite <- csum_plus. apply csum_ext. intros c _. rewrite <- csum_plus. apply csum_ext. intros c' _. unfold cconj, cadd, cmul. cbn [fst snd]. f_equal; ring.
Qed.
Lemma part_times : forall ds x A, part ds (o_times x A) = (x * part ds A)%R.
Proof. intros. unfold part. rewrite hs_mul_l. unfold cre, cmul. cbn [fst snd]. ring. Qed.
Lemma part_plus : forall ds A B, part ds (o_plus A B) = (part ds A + part ds B)%R.
Proof. intros. unfold part. rewrite hs_plus_l. reflexivity. Qed.
Lemma part_same : forall ds A B, same_oper ds A B -> part ds A = part ds B.
Proof. intros ds A B H. unfold part. rewrite (hs_same ds A B ident ident H (same_refl _ _)). reflexivity. Qed.
(** a projection of a positive multiple of the identity *)
Lemma part_proj : forall ds P x M, (0 < x)%R -> same_oper ds P (o_times x ident) -> hs ds M P = hs ds M M -> hs2 ds M <> 0%R -> (0 < part ds M)%R.
Proof.
  intros ds P x M Hx HP H NZ. rewrite (hs_same ds M M _ _ (same_refl _ _) HP), hs_mul_r in H. apply (f_equal fst) in H. fold (hs2 ds M) in H. pose proof (hs2_pos ds M) as P0. unfold cre, cmul in H. cbn [fst snd] in H. fold (part ds M) in H.
  assert (0 < x * part ds M)%R by lra. destruct (Rlt_or_le 0 (part ds M)) as [L|L]; [exact L|]. nra.
Qed.
Lemma part_nonzero : forall ds A, (0 < part ds A)%R -> hs2 ds A <> 0%R.
Proof.
  intros ds A H Z. assert (S : same_oper ds A (fun _ _ => c0)). { apply zero_dist. unfold hsdist2. rewrite <- Z. apply hs2_same. intros c c' _ _. unfold o_sub. ring. }
  rewrite (part_same _ _ _ S) in H. unfold part, hs in H. rewrite (csum_ext _ _ _ (fun _ => cmul c0 c0)) in H; [rewrite <- csum_mul in H; cbn in H; lra|].
  intros c _. rewrite (csum_ext _ _ _ (fun _ => cmul c0 c0)); [rewrite <- csum_mul; ring|]. intros c' _. unfold cconj, c0, cmul. cbn [fst snd]. f_equal; ring.
Qed.
Lemma part_trace : forall ds A, NoDup (configs ds) -> fst (trace ds A) = part ds A.
Proof.
  intros ds A HN. unfold part, trace, o_trace, hs. change (fst (csum_l (configs ds) (fun c => A c c)) = fst (csum_l (configs ds) (fun c => csum_l (configs ds) (fun c' => cmul (cconj (A c c')) (ident c c'))))).
  rewrite (csum_ext _ _ (fun c => csum_l _ _) (fun c => cconj (A c c))).
  - clear HN. induction (configs ds) as [|c l IH]; [reflexivity|]. cbn [csum_l fold_right]. fold (csum_l l (fun c => A c c)) (csum_l l (fun c => cconj (A c c))). unfold cadd. cbn [fst]. f_equal. exact IH.
  - intros c Hc. rewrite (csum_one_in _ _ c); auto.
    + rewrite (ident_diag ds) by auto. destruct (list_eq_dec _ _ _); [ring|congruence].
    + intros c' Hc' NE. rewrite (ident_diag ds) by auto. destruct (list_eq_dec _ _ _); [congruence|ring].
Qed.
