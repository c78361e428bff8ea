(** How far the energy that a truncated DMRG run returns is from the energy of the chain that it stores. *)
From Coq Require Import List Arith Bool Lia Reals Lra Ring_theory.
From Verif Require Import Base FiniteMps FmpsSpec FmpsFacts EffHam EffHamSpec EffHamFacts ChainSpec ChainFacts Cx KrylovInst DmrgUpdate DmrgStep DmrgVarSpec DmrgVar DmrgVarInst DmrgTrunc DmrgTruncSpec DmrgTruncFacts DmrgTruncInst CorrSpec CorrRun.
Import ListNotations.
Local Open Scope nat_scope.

Section Bound.
Variable N : nat.
Variable ws : nat -> cmpo.
Variable ds : list nat.
Notation CS := (configs ds).
Notation cl := (lsum cx c0 cadd).
Definition sand (v w : list nat -> cx) : cx := cl CS (fun c' => cl CS (fun c => cmul (cmul (cconj (v c')) (mpo_mat cx c0 c1 cadd cmul (sites N ws) c c' 0 0)) (w c))).
Definition vv (v w : list nat -> cx) : cx := cl CS (fun c => cmul (cconj (v c)) (w c)).
Notation sub v w := (fun c : list nat => csub (v c) (w c)).
Lemma cl_sub : forall (l : list (list nat)) f g, cl l (fun c => csub (f c) (g c)) = csub (cl l f) (cl l g).
Proof. intros l f g. induction l as [|a l IH]; cbn [lsum fold_right]; [ring|]. unfold lsum in IH. rewrite IH. ring. Qed.
Lemma conj_sub : forall x y, cconj (csub x y) = csub (cconj x) (cconj y).
Proof. intros [a b] [c d]. unfold cconj, csub. cbn [fst snd]. f_equal. ring. Qed.
Lemma sand_diff : forall v w, csub (sand v v) (sand w w) = cadd (sand (sub v w) v) (sand w (sub v w)).
Proof.
  intros v w. transitivity (cadd (csub (sand v v) (sand w v)) (csub (sand w v) (sand w w))); [ring|]. f_equal; unfold sand; rewrite <- cl_sub; apply (lsum_ext cx c0 cadd); intros c' _; rewrite <- cl_sub; apply (lsum_ext cx c0 cadd); intros c _; rewrite ?conj_sub; ring.
Qed.
Lemma vv_sub : forall v w, vv (sub v w) (sub v w) = csub (cadd (vv v v) (vv w w)) (cadd (vv v w) (vv w v)).
Proof.
  intros v w. transitivity (csub (csub (vv v v) (vv v w)) (csub (vv w v) (vv w w))); [|ring]. unfold vv. rewrite <- !cl_sub. apply (lsum_ext cx c0 cadd). intros c _. rewrite conj_sub. ring.
Qed.
Lemma vv_conj : forall v w, cconj (vv v w) = vv w v.
Proof. intros v w. unfold vv. rewrite (lsum_conj cx c0 cadd cconj cconj0 cconj_add). apply (lsum_ext cx c0 cadd). intros c _. rewrite cconj_mul, cconj_conj. ring. Qed.
(** the distance of the two chains is the square root of the truncation error *)
Lemma cut_distance : forall ts' e d ph, truncated N ws ds ts' e d ph -> vv (sub (coef N ts') (coef N ph)) (sub (coef N ts') (coef N ph)) = cre d.
Proof.
  intros ts' e d ph [O1 [Hd [N1 [O2 [[N2 E2] B]]]]]. rewrite vv_sub, <- (vv_conj (coef N ts') (coef N ph)).
  change (vv (coef N ts') (coef N ph)) with (braket N ds ts' ph). change (vv (coef N ts') (coef N ts')) with (braket N ds ts' ts'). change (vv (coef N ph) (coef N ph)) with (braket N ds ph ph).
  rewrite !norm_braket, N1, N2, B by assumption. unfold csub, cadd, cconj, cre, c1. cbn [fst snd]. f_equal; ring.
Qed.
Lemma energy_off : forall ts' e d ph h, truncated N ws ds ts' e d ph -> op_bound N ws ds h -> (0 <= h)%R -> (Rabs (fst (cenergy (sites N ts') (sites N ws)) - e) <= 2 * h * sqrt d)%R.
Proof.
  intros ts' e d ph h T HB Hh. pose proof (cut_distance _ _ _ _ T) as CD. destruct T as [O1 [Hd [N1 [O2 [[N2 E2] B]]]]].
  assert (S1 : cenergy (sites N ts') (sites N ws) = sand (coef N ts') (coef N ts')) by (unfold EffHamSpec.energy; rewrite (proj2 O1); reflexivity).
  assert (S2 : cre e = sand (coef N ph) (coef N ph)) by (rewrite <- E2; unfold EffHamSpec.energy; rewrite (proj2 O2); reflexivity).
  set (x := coef N ts') in *. set (p := coef N ph) in *.
  assert (DF : (fst (cenergy (sites N ts') (sites N ws)) - e = fst (sand (sub x p) x) + fst (sand p (sub x p)))%R).
  { rewrite S1. pose proof (f_equal fst (sand_diff x p)) as D. change (fst (cadd (sand (sub x p) x) (sand p (sub x p)))) with (fst (sand (sub x p) x) + fst (sand p (sub x p)))%R in D. rewrite <- D. rewrite <- S2. reflexivity. }
  rewrite DF. assert (HS : forall v w, (Rabs (fst (sand v w)) <= h * (sqrt (fst (vv v v)) * sqrt (fst (vv w w))))%R) by exact HB.
  pose proof (HS (sub x p) x) as H1. pose proof (HS p (sub x p)) as H2. rewrite CD in H1, H2.
  assert (X : vv x x = cre (1 - d)) by (rewrite <- N1, <- (norm_braket N ds) by assumption; reflexivity). assert (P : vv p p = c1) by (rewrite <- N2, <- (norm_braket N ds) by assumption; reflexivity).
  rewrite X in H1. rewrite P in H2. unfold c1, cre in H1, H2. cbn [fst] in H1, H2. rewrite sqrt_1 in H2.
  assert (Q : (sqrt (1 - d) <= 1)%R) by (pose proof (sqrt_le_1_alt (1 - d) 1 ltac:(lra)) as Q; rewrite sqrt_1 in Q; exact Q). pose proof (sqrt_pos d) as SD. pose proof (sqrt_pos (1 - d)) as SE.
  apply Rle_trans with (1 := Rabs_triang _ _). assert (h * (sqrt d * sqrt (1 - d)) <= h * sqrt d)%R; [|lra]. apply Rmult_le_compat_l; [exact Hh|]. rewrite <- (Rmult_1_r (sqrt d)) at 2. apply Rmult_le_compat_l; assumption.
Qed.
End Bound.

(** *** the two bounds for the operator - X_1 X_2 - Z_1 Z_2 *)
Lemma bell_above : spectrum_above 3 b_mpo [1; 2; 2] (-2).
Proof.
  intros v. cbn [configs seq flat_map map app lsum fold_right]. set (A := v [0; 0; 0]). set (B := v [0; 0; 1]). set (C := v [0; 1; 0]). set (D := v [0; 1; 1]). clearbody A B C D.
  match goal with |- (_ <= fst ?t)%R => replace t with (copp (cadd (cadd (cadd (cmul (cconj A) D) (cmul (cconj D) A)) (cadd (cmul (cconj B) C) (cmul (cconj C) B)))
    (csub (cadd (cmul (cconj A) A) (cmul (cconj D) D)) (cadd (cmul (cconj B) B) (cmul (cconj C) C))))) end.
  2: { cbn [sites map seq mpo_mat b_mpo mcols mrows ent Nat.eqb FmpsSpec.sumn mval]. unfold oneg, oX, oZ, oI, delta. cbn [Nat.add Nat.eqb]. cbv zeta. ring. }
  destruct A as [a a'], B as [b b'], C as [c c'], D as [d d']. unfold cadd, csub, copp, cmul, cconj, c0. cbn [fst snd].
  pose proof (Rle_0_sqr (a - d)). pose proof (Rle_0_sqr (a' - d')). pose proof (Rle_0_sqr (b - c)). pose proof (Rle_0_sqr (b' - c')). pose proof (Rle_0_sqr b). pose proof (Rle_0_sqr b'). pose proof (Rle_0_sqr c). pose proof (Rle_0_sqr c'). unfold Rsqr in *. lra.
Qed.
Lemma re_schwarz : forall (l : list (list nat)) f g, (Rabs (fst (lsum cx c0 cadd l (fun c => cmul (cconj (f c)) (g c)))) <=
  sqrt (fst (lsum cx c0 cadd l (fun c => cmul (cconj (f c)) (f c)))) * sqrt (fst (lsum cx c0 cadd l (fun c => cmul (cconj (g c)) (g c)))))%R.
Proof.
  intros l f g. assert (A : forall f, fst (lsum cx c0 cadd l (fun c => cmul (cconj (f c)) (f c))) = rsum l (fun c => ab2 (f c))).
  { intros h. induction l as [|a l IH]; [reflexivity|]. change (fst (cmul (cconj (h a)) (h a)) + fst (lsum cx c0 cadd l (fun c => cmul (cconj (h c)) (h c))) = ab2 (h a) + rsum l (fun c => ab2 (h c)))%R. rewrite IH. f_equal. unfold ab2, cmul, cconj. cbn [fst snd]. ring. }
  pose proof (schwarz (list nat) l f g) as S. cbv beta in S. rewrite !A. set (z := lsum _ _ _ _ _) in *. assert (PF : (0 <= rsum l (fun c => ab2 (f c)))%R) by (apply rsum_pos; intros; apply ab2_pos).
  assert (PG : (0 <= rsum l (fun c => ab2 (g c)))%R) by (apply rsum_pos; intros; apply ab2_pos). rewrite <- sqrt_mult by assumption. rewrite <- sqrt_Rsqr_abs. apply sqrt_le_1_alt. unfold ab2 in S at 1. pose proof (Rle_0_sqr (snd z)). unfold Rsqr in *. lra.
Qed.
Lemma bell_bounded : op_bound 3 b_mpo [1; 2; 2] 2.
Proof.
  intros v w.
  set (vx := fun c : list nat => v [0; 1 - nth 1 c 0; 1 - nth 2 c 0]). set (vz := fun c : list nat => if nth 1 c 0 =? nth 2 c 0 then v c else copp (v c)).
  assert (E : lsum cx c0 cadd (configs [1; 2; 2]) (fun c' => lsum cx c0 cadd (configs [1; 2; 2]) (fun c => cmul (cmul (cconj (v c')) (mpo_mat cx c0 c1 cadd cmul (sites 3 b_mpo) c c' 0 0)) (w c))) =
    copp (cadd (lsum cx c0 cadd (configs [1; 2; 2]) (fun c => cmul (cconj (vx c)) (w c))) (lsum cx c0 cadd (configs [1; 2; 2]) (fun c => cmul (cconj (vz c)) (w c))))).
  { unfold vx, vz. cbn [configs seq flat_map map app lsum fold_right nth Nat.sub Nat.eqb]. assert (HN : forall z, cconj (copp z) = copp (cconj z)) by (intros [a b]; unfold cconj, copp; cbn [fst snd]; f_equal). rewrite !HN.
    cbn [sites map seq mpo_mat b_mpo mcols mrows ent Nat.eqb FmpsSpec.sumn mval]. unfold oneg, oX, oZ, oI, delta. cbn [Nat.add Nat.eqb]. cbv zeta. ring. }
  rewrite E. pose proof (re_schwarz (configs [1; 2; 2]) vx w) as S1. pose proof (re_schwarz (configs [1; 2; 2]) vz w) as S2.
  assert (X : lsum cx c0 cadd (configs [1; 2; 2]) (fun c => cmul (cconj (vx c)) (vx c)) = lsum cx c0 cadd (configs [1; 2; 2]) (fun c => cmul (cconj (v c)) (v c))) by (unfold vx; cbn [configs seq flat_map map app lsum fold_right nth Nat.sub]; ring).
  assert (Z : lsum cx c0 cadd (configs [1; 2; 2]) (fun c => cmul (cconj (vz c)) (vz c)) = lsum cx c0 cadd (configs [1; 2; 2]) (fun c => cmul (cconj (v c)) (v c))).
  { apply (lsum_ext cx c0 cadd). intros c _. unfold vz. destruct (_ =? _); [reflexivity|]. destruct (v c) as [a b]. unfold cmul, cconj, copp. cbn [fst snd]. f_equal; ring. }
  rewrite X in S1. rewrite Z in S2. set (a := lsum _ _ _ _ (fun c => cmul (cconj (vx c)) (w c))) in *. set (b := lsum _ _ _ _ (fun c => cmul (cconj (vz c)) (w c))) in *.
  change (fst (copp (cadd a b))) with (- (fst a + fst b))%R. rewrite Rabs_Ropp. apply Rle_trans with (1 := Rabs_triang _ _). lra.
Qed.
