(** Instances for TruncateMPS: decompositions that meet the contracts, and a state whose truncation loses something. *)
From Coq Require Import List Arith Lia Bool ZArith Reals Lra Psatz Ring.
From Verif Require Import Base FiniteMps FmpsSpec FmpsFacts FmpsNorm FmpsTruth EffHam EffHamSpec EffHamFacts ChainSpec ChainFacts ChainOne Cx GVec DmrgStep TruncMps TruncMpsSpec TruncMpsMath TruncMpsFacts TruncMpsRun.
Import ListNotations.
Local Open Scope nat_scope.

(** the results as functions of what the call returns *)
Section Results.
Variables (qr : cten -> cten * cmat) (svd1 : cten -> cmat * cten * list cx) (svd : real -> nat -> nat -> cten -> cten * list real * cmat * real).
Hypothesis QR : qr_exact cx c0 c1 cadd cmul cconj qr.
Hypothesis SVD1 : svd_exact cx c0 c1 cadd cmul cconj svd1.
Variables (terr : real) (Dmin Dmax : nat).
Hypothesis SV : good_svd terr Dmin Dmax svd.
Notation run := (truncate_mps qr svd1 svd).
Variables (dbg : bool) (st : fmps cx) (ts : list cten).
Hypothesis (HH : holdsc st ts) (HL : linked cx 1 ts 1) (HT : truthful cx c0 c1 cadd cmul cconj st) (HN : (if dbg then 2 else 1) <= length ts) (HZ : norm ts <> 0%R).

Lemma map_some_inj : forall A (l m : list A), map Some l = map Some m -> l = m.
Proof. induction l as [|x l IH]; intros [|y m] H; cbn in H; try discriminate; auto. injection H as -> H. f_equal. auto. Qed.
Lemma result_ok : forall st' ts' out, run dbg terr Dmin Dmax st = Ok (st', out) -> holdsc st' ts' ->
  dims ts' = dims ts /\ length ts' = length ts /\ linked cx 1 ts' 1 /\ Forall lcan (removelast ts') /\ length out = length ts - 1 /\ map (@d2 cx) (removelast ts') = map snd out /\ Forall (printed_ok terr Dmax) out /\
  center st' = (-1)%Z /\ Forall (eq NONE) (types st') /\ inner ts' ts' = c1 /\ inner ts' ts = cre (norm ts * kept (map fst out)).
Proof.
  intros st' ts' out E HE. destruct (truncate_ok qr svd1 svd QR SVD1 terr Dmin Dmax dbg st ts SV HH HL HT HN HZ) as [st2 [l [z [out2 [A1 [A2 [A3 [A4 [A5 [A6 [A7 [A8 [A9 [A10 [A11 [A12 A13]]]]]]]]]]]]]]]].
  rewrite E in A1. injection A1 as <- <-. assert (ts' = l ++ [z]) as -> by (apply map_some_inj; rewrite <- (proj1 HE); exact (proj1 A2)).
  rewrite removelast_last. split; [exact A6|]. split; [apply (f_equal (@length nat)) in A6; rewrite !map_length in A6; exact A6|].
  split; [exact A5|]. split; [exact A7|]. split; [exact A4|]. split; [exact A8|]. split; [exact A9|]. split; [exact A10|]. split; [exact A11|]. split; [exact A12|]. exact A13.
Qed.
Lemma errs_ok : forall out, Forall (printed_ok terr Dmax) out -> Forall (fun e => (0 <= e < 1)%R) (map fst out).
Proof. intros out H. apply Forall_map. eapply Forall_impl; [|exact H]. intros o [A _]. exact A. Qed.
Lemma result_distance : forall st' ts' out, run dbg terr Dmin Dmax st = Ok (st', out) -> holdsc st' ts' ->
  distance2 ts' ts = (2 - 2 * kept (map fst out))%R /\ (0 <= distance2 ts' ts <= 2 * lost (map fst out))%R.
Proof.
  intros st' ts' out E HE. destruct (result_ok st' ts' out E HE) as [A1 [A2 [A3 [A4 [A5 [A6 [A7 [A8 [A9 [A10 A11]]]]]]]]]].
  pose proof (distance_ok ts' ts _ A1 A10 HZ A11) as D. split; [exact D|]. rewrite D. destruct (kept_bound _ (errs_ok _ A7)) as [B1 B2]. lra.
Qed.
Lemma result_lossless : forall st' ts' out, run dbg terr Dmin Dmax st = Ok (st', out) -> holdsc st' ts' -> Forall (fun o => fst o = 0%R) out ->
  forall s, In s (basis ts) -> amplitude ts' s = cmul (cre (/ norm ts)) (amplitude ts s).
Proof.
  intros st' ts' out E HE HF. apply distance_zero. rewrite (proj1 (result_distance st' ts' out E HE)), kept_zero by (apply Forall_map; exact HF). ring.
Qed.
Lemma result_within : forall st' ts' out, run dbg terr Dmin Dmax st = Ok (st', out) -> holdsc st' ts' -> Forall (fun o => snd o < Dmax) out ->
  (distance2 ts' ts <= 2 * INR (length ts - 1) * terr)%R.
Proof.
  intros st' ts' out E HE HF. destruct (result_ok st' ts' out E HE) as [A1 [A2 [A3 [A4 [A5 [A6 [A7 _]]]]]]].
  destruct (result_distance st' ts' out E HE) as [_ [_ D]]. assert (L : (lost (map fst out) <= INR (length (map fst out)) * terr)%R).
  { apply lost_bound. apply Forall_map. rewrite Forall_forall in *. intros o Ho. apply (A7 o Ho). apply HF. exact Ho. }
  rewrite map_length, A5 in L. lra.
Qed.
End Results.

Lemma short_chain : forall qr svd1 svd terr Dmin Dmax st, length (tens st) < 2 ->
  truncate_mps qr svd1 svd true terr Dmin Dmax st = Abort /\ (tens st = [] -> truncate_mps qr svd1 svd false terr Dmin Dmax st = Ub).
Proof.
  intros qr svd1 svd terr Dmin Dmax st H. split.
  - unfold truncate_mps. cbn [assert_]. rewrite (proj2 (Nat.leb_gt _ _)) by lia. reflexivity.
  - intros E. unfold truncate_mps. rewrite E. cbn. unfold right_cano. rewrite E. reflexivity.
Qed.

(** a decomposition of rank one: the first row that is not zero *)
Definition row2 (a : cten) (x t : nat) : cx := csum (d2 a) (fun y => cmul (cconj (el a x t y)) (el a x t y)).
Definition pick (a : cten) : option (nat * nat) :=
  find (fun q => if Req_EM_T (fst (row2 a (fst q) (snd q))) 0 then false else true) (list_prod (seq 0 (d0 a)) (seq 0 (d1 a))).
Definition svd_one (terr : real) (Dmin Dmax : nat) (a : cten) : cten * list real * cmat * real :=
  match pick a with
  | Some (x, t) => let q := fst (row2 a x t) in
    (mkTen (d0 a) (d1 a) 1 (fun x' t' _ => if (x =? x') && (t =? t') then c1 else c0), [sqrt q], mkMat2 1 (d2 a) (fun _ y => cmul (cre (/ sqrt q)) (el a x t y)), (1 - q / fst (frob a))%R)
  | None => (a, [], mkMat2 0 0 (fun _ _ => c0), 0%R)
  end.
Lemma row2_pos : forall a x t, (0 <= fst (row2 a x t))%R /\ snd (row2 a x t) = 0%R.
Proof.
  intros a x t. unfold row2. induction (d2 a) as [|n IH]; cbn [FmpsSpec.sumn]; [split; [cbn; lra|reflexivity]|].
  set (s := csum n _) in *. destruct IH as [A B]. unfold cadd, cmul, cconj. cbn [fst snd]. rewrite B. split; [nra|ring].
Qed.
Lemma csum_one : forall n k f, k < n -> (forall i, i < n -> i <> k -> f i = c0) -> csum n f = f k.
Proof. intros. rewrite sumn_lsum. apply (EffHamFacts.lsum_one cx c0 c1 cadd cmul csub copp cx_ring); auto. Qed.
Lemma csum_ge : forall n f k, (forall i, i < n -> (0 <= fst (f i))%R) -> k < n -> (fst (f k) <= fst (csum n f))%R.
Proof.
  induction n as [|n IH]; intros f k H Hk; [lia|]. cbn [FmpsSpec.sumn]. change (fst (cadd (csum n f) (f n))) with (fst (csum n f) + fst (f n))%R. destruct (Nat.eq_dec k n) as [->|].
  - destruct (csum_pos n f ltac:(auto)) as [P _]. lra.
  - pose proof (IH f k ltac:(auto) ltac:(lia)). pose proof (H n ltac:(lia)). lra.
Qed.
Lemma svd_one_good : forall terr Dmin, good_svd terr Dmin 1 svd_one.
Proof.
  intros terr Dmin a HA. assert (FZ : fst (frob a) <> 0%R) by (apply frob_nz; exact HA). destruct HA as [x0 [t0 [y0 [Hx [Ht [Hy HE]]]]]].
  unfold svd_one. destruct (pick a) as [[x t]|] eqn:EP.
  2:{ exfalso. unfold pick in EP. pose proof (find_none _ _ EP (x0, t0)) as N. cbn [fst snd] in N. destruct (Req_EM_T (fst (row2 a x0 t0)) 0) as [Z|].
      - apply HE. unfold row2 in Z. assert (Q : forall z, (0 <= fst (cmul (cconj z) z))%R /\ (fst (cmul (cconj z) z) = 0%R -> z = c0)).
        { intros z. replace (cmul (cconj z) z) with (cmul z (cconj z)) by ring. apply sq_pos. }
        apply Q. refine (proj2 (csum_pos _ _ _) Z y0 Hy). intros. apply Q.
      - discriminate N. apply in_prod; apply in_seq; lia. }
  apply find_some in EP. destruct EP as [EI EN]. cbn [fst snd] in EN. apply in_prod_iff in EI. destruct EI as [I1 I2]. apply in_seq in I1. apply in_seq in I2.
  destruct (Req_EM_T (fst (row2 a x t)) 0) as [|NZ]; [discriminate|]. set (q := fst (row2 a x t)) in *.
  assert (QP : (0 < q)%R) by (destruct (row2_pos a x t) as [P _]; fold q in P; lra).
  assert (SP : (0 < sqrt q)%R) by (apply sqrt_lt_R0; exact QP). assert (SS : (sqrt q * sqrt q = q)%R) by (apply sqrt_sqrt; lra).
  assert (RQ : row2 a x t = cre q). { destruct (row2_pos a x t) as [_ P]. unfold q. destruct (row2 a x t) as [r i]. cbn [fst snd] in *. subst i. reflexivity. }
  assert (QF : (q <= fst (frob a))%R).
  { unfold frob. assert (P1 : forall x t, (0 <= fst (row2 a x t))%R) by (intros; apply row2_pos).
    apply Rle_trans with (fst (csum (d1 a) (fun s => row2 a x s))); [apply (csum_ge _ (fun s => row2 a x s) t); [intros; apply P1|lia]|].
    apply (csum_ge _ (fun x => csum (d1 a) (fun s => row2 a x s)) x); [intros; apply csum_pos; intros; apply P1|lia]. }
  destruct (frob_pos a) as [FP _].
  split; cbn [d0 d1 d2 n0 n1 length el me nth].
  - auto.
  - intros k k' Hk Hk'. cbn [d0 d1 d2 el] in *. assert (k = 0) as -> by lia. assert (k' = 0) as -> by lia.
    rewrite (csum_one _ x) by (try lia; intros i Hi N; rewrite (csum_one _ t) by (try lia; intros; replace (x =? i) with false by (symmetry; apply Nat.eqb_neq; lia); cbn [andb]; ring);
      replace (x =? i) with false by (symmetry; apply Nat.eqb_neq; lia); cbn [andb]; ring).
    rewrite (csum_one _ t) by (try lia; intros i Hi N; replace (t =? i) with false by (symmetry; apply Nat.eqb_neq; lia); rewrite andb_false_r; ring).
    rewrite !Nat.eqb_refl. cbn [andb]. rewrite cconj1. unfold FmpsSpec.delta. cbn [Nat.eqb]. ring.
  - intros k Hk. transitivity (cmul (cre (/ sqrt q * / sqrt q)) (row2 a x t)).
    + unfold row2. rewrite !sumn_lsum, lsum_mul_l. apply lsum_ext. intros y _. rewrite cconj_mul, cconj_cre, cre_mul. ring.
    + rewrite RQ, <- cre_mul, <- cre_1. f_equal. rewrite <- SS at 3. field. lra.
  - intros k y Hk Hy'. assert (k = 0) as -> by lia. cbn [nth].
    rewrite (csum_one _ x) by (try lia; intros i Hi N; rewrite (csum_one _ t) by (try lia; intros; replace (x =? i) with false by (symmetry; apply Nat.eqb_neq; lia); cbn [andb]; rewrite cconj0; ring);
      replace (x =? i) with false by (symmetry; apply Nat.eqb_neq; lia); cbn [andb]; rewrite cconj0; ring).
    rewrite (csum_one _ t) by (try lia; intros i Hi N; replace (t =? i) with false by (symmetry; apply Nat.eqb_neq; lia); rewrite andb_false_r, cconj0; ring).
    rewrite !Nat.eqb_refl. cbn [andb]. rewrite cconj1. transitivity (cmul (cmul (cre (sqrt q)) (cre (/ sqrt q))) (el a x t y)); [|ring].
    rewrite <- cre_mul. replace (sqrt q * / sqrt q)%R with 1%R by (field; lra). rewrite cre_1. ring.
  - split.
    + assert (0 < q / fst (frob a) <= 1)%R; [|lra]. split; [apply Rdiv_lt_0_compat; lra|]. apply (Rmult_le_reg_r (fst (frob a))); [lra|]. unfold Rdiv. rewrite Rmult_assoc, Rinv_l by exact FZ. lra.
    + cbn [fold_right]. fold (frob a). rewrite SS. field. exact FZ.
  - split; [lia|]. intros. lia.
Qed.

(** 3/5 |00> + 4/5 |11>, written with bond dimension two *)
Definition ghz_a : cten := mkTen 1 2 2 (fun _ s k => if s =? k then (if s =? 0 then cre (3 / 5) else cre (4 / 5)) else c0).
Definition ghz_b : cten := mkTen 2 2 1 (fun k s _ => if s =? k then c1 else c0).
Definition ghz : list cten := [ghz_a; ghz_b].
Definition ghz_st : fmps cx := mkFmps (map Some ghz) [NONE; NONE] (-1)%Z.
Definition cqr := tqr cx c0 c1. Definition csvd1 := tsvd cx c0 c1.
Lemma cqr_exact : qr_exact cx c0 c1 cadd cmul cconj cqr.
Proof. apply (tqr_exact cx c0 c1 cadd cmul csub copp cx_ring cconj cconj0 cconj1). Qed.
Lemma csvd1_exact : svd_exact cx c0 c1 cadd cmul cconj csvd1.
Proof. apply (tsvd_exact cx c0 c1 cadd cmul csub copp cx_ring cconj cconj0 cconj1). Qed.
Lemma ghz_amp : forall s t, s < 2 -> t < 2 -> amplitude ghz [s; t] = if s =? t then (if s =? 0 then cre (3 / 5) else cre (4 / 5)) else c0.
Proof.
  intros s t Hs Ht. unfold amplitude, ghz. cbn [mps_mat d2 el ghz_a ghz_b FmpsSpec.sumn].
  destruct s as [|[|s]]; [| |lia]; destruct t as [|[|t]]; try lia; cbn [Nat.eqb]; change (FmpsSpec.delta cx c0 c1 0 0) with c1; ring.
Qed.
Lemma ghz_norm : norm ghz = 1%R.
Proof.
  assert (E : inner ghz ghz = c1).
  { unfold inner. change (basis ghz) with [[0; 0]; [0; 1]; [1; 0]; [1; 1]]. cbn [total fold_right]. rewrite !ghz_amp by lia. cbn [Nat.eqb]. rewrite !cconj_cre, cconj0, <- !cre_mul.
    unfold cre, c0, c1, cadd, cmul. cbn [fst snd]. f_equal; field. }
  unfold norm. rewrite E. cbn [fst c1]. apply sqrt_1.
Qed.
Lemma ghz_ok : holdsc ghz_st ghz /\ linked cx 1 ghz 1 /\ truthful cx c0 c1 cadd cmul cconj ghz_st /\ 2 <= length ghz /\ norm ghz <> 0%R.
Proof.
  split; [split; reflexivity|]. split; [cbn; auto|]. split; [|split; [cbn; lia|rewrite ghz_norm; lra]].
  intros i. cbn [ghz_st types]. split; destruct i as [|[|[|i]]]; cbn; intros; discriminate.
Qed.
(** truncated to bond dimension one it loses something *)
Lemma ghz_lossy : exists st' ts' e, truncate_mps cqr csvd1 svd_one true (1 / 10) 1 1 ghz_st = Ok (st', [(e, 1)]) /\ holdsc st' ts' /\ (0 < e < 1)%R /\ inner ts' ghz = cre (sqrt (1 - e)).
Proof.
  destruct ghz_ok as [G1 [G2 [G3 [G4 G5]]]].
  destruct (truncate_ok cqr csvd1 svd_one cqr_exact csvd1_exact (1 / 10) 1 1 true ghz_st ghz (svd_one_good _ _) G1 G2 G3 G4 G5) as [st' [l [z [out [A1 [A2 [A3 [A4 [A5 [A6 [A7 [A8 [A9 [A10 [A11 [A12 A13]]]]]]]]]]]]]]]].
  cbn [length ghz Nat.sub] in A3, A4. destruct l as [|u [|]]; try discriminate. destruct out as [|[e D] [|]]; try discriminate. inversion A9 as [|? ? [B1 [B2 _]] _]; subst. cbn [fst snd] in *.
  cbn [map snd] in A8. injection A8 as A8. cbn [app] in *.
  assert (AM : forall s t, amplitude [u; z] [s; t] = csum (d2 u) (fun k => cmul (el u 0 s k) (csum (d2 z) (fun w => cmul (el z k t w) (if w =? 0 then c1 else c0))))) by reflexivity.
  assert (LS : e = 0%R -> forall s t, s < 2 -> t < 2 -> amplitude [u; z] [s; t] = amplitude ghz [s; t]).
  { intros -> s t Hs Ht. pose proof (result_lossless cqr csvd1 svd_one cqr_exact csvd1_exact (1 / 10) 1 1 (svd_one_good _ _) true ghz_st ghz G1 G2 G3 G4 G5 st' [u; z] _ A1 A2) as L.
    rewrite L; [rewrite ghz_norm, Rinv_1, cre_1; ring|constructor; [reflexivity|constructor]|]. change (basis ghz) with [[0; 0]; [0; 1]; [1; 0]; [1; 1]].
    destruct s as [|[|s]]; [| |lia]; destruct t as [|[|t]]; try lia; cbn; auto. }
  assert (EP : e <> 0%R /\ D = 1).
  { destruct (Nat.eq_dec D 0) as [->|].
    - exfalso. rewrite A8 in AM. clear -A12 AM A6. unfold inner in A12. unfold basis in A12. rewrite A6 in A12. change (configs (dims ghz)) with [[0; 0]; [0; 1]; [1; 0]; [1; 1]] in A12. cbn [total fold_right] in A12. rewrite !AM in A12. cbn [FmpsSpec.sumn] in A12.
      apply (f_equal fst) in A12. cbn in A12. lra.
    - assert (D = 1) as -> by lia. split; [|reflexivity]. intros ->. specialize (LS eq_refl). rewrite A8 in AM. cbn [FmpsSpec.sumn] in AM.
      assert (X : cmul (amplitude ghz [0; 0]) (amplitude ghz [1; 1]) = cmul (amplitude ghz [0; 1]) (amplitude ghz [1; 0])) by (rewrite <- !LS by lia; rewrite !AM; ring).
      rewrite !ghz_amp in X by lia. cbn [Nat.eqb] in X. apply (f_equal fst) in X. cbn in X. lra. }
  destruct EP as [EP ->]. exists st', [u; z], e. split; [exact A1|]. split; [exact A2|]. split; [lra|]. rewrite A13, ghz_norm. cbn [map fst kept fold_right]. f_equal. ring.
Qed.
