(** TruncateMPS: the whole call, overlap and distance. *)
From Coq Require Import List Arith Lia Bool ZArith Reals Lra Psatz Ring.
From Verif Require Import Base FiniteMps FmpsSpec FmpsFacts FmpsTruth EffHam EffHamSpec EffHamFacts ChainSpec ChainFacts ChainOne FinMpoFacts MeasureFacts Cx GVec DmrgStep EndFloor TruncMps TruncMpsSpec TruncMpsMath TruncMpsFacts.
Import ListNotations.
Local Open Scope nat_scope.

Lemma same_mat : forall A B, FmpsFacts.same_state cx c0 c1 cadd cmul 1 1 A B -> forall c, In c (configs (dims A)) -> mm B c 0 0 = mm A c 0 0.
Proof.
  intros A B [H1 H2 H3 H4] c Hc. apply FinMpoFacts.cfg_in in Hc. assert (LC_ : length c = length A) by (pose proof (Forall2_len _ _ _ _ _ Hc) as E; rewrite map_length in E; auto).
  assert (CF : config cx A (fun i => nth i c 0)).
  { intros i t Ht. assert (Hi : i < length c) by (rewrite LC_; apply nth_error_Some; congruence).
    assert (Ed : nth_error (dims A) i = Some (d1 t)) by (rewrite nth_error_map, Ht; auto).
    clear -Hc Ed Hi. revert i Ed Hi. induction Hc as [|s d c ds H _ IH]; intros [|i] Ed Hi; cbn in *; try lia; [congruence|apply IH; auto; lia]. }
  pose proof (H4 _ CF 0 0 ltac:(lia)) as E. rewrite !(mat_from cx c0 c1 cadd cmul), H1, <- LC_, map_nth_seq in E. exact E.
Qed.
Lemma same_inner : forall A B, FmpsFacts.same_state cx c0 c1 cadd cmul 1 1 A B -> cnorm2 B = cnorm2 A.
Proof.
  intros A B H. unfold ChainSpec.norm2. rewrite (ss_phys _ _ _ _ _ _ _ _ _ H). apply lsum_ext. intros c Hc. rewrite !(same_mat A B H c Hc). reflexivity.
Qed.
Lemma kept_bound : forall es, Forall (fun e => (0 <= e < 1)%R) es -> (0 < kept es <= 1)%R /\ (1 - lost es <= kept es)%R.
Proof.
  induction es as [|e es IH]; intros H; [cbn; lra|]. inversion H as [|? ? H1 H2]; subst. destruct (IH H2) as [A B]. cbn [kept lost fold_right]. fold (kept es). fold (lost es).
  assert (S1 : (0 < sqrt (1 - e))%R) by (apply sqrt_lt_R0; lra). assert (SS : (sqrt (1 - e) * sqrt (1 - e) = 1 - e)%R) by (apply sqrt_sqrt; lra).
  assert (S2 : (sqrt (1 - e) <= 1)%R) by nra. assert (S3 : (1 - e <= sqrt (1 - e))%R) by nra. split; [split; nra|]. nra.
Qed.
Lemma kept_zero : forall es, Forall (fun e => e = 0%R) es -> kept es = 1%R.
Proof. induction es as [|e es IH]; intros H; [reflexivity|]. inversion H; subst. cbn [kept fold_right]. fold (kept es). rewrite IH by auto. replace (1 - 0)%R with 1%R by ring. rewrite sqrt_1. ring. Qed.
Lemma lost_bound : forall es t, Forall (fun e => (e <= t)%R) es -> (lost es <= INR (length es) * t)%R.
Proof. induction es as [|e es IH]; intros t H; [cbn; lra|]. inversion H as [|? ? H1 H2]; subst. cbn [lost fold_right]. fold (lost es). specialize (IH t H2). cbn [length]. rewrite S_INR. nra. Qed.

Section Run.
Variables (qr : cten -> cten * cmat) (svd1 : cten -> cmat * cten * list cx) (svd : real -> nat -> nat -> cten -> cten * list real * cmat * real).
Hypothesis QR : qr_exact cx c0 c1 cadd cmul cconj qr.
Hypothesis SVD1 : svd_exact cx c0 c1 cadd cmul cconj svd1.
Variables (terr : real) (Dmin Dmax : nat).
Notation run := (truncate_mps qr svd1 svd).

(** after Centralize(0) *)
Lemma centered : forall dbg st ts, holdsc st ts -> linked cx 1 ts 1 -> truthful cx c0 c1 cadd cmul cconj st -> 1 <= length ts ->
  exists st1 a r, centralize cx c0 cadd cmul qr svd1 dbg 0 st = Ok st1 /\ holdsc st1 (a :: r) /\ FmpsFacts.same_state cx c0 c1 cadd cmul 1 1 ts (a :: r) /\ Forall rcan r /\ frob a = inner ts ts.
Proof.
  intros dbg st ts HH HL HT HN.
  destruct (centralize_ok cx c0 c1 cadd cmul csub copp cx_ring cconj qr svd1 QR SVD1 dbg 1 1 ts st 0 HH HL ltac:(lia)) as [st1 [ts1 [A [B [C [D [E F]]]]]]].
  pose proof (centralize_true cx c0 c1 cadd cmul cconj qr svd1 QR SVD1 dbg _ st st1 HT A) as T'.
  pose proof (ss_len _ _ _ _ _ _ _ _ _ C) as L1. destruct ts1 as [|a r]; [cbn in L1; lia|].
  assert (HR : Forall rcan r).
  { apply Forall_forall. intros t Ht. apply In_nth_error in Ht. destruct Ht as [j Hj]. assert (j < length r) by (apply nth_error_Some; congruence).
    destruct (proj2 (T' (S j)) (F (S j) ltac:(cbn in L1; lia))) as [t' [T1 T2]]. rewrite (proj1 B) in T1. cbn [map nth_error] in T1. rewrite nth_error_map, Hj in T1. injection T1 as <-. exact T2. }
  pose proof (ss_link _ _ _ _ _ _ _ _ _ C) as LK. cbn [linked] in LK. destruct LK as [LK1 LK2].
  exists st1, a, r. split; [exact A|]. split; [exact B|]. split; [exact C|]. split; [exact HR|].
  change (inner ts ts) with (cnorm2 ts). rewrite <- (same_inner _ _ C).
  pose proof (norm2_one cx c0 c1 cadd cmul csub copp cx_ring cconj cconj0 cconj_add cconj_mul [] r a) as E2. cbn [app] in E2. rewrite E2; [reflexivity| | |].
  - cbn. auto.
  - apply (left_basis_ok cx c0 c1 cadd cmul csub copp cx_ring cconj cconj0 cconj1 cconj_add cconj_mul); [cbn; auto|constructor].
  - apply (right_basis_ok cx c0 c1 cadd cmul csub copp cx_ring cconj cconj0 cconj1 cconj_add cconj_mul); auto.
Qed.

Lemma truncate_ok : forall (dbg : bool) st ts, good_svd terr Dmin Dmax svd -> holdsc st ts -> linked cx 1 ts 1 -> truthful cx c0 c1 cadd cmul cconj st ->
  (if dbg then 2 else 1) <= length ts -> norm ts <> 0%R ->
  exists st' ts' z out, run dbg terr Dmin Dmax st = Ok (st', out) /\ holdsc st' (ts' ++ [z]) /\
    length ts' = length ts - 1 /\ length out = length ts - 1 /\ linked cx 1 (ts' ++ [z]) 1 /\ dims (ts' ++ [z]) = dims ts /\ Forall lcan ts' /\ map (@d2 cx) ts' = map snd out /\
    Forall (printed_ok terr Dmax) out /\ center st' = (-1)%Z /\ Forall (eq NONE) (types st') /\
    inner (ts' ++ [z]) (ts' ++ [z]) = c1 /\ inner (ts' ++ [z]) ts = cre (norm ts * kept (map fst out)).
Proof.
  intros dbg st ts SV HH HL HT HN HZ.
  destruct (centered dbg st ts HH HL HT ltac:(destruct dbg; lia)) as [st1 [a [r [A [B [C [HR FA]]]]]]].
  assert (LN : length (tens st) = length ts) by (rewrite (proj1 HH); apply map_length).
  assert (L1 : S (length r) = length ts) by exact (ss_len _ _ _ _ _ _ _ _ _ C).
  unfold truncate_mps. assert (E0 : assert_ dbg (2 <=? length (tens st)) = Ok tt).
  { destruct dbg; [|reflexivity]. rewrite (proj2 (Nat.leb_le _ _)) by lia. reflexivity. }
  rewrite E0. cbn [bind]. rewrite A. cbn [bind].
  pose proof (ss_link _ _ _ _ _ _ _ _ _ C) as LK. cbn [linked] in LK. destruct LK as [LK1 LK2].
  assert (LT1 : length (tens st1) = S (length r)) by (rewrite (proj1 B), map_length; reflexivity).
  assert (LY1 : length (types st1) = S (length r)) by (rewrite (proj2 B); reflexivity).
  rewrite (touch_ok cx) by lia. cbn [bind].
  erewrite (deref_ok cx) by (cbn [tens]; rewrite (proj1 B); reflexivity). cbn [bind].
  assert (NA : norm ts = sqrt (fst (frob a))) by (unfold norm; rewrite FA; reflexivity).
  unfold normalize_ten. rewrite <- NA. destruct (Req_EM_T (norm ts) 0) as [|_]; [contradiction|]. cbn [bind].
  rewrite (put_ok cx) by (cbn [tens]; lia). cbn [bind tens types center].
  set (w := norm ts) in *. set (a' := mkTen (d0 a) (d1 a) (d2 a) (fun x s b => cmul (cre (/ w)) (el a x s b))).
  rewrite (proj1 B). cbn [map upd].
  assert (WW : (w * w = fst (frob a))%R) by (rewrite NA; apply sqrt_sqrt, frob_pos).
  assert (FA' : frob a' = c1).
  { transitivity (cmul (cre (/ w * / w)) (frob a)).
    - rewrite (frob_lsum a'), (frob_lsum a). unfold a'. cbn [d0 d1 d2 el]. rewrite lsum_mul_l. apply lsum_ext. intros x _. rewrite lsum_mul_l. apply lsum_ext. intros s _. rewrite lsum_mul_l. apply lsum_ext. intros y _.
      rewrite cconj_mul, cconj_cre, cre_mul. ring.
    - rewrite (frob_re a), <- cre_mul, <- WW, <- cre_1. f_equal. field. exact HZ. }
  set (psi := fun c => cmul (cre (/ w)) (mm ts c 0 0)).
  assert (PR : projects psi [] (a' :: r) (d0 a') 1).
  { intros y c' Hy Hc. unfold a' in Hy. cbn [d0] in Hy. assert (y = 0) as -> by lia. cbn [map configs EffHamSpec.lsum fold_right app mps_mat Nat.eqb].
    change (cadd (cmul (cconj c1) (psi c')) c0 = cmul (cre 1) (mm (a' :: r) c' 0 0)). rewrite cconj1, cre_1.
    assert (E : mm (a' :: r) c' 0 0 = psi c'); [|rewrite E; ring]. unfold psi. rewrite <- (same_mat _ _ C) by (rewrite <- (ss_phys _ _ _ _ _ _ _ _ _ C); exact Hc).
    apply in_configs_nil in Hc. destruct Hc as [s [c'' [-> [Hs Hc]]]]. cbn [mps_mat]. unfold a'. cbn [d2 el]. rewrite !sumn_lsum, lsum_mul_l. apply lsum_ext. intros z _. ring. }
  set (st2 := @mkFmps cx (Some a' :: map Some r) (upd (types st1) 0 NONE) (-1)%Z).
  destruct (loop_ok svd terr Dmin Dmax SV psi r [] a' st2 [] 1%R) as [st' [ts' [z [out [A1 [A2 [A3 [A4 [A5 [A6 [A7 [A8 [A9 [A10 [A11 [A12 A13]]]]]]]]]]]]]]]].
  - split; [reflexivity|]. cbn [st2 types]. rewrite upd_length, LY1. reflexivity.
  - reflexivity.
  - intros j Hj. cbn [length] in Hj. replace j with 0 by lia. cbn [st2 types]. destruct (types st1); [discriminate|]. reflexivity.
  - cbn. auto.
  - exact LK2.
  - constructor.
  - exact HR.
  - exact FA'.
  - exact PR.
  - cbn [app length] in *. exists st', ts', z, out. replace (length (tens st) - 1) with (length r) by lia. split; [exact A1|]. split; [exact A2|].
    split; [lia|]. split; [lia|]. split; [change (cfit (d0 a) (ts' ++ [z]) 1) in A5; rewrite LK1 in A5; exact A5|]. assert (DD : dims (ts' ++ [z]) = dims ts) by (rewrite A6, <- (ss_phys _ _ _ _ _ _ _ _ _ C); reflexivity).
    split; [exact DD|]. split; [exact A7|]. split; [exact A8|]. split; [exact A9|]. split; [exact A10|]. split; [exact A11|]. split; [exact A13|].
    transitivity (cmul (cre w) (cre (1 * kept (map fst out)))).
    + rewrite <- A12, lsum_mul_l, DD. unfold inner. change (lsum (configs (dims ts)) (fun s => cmul (cconj (mm (ts' ++ [z]) s 0 0)) (mm ts s 0 0)) = lsum (configs (dims ts)) (fun c => cmul (cre w) (cmul (cconj (mm (ts' ++ [z]) c 0 0)) (psi c)))).
      apply lsum_ext. intros c _. unfold psi. transitivity (cmul (cmul (cre w) (cre (/ w))) (cmul (cconj (mm (ts' ++ [z]) c 0 0)) (mm ts c 0 0))); [|ring].
      rewrite <- cre_mul. replace (w * / w)%R with 1%R by (field; exact HZ). rewrite cre_1. ring.
    + rewrite <- cre_mul. f_equal. ring.
Qed.

(** the state with norm zero *)
Lemma truncate_zero : forall (dbg : bool) st ts, holdsc st ts -> linked cx 1 ts 1 -> truthful cx c0 c1 cadd cmul cconj st -> (if dbg then 2 else 1) <= length ts -> norm ts = 0%R ->
  run dbg terr Dmin Dmax st = Ub.
Proof.
  intros dbg st ts HH HL HT HN HZ. destruct (centered dbg st ts HH HL HT ltac:(destruct dbg; lia)) as [st1 [a [r [A [B [C [HR FA]]]]]]].
  assert (LN : length (tens st) = length ts) by (rewrite (proj1 HH); apply map_length).
  unfold truncate_mps. assert (E0 : assert_ dbg (2 <=? length (tens st)) = Ok tt).
  { destruct dbg; [|reflexivity]. rewrite (proj2 (Nat.leb_le _ _)) by lia. reflexivity. }
  rewrite E0. cbn [bind]. rewrite A. cbn [bind].
  assert (LT1 : length (tens st1) = S (length r)) by (rewrite (proj1 B), map_length; reflexivity).
  assert (LY1 : length (types st1) = S (length r)) by (rewrite (proj2 B); reflexivity).
  rewrite (touch_ok cx) by lia. cbn [bind].
  erewrite (deref_ok cx) by (cbn [tens]; rewrite (proj1 B); reflexivity). cbn [bind].
  assert (NA : norm ts = sqrt (fst (frob a))) by (unfold norm; rewrite FA; reflexivity).
  unfold normalize_ten. rewrite <- NA. destruct (Req_EM_T (norm ts) 0) as [_|]; [reflexivity|contradiction].
Qed.
End Run.

(** distance *)
Lemma inner_conj : forall A B, dims A = dims B -> inner B A = cconj (inner A B).
Proof.
  intros A B H. unfold inner, total, basis. rewrite H. change (lsum (configs (dims B)) (fun s => cmul (cconj (amplitude B s)) (amplitude A s)) = cconj (lsum (configs (dims B)) (fun s => cmul (cconj (amplitude A s)) (amplitude B s)))).
  rewrite lsum_conj. apply lsum_ext. intros. rewrite cconj_mul, cconj_conj. ring.
Qed.
Lemma inner_self : forall A, inner A A = cre (norm A * norm A).
Proof.
  intros A. assert (P : (0 <= fst (inner A A))%R /\ snd (inner A A) = 0%R).
  { unfold inner, total. induction (basis A) as [|s l IH]; [cbn; lra|]. cbn [fold_right]. set (x := fold_right _ _ _) in *.
    destruct IH as [P Q]. unfold cadd, cmul, cconj. cbn [fst snd]. rewrite Q. split; [nra|ring]. }
  unfold norm. rewrite sqrt_sqrt by apply P. destruct (inner A A) as [x y]. cbn [fst snd] in *. rewrite (proj2 P). reflexivity.
Qed.
Lemma distance_ok : forall phi psi q, dims phi = dims psi -> inner phi phi = c1 -> norm psi <> 0%R -> inner phi psi = cre (norm psi * q) -> distance2 phi psi = (2 - 2 * q)%R.
Proof.
  intros phi psi q HD H1 HN H2. unfold distance2. set (w := norm psi) in *.
  assert (E : total (basis psi) (fun s => let d := csub (amplitude phi s) (cmul (cre (/ w)) (amplitude psi s)) in cmul (cconj d) d) =
    csub (csub (cadd (inner phi phi) (cmul (cre (/ w * / w)) (inner psi psi))) (cmul (cre (/ w)) (inner phi psi))) (cmul (cre (/ w)) (inner psi phi))).
  { unfold inner, basis. rewrite HD. induction (configs (dims psi)) as [|s l IH]; [cbn [total fold_right]; ring|].
    unfold total in *. cbn [fold_right]. rewrite IH. cbv zeta. rewrite cre_mul.
    assert (CS : forall x y, cconj (csub x y) = csub (cconj x) (cconj y)) by (intros [x1 x2] [y1 y2]; unfold cconj, csub; cbn [fst snd]; f_equal; ring).
    rewrite CS, cconj_mul, cconj_cre. ring. }
  etransitivity; [exact (f_equal fst E)|]. rewrite (inner_conj _ _ HD), H2, H1, inner_self, cconj_cre. fold w. unfold cre, c1, cadd, csub, cmul. cbn [fst snd]. field. exact HN.
Qed.
Lemma distance_zero : forall phi psi, distance2 phi psi = 0%R -> forall s, In s (basis psi) -> amplitude phi s = cmul (cre (/ norm psi)) (amplitude psi s).
Proof.
  intros phi psi H. unfold distance2, total in H. revert H. induction (basis psi) as [|s l IH]; [intros _ s []|]. cbn [fold_right]. cbv zeta in *.
  set (d := csub (amplitude phi s) (cmul (cre (/ norm psi)) (amplitude psi s))). set (f := fun s a => cadd _ a) in *. intros H.
  assert (P : forall l, (0 <= fst (fold_right f c0 l))%R). { induction l0 as [|x l0 IHl]; [cbn; lra|]. cbn [fold_right]. set (y := fold_right f c0 l0) in *. unfold f, cadd, cmul, cconj. cbn [fst snd]. nra. }
  assert (Q : (fst (cmul (cconj d) d) + fst (fold_right f c0 l) = 0)%R) by exact H.
  specialize (P l). assert (Q2 : fst (cmul (cconj d) d) = (fst d * fst d + snd d * snd d)%R) by (unfold cmul, cconj; cbn [fst snd]; ring).
  assert (D0 : fst d = 0%R /\ snd d = 0%R) by (split; nra). intros t [<-|Ht].
  - assert (DZ : d = c0) by (destruct d as [x y]; cbn [fst snd] in D0; destruct D0 as [-> ->]; reflexivity).
    transitivity (cadd d (cmul (cre (/ norm psi)) (amplitude psi s))); [unfold d; ring|]. rewrite DZ. ring.
  - apply IH; [nra|exact Ht].
Qed.
