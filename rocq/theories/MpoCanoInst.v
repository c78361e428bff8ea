(** Results of Truncate and Normalize as functions of what the call returns; decompositions that meet the contracts, and an operator whose truncation loses something. *)
From Coq Require Import List Arith Lia Bool ZArith Reals Lra Psatz Ring.
From Verif Require Import Base CoefOpAlg Numeric FiniteMps FmpsSpec FmpsFacts FmpsNorm EffHam EffHamSpec EffHamFacts ChainSpec ChainFacts ChainOne MeasureFacts VmpsState FinMpo FinMpoSpec FinMpoFacts FinMpoExp Cx GVec DmrgStep
  TruncMps TruncMpsSpec TruncMpsMath TruncMpsFacts TruncMpsRun TruncMpsInst MpoCano MpoCanoSpec MpoMath MpoCanoFacts MpoCanoRun MpoTrunc.
Import ListNotations.
Local Open Scope nat_scope.

(** *** distance *)
Lemma csub_conj : forall x y, cconj (csub x y) = csub (cconj x) (cconj y).
Proof. intros [x1 x2] [y1 y2]; unfold cconj, csub; cbn [fst snd]; f_equal; ring. Qed.
Lemma csum_conj : forall A (l : list A) f, cconj (csum_l l f) = csum_l l (fun x => cconj (f x)).
Proof. intros A l f. unfold csum_l. induction l as [|x l IH]; cbn [fold_right]; [exact cconj0|]. rewrite cconj_add, IH. reflexivity. Qed.
Lemma csum_sub : forall A (l : list A) f g, csum_l l (fun x => csub (f x) (g x)) = csub (csum_l l f) (csum_l l g).
Proof. induction l as [|x l IH]; intros f g; unfold csum_l in *; cbn [fold_right]; [ring|]. rewrite IH. ring. Qed.
Lemma csum_ext : forall A (l : list A) f g, (forall x, In x l -> f x = g x) -> csum_l l f = csum_l l g.
Proof. intros A l f g H. unfold csum_l. induction l as [|x l IH]; cbn [fold_right]; [reflexivity|]. rewrite H, IH; [reflexivity|intros; apply H; right; auto|left; auto]. Qed.
Lemma csum_mul : forall A (l : list A) a f, cmul a (csum_l l f) = csum_l l (fun x => cmul a (f x)).
Proof. intros A l a f. unfold csum_l. induction l as [|x l IH]; cbn [fold_right]; [ring|]. rewrite <- IH. ring. Qed.
Lemma hs_conj : forall ds A B, hs ds B A = cconj (hs ds A B).
Proof. intros. unfold hs. rewrite csum_conj. apply csum_ext. intros c _. rewrite csum_conj. apply csum_ext. intros c' _. rewrite cconj_mul, cconj_conj. ring. Qed.
Lemma hs_sub : forall ds A B, hs ds (o_sub A B) (o_sub A B) = csub (csub (hs ds A A) (hs ds A B)) (csub (hs ds B A) (hs ds B B)).
Proof.
  intros. unfold hs. rewrite <- !csum_sub. apply csum_ext. intros c _. rewrite <- !csum_sub. apply csum_ext. intros c' _. unfold o_sub. rewrite csub_conj. ring.
Qed.
Lemma hs_pos : forall ds A, (0 <= fst (hs ds A A))%R /\ snd (hs ds A A) = 0%R.
Proof.
  assert (P : forall X (l : list X) f, (forall x, (0 <= fst (f x))%R /\ snd (f x) = 0%R) -> (0 <= fst (csum_l l f))%R /\ snd (csum_l l f) = 0%R).
  { induction l as [|x l IH]; intros f H; unfold csum_l in *; cbn [fold_right]; [split; [cbn; lra|reflexivity]|]. destruct (IH f H) as [A B], (H x) as [C D]. set (w := fold_right _ _ l) in *. unfold cadd. cbn [fst snd]. split; lra. }
  intros ds A. apply P. intros c. apply P. intros c'. unfold cmul, cconj. cbn [fst snd]. split; [nra|ring].
Qed.
Lemma hs_re : forall ds A, hs ds A A = cre (hs2 ds A).
Proof. intros ds A. destruct (hs_pos ds A) as [_ P]. unfold hs2. destruct (hs ds A A) as [x y]. cbn [fst snd] in *. subst y. reflexivity. Qed.
(** the truncated operator is a projection of the old one: the distance follows from the norms *)
Lemma proj_dist : forall ds M X, hs ds M X = hs ds M M -> hsdist2 ds M X = (hs2 ds X - hs2 ds M)%R.
Proof.
  intros ds M X H. unfold hsdist2. unfold hs2 at 1. rewrite hs_sub, (hs_conj ds M X), H, !hs_re. unfold cre, csub, cconj. cbn [fst snd]. ring.
Qed.
Lemma zero_dist : forall ds A B, hsdist2 ds A B = 0%R -> same_oper ds A B.
Proof.
  intros ds A B H c c' Hc Hc'. unfold hsdist2, hs2, hs, csum_l in H.
  assert (P : forall X (l : list X) f, (forall x, (0 <= fst (f x))%R) -> fst (fold_right (fun x a => cadd (f x) a) c0 l) = 0%R -> (forall x, In x l -> fst (f x) = 0%R)).
  { assert (Q : forall X (l : list X) f, (forall x, (0 <= fst (f x))%R) -> (0 <= fst (fold_right (fun x a => cadd (f x) a) c0 l))%R).
    { induction l as [|x l IH]; intros f Hf; cbn [fold_right]; [cbn; lra|]. specialize (IH f Hf). specialize (Hf x). set (w := fold_right _ _ l) in *. unfold cadd. cbn [fst]. lra. }
    induction l as [|x l IH]; intros f Hf Hz y Hy; [destruct Hy|]. cbn [fold_right] in Hz. pose proof (Q X l f Hf) as Q1. pose proof (Hf x) as Q3. pose proof (fun Z => IH f Hf Z) as IH'. set (w := fold_right _ _ l) in *. unfold cadd in Hz. cbn [fst] in Hz. destruct Hy as [<-|Hy]; [lra|]. apply IH'; auto. lra. }
  assert (S : forall z, (0 <= fst (cmul (cconj z) z))%R) by (intros z; unfold cmul, cconj; cbn [fst snd]; nra).
  assert (Q2 : forall X (l : list X) f, (forall x, (0 <= fst (f x))%R) -> (0 <= fst (fold_right (fun x a => cadd (f x) a) c0 l))%R).
  { induction l as [|x l IH]; intros f Hf; cbn [fold_right]; [cbn; lra|]. specialize (IH f Hf). specialize (Hf x). set (w := fold_right _ _ l) in *. unfold cadd. cbn [fst]. lra. }
  pose proof (P _ _ _ (fun k => Q2 _ (configs ds) _ (fun k' => S (o_sub A B k k'))) H c Hc) as H1. cbv beta in H1.
  pose proof (P _ _ _ (fun k' => S (o_sub A B c k')) H1 c' Hc') as H2. cbv beta in H2.
  unfold o_sub in H2. destruct (A c c') as [x y], (B c c') as [x' y']. unfold cmul, cconj, csub in H2. cbn [fst snd] in H2.
  assert (H3 : (Rsqr (x - x') + Rsqr (y - y') = 0)%R) by (rewrite <- H2; unfold Rsqr; ring). apply Rplus_sqr_eq_0 in H3. destruct H3. f_equal; lra.
Qed.

(** *** Normalize *)
Definition norm4 (t : c4) : cx := cre (sqrt (ten2 t)).
Definition cinv (z : cx) : cx := cre (/ fst z).
Notation cnormalize := (mpo_normalize cx cmul norm4 cinv).
Lemma center_norm : forall ds l p r, oper_on cx ds (l ++ p :: r) -> Forall left4 l -> Forall right4 r -> hs2 ds (melem (l ++ p :: r)) = ten2 p.
Proof.
  intros ds l p r HO HL HR. unfold hs2. rewrite (hs_fuse ds _ _ HO HO), ten2_fuse. f_equal. change (inner (fz (l ++ p :: r)) (fz (l ++ p :: r))) with (cnorm2 (fz (l ++ p :: r))). rewrite map_app. cbn [map].
  pose proof (proj1 HO) as F. apply fit4_app in F. destruct F as [d [F1 [F2 F3]]]. subst d.
  pose proof (norm2_one cx c0 c1 cadd cmul csub copp cx_ring cconj cconj0 cconj_add cconj_mul (fz l) (fz r) (fuse p)) as E. cbn [app] in E. rewrite E; [reflexivity| | |].
  - apply fit4_fuse. exact F1.
  - apply (left_basis_ok cx c0 c1 cadd cmul csub copp cx_ring cconj cconj0 cconj1 cconj_add cconj_mul); [apply fit4_fuse; exact F1|]. apply Forall_forall. intros t Ht. apply in_map_iff in Ht. destruct Ht as [t' [<- Ht]]. apply left4_fuse, (proj1 (Forall_forall _ _) HL), Ht.
  - apply (right_basis_ok cx c0 c1 cadd cmul csub copp cx_ring cconj cconj0 cconj1 cconj_add cconj_mul); [apply fit4_fuse; exact F3|]. apply Forall_forall. intros t Ht. apply in_map_iff in Ht. destruct Ht as [t' [<- Ht]]. apply right4_fuse, (proj1 (Forall_forall _ _) HR), Ht.
Qed.
Lemma melem_scale : forall ds l p r s, oper_on cx ds (l ++ p :: r) -> oper_on cx ds (l ++ tscale cx cmul s p :: r) /\
  forall c c', In c (configs ds) -> In c' (configs ds) -> melem (l ++ tscale cx cmul s p :: r) c c' = cmul s (melem (l ++ p :: r) c c').
Proof.
  intros ds l p r s HO. assert (HO' : oper_on cx ds (l ++ tscale cx cmul s p :: r)).
  { destruct HO as [A [B C]]. rewrite map_app in B, C. split; [|rewrite !map_app; split; assumption]. apply fit4_app in A. apply fit4_app. exact A. }
  split; [exact HO'|]. intros c c' Hc Hc'. rewrite (elem_code ds _ c c' HO') by auto. rewrite (elem_code ds _ c c' HO) by auto.
  assert (K : In (code ds c c') (configs (dims (fz (l ++ p :: r))))) by (rewrite (oper_dims ds _ HO); apply code_in; auto).
  rewrite map_app in K. rewrite map_app in K. apply configs_in_app in K. destruct K as [k1 [k2 [-> [K1 K2]]]].
  pose proof (proj1 HO) as F. apply fit4_app in F. destruct F as [d [F1 [F2 F3]]]. assert (LK : length k1 = length (fz l)) by (apply configs_len in K1; rewrite map_length in K1; exact K1).
  rewrite !map_app, !(mps_mat_app (fz l) _ k1 k2 1 d 0 0 (proj1 (fit4_fuse _ _ _) F1) ltac:(lia) LK). rewrite lsum_mul_l. apply lsum_ext. intros z _.
  cbn [map] in *. apply in_configs_nil in K2. destruct K2 as [t [k [-> [Ht Hk]]]]. cbn [mps_mat fuse d2 el tscale m3 m2 e4]. rewrite !sumn_lsum.
  transitivity (cmul (mm (fz l) k1 0 z) (cmul s (lsum (seq 0 (m3 p)) (fun b => cmul (e4 p z (t / m2 p) (t mod m2 p) b) (mm (fz r) k b 0))))); [|ring].
  f_equal. rewrite lsum_mul_l. apply lsum_ext. intros b _. ring.
Qed.
Lemma normalize_ok : forall ds st l p r, holds4 cx st (l ++ p :: r) -> oper_on cx ds (l ++ p :: r) -> Forall left4 l -> Forall right4 r -> where_ cx st = length l -> (-1 <= mcenter st)%Z -> hs2 ds (melem (l ++ p :: r)) <> 0%R ->
  exists st' ts', cnormalize st = Ok (cre (sqrt (hs2 ds (melem (l ++ p :: r)))), st') /\ holds4 cx st' ts' /\ oper_on cx ds ts' /\ mcenter st' = mcenter st /\
    (forall c c', In c (configs ds) -> In c' (configs ds) -> melem ts' c c' = cmul (cre (/ sqrt (hs2 ds (melem (l ++ p :: r))))) (melem (l ++ p :: r) c c')) /\ hs2 ds (melem ts') = 1%R.
Proof.
  intros ds st l p r HH HO HL HR HW HC HZ. pose proof (center_norm ds l p r HO HL HR) as CN.
  destruct (normalize_form cx cmul norm4 cinv st (l ++ p :: r) HH) as [t [E1 E2]].
  { unfold where_ in HW. unfold good_center. destruct (Z.eqb_spec (mcenter st) (-1)); [left; auto|right]. cbn [negb] in HW. rewrite app_length. cbn [length]. lia. }
  { rewrite app_length. cbn. lia. }
  rewrite HW in E1, E2. rewrite nth_error_app2, Nat.sub_diag in E1 by lia. injection E1 as <-. rewrite upd_app in E2.
  rewrite E2. eexists. exists (l ++ tscale cx cmul (cinv (norm4 p)) p :: r). unfold norm4 at 1. rewrite <- CN. split; [reflexivity|].
  split. { split; [reflexivity|]. cbn [mtypes]. rewrite upd_length, (proj2 HH), !app_length. reflexivity. }
  destruct (melem_scale ds l p r (cinv (norm4 p)) HO) as [S1 S2]. split; [exact S1|]. split; [reflexivity|].
  assert (CI : cinv (norm4 p) = cre (/ sqrt (hs2 ds (melem (l ++ p :: r))))) by (unfold cinv, norm4; rewrite CN; reflexivity). rewrite CI in S2 |- *. split; [exact S2|].
  set (q := hs2 ds (melem (l ++ p :: r))) in *. assert (Q0 : (0 < q)%R) by (destruct (hs_pos ds (melem (l ++ p :: r))) as [P _]; fold (hs2 ds (melem (l ++ p :: r))) in P; fold q in P; lra).
  unfold hs2 at 1. replace (hs ds (melem (l ++ tscale cx cmul (cre (/ sqrt q)) p :: r)) (melem (l ++ tscale cx cmul (cre (/ sqrt q)) p :: r))) with (cmul (cre (/ sqrt q * / sqrt q)) (hs ds (melem (l ++ p :: r)) (melem (l ++ p :: r)))).
  - rewrite hs_re. fold q. rewrite <- cre_mul. cbn [cre fst]. assert (SS : (sqrt q * sqrt q = q)%R) by (apply sqrt_sqrt; lra). assert (0 < sqrt q)%R by (apply sqrt_lt_R0; lra). rewrite <- SS at 3. field. lra.
  - unfold hs. rewrite csum_mul. apply csum_ext. intros c Hc. rewrite csum_mul. apply csum_ext. intros c' Hc'. rewrite !S2 by auto. rewrite cconj_mul, cconj_cre, cre_mul. ring.
Qed.

(** *** decompositions *)
Definition unfuse (d1 d2 : nat) (t : cten) : c4 := mkTen4 (d0 t) d1 d2 (FiniteMps.d2 t) (fun a s s' b => el t a (s * d2 + s') b).
Lemma unfuse_el : forall p q t a s b, d1 t = p * q -> s < p * q -> el (fuse (unfuse p q t)) a s b = el t a s b.
Proof. intros p q t a s b E H. cbn [fuse unfuse el e4 m2]. f_equal. rewrite (Nat.mul_comm (s / q)). symmetry. apply Nat.div_mod. nia. Qed.
Lemma pair_lt : forall p q m n, p < m -> q < n -> p * n + q < m * n. Proof. intros. nia. Qed.
Lemma pair_div : forall p q n, q < n -> (p * n + q) / n = p /\ (p * n + q) mod n = q.
Proof. intros p q n H. rewrite Nat.div_add_l, (Nat.div_small q), Nat.add_0_r by lia. rewrite (Nat.add_comm _ q), Nat.mod_add, Nat.mod_small by lia. auto. Qed.
Lemma unfuse_left : forall p q t, d1 t = p * q -> lcan t -> left4 (unfuse p q t).
Proof.
  intros p q t E H. apply left4_fuse. intros k k' Hk Hk'. cbn [fuse unfuse d0 d1 d2 m0 m1 m2 m3] in *. rewrite <- (H k k') by auto. rewrite E. rewrite !sumn_lsum. apply lsum_ext. intros a _. rewrite !sumn_lsum. apply lsum_ext. intros s Hs. apply in_seq in Hs.
  rewrite !(unfuse_el p q t) by (auto; lia). reflexivity.
Qed.
Lemma unfuse_right : forall p q t, d1 t = p * q -> rcan t -> right4 (unfuse p q t).
Proof.
  intros p q t E H. apply right4_fuse. intros k k' Hk Hk'. cbn [fuse unfuse d0 d1 d2 m0 m1 m2 m3] in *. rewrite <- (H k k') by auto. rewrite E. rewrite !sumn_lsum. apply lsum_ext. intros a _. rewrite !sumn_lsum. apply lsum_ext. intros s Hs. apply in_seq in Hs.
  rewrite !(unfuse_el p q t) by (auto; lia). reflexivity.
Qed.
Definition qr4 (a : c4) : c4 * cmat := let (q, r) := cqr (fuse a) in (unfuse (m1 a) (m2 a) q, r).
Lemma qr4_ok : qr4_exact qr4.
Proof.
  intros a. unfold qr4. pose proof (cqr_exact (fuse a)) as H. destruct (cqr (fuse a)) as [q r]. destruct H as [H0 [H1 [H2 [H3 [H4 H5]]]]]. cbn [unfuse m0 m1 m2 m3 e4]. cbn [fuse d0 d1 d2 el] in *.
  do 3 (split; [auto|]). split; [exact H2|]. split; [exact H3|]. split; [apply unfuse_left; auto|]. intros x s s' y Hx Hs Hs' Hy. destruct (pair_div s s' (m2 a) Hs') as [P1 P2].
  rewrite <- (H5 x (s * m2 a + s') y Hx (pair_lt _ _ _ _ Hs Hs') Hy), P1, P2. reflexivity.
Qed.
Definition svd4 (a : c4) : cmat * list real * c4 := let '(us, vt, _) := csvd1 (fuse a) in (us, repeat 1%R (n1 us), unfuse (m1 a) (m2 a) vt).
Lemma svd4_ok : svd4_exact svd4.
Proof.
  intros a. unfold svd4. pose proof (csvd1_exact (fuse a)) as H. destruct (csvd1 (fuse a)) as [[us vt] o]. destruct H as [H0 [H1 [H2 [H3 [H4 H5]]]]]. cbn [unfuse m0 m1 m2 m3 e4]. cbn [fuse d0 d1 d2 el] in *. rewrite repeat_length.
  split; [exact H3|]. split; [reflexivity|]. split; [exact H2|]. do 2 (split; [reflexivity|]). split; [exact H1|]. split; [apply unfuse_right; auto|]. intros x s s' y Hx Hs Hs' Hy. destruct (pair_div s s' (m2 a) Hs') as [P1 P2].
  rewrite <- P1 at 1. rewrite <- P2 at 2. rewrite (H5 x (s * m2 a + s') y Hx (pair_lt _ _ _ _ Hs Hs') Hy). apply (sumn_ext cx c0 cadd). intros k Hk.
  replace (nth k (repeat 1%R (n1 us)) 0%R) with 1%R; [rewrite cre_1; ring|]. symmetry. apply nth_error_nth. apply nth_error_repeat. exact Hk.
Qed.
(** truncated, with at most one value: svd_one of the tensor read from the right *)
Definition turned (a : c4) : cten := mkTen (m1 a * m2 a) (m3 a) (m0 a) (fun s b x => e4 a x (s / m2 a) (s mod m2 a) b).
Definition svd4_one (terr : real) (Dmin Dmax : nat) (a : c4) : cmat * list real * c4 * real :=
  let '(u, s, vt, e) := svd_one terr Dmin Dmax (turned a) in
  (mkMat2 (n1 vt) (n0 vt) (fun x k => me vt k x), s, mkTen4 (d2 u) (m1 a) (m2 a) (m3 a) (fun k p q y => el u (p * m2 a + q) y k), e).
Lemma turned_frob : forall a, frob (turned a) = frob (fuse a).
Proof.
  intros a. rewrite !frob_lsum. cbn [turned fuse d0 d1 d2 el]. symmetry. etransitivity; [apply lsum_swap|]. apply lsum_ext. intros s _. apply lsum_swap.
Qed.
Lemma svd4_one_good : forall terr Dmin, good4 terr Dmin 1 svd4_one.
Proof.
  intros terr Dmin a HA. assert (FZ : fst (frob (turned a)) <> 0%R) by (rewrite turned_frob; apply nonzero4_fuse; exact HA).
  pose proof (svd_one_good terr Dmin (turned a) (proj2 (frob_nz _) FZ)) as V. unfold svd4_one. destruct (svd_one terr Dmin 1 (turned a)) as [[[u s] vt] e].
  destruct V as [[U0 [U1 [U2 [U3 U4]]]] V2 V3 V4 [V5 V5'] V6]. cbn [turned d0 d1 d2] in *.
  assert (PQ : forall (f : nat -> cx), lsum (seq 0 (m1 a)) (fun p => lsum (seq 0 (m2 a)) (fun q => f (p * m2 a + q))) = lsum (seq 0 (m1 a * m2 a)) f).
  { intros f. rewrite <- (pairs (m1 a) (m2 a) (fun p q => f (p * m2 a + q))). apply lsum_ext. intros k Hk. apply in_seq in Hk. f_equal. rewrite (Nat.mul_comm (k / m2 a)). symmetry. apply Nat.div_mod. nia. }
  split; cbn [n0 n1 me m0 m1 m2 m3 e4].
  - repeat split; congruence.
  - intros k k' Hk Hk'. cbn [m0 m1 m2 m3 e4] in *. rewrite <- (V2 k k') by auto. rewrite U0, U1, !sumn_lsum.
    transitivity (lsum (seq 0 (m3 a)) (fun y => lsum (seq 0 (m1 a * m2 a)) (fun t => cmul (cconj (el u t y k)) (el u t y k')))).
    + apply lsum_ext. intros y _. rewrite <- PQ, sumn_lsum. apply lsum_ext. intros p _. apply sumn_lsum.
    + etransitivity; [apply lsum_swap|]. apply lsum_ext. intros t _. symmetry. apply sumn_lsum.
  - intros k Hk. rewrite U4. rewrite <- (V3 k Hk), U4. reflexivity.
  - intros x k Hx Hk. transitivity (cmul (cre (nth k s 0%R)) (me vt k x)); [|ring]. rewrite <- (V4 k x Hk Hx). rewrite !sumn_lsum.
    transitivity (lsum (seq 0 (m1 a)) (fun p => lsum (seq 0 (m2 a)) (fun q => (fun t => lsum (seq 0 (m3 a)) (fun y => cmul (cconj (el u t y k)) (el (turned a) t y x))) (p * m2 a + q)))).
    + apply lsum_ext. intros p _. rewrite sumn_lsum. apply lsum_ext. intros q Hq. apply in_seq in Hq. rewrite sumn_lsum. apply lsum_ext. intros y _. cbn [turned el]. destruct (pair_div p q (m2 a) ltac:(lia)) as [-> ->]. ring.
    + etransitivity; [exact (PQ (fun t => lsum (seq 0 (m3 a)) (fun y => cmul (cconj (el u t y k)) (el (turned a) t y x))))|]. apply lsum_ext. intros t _. symmetry. apply sumn_lsum.
  - split; [exact V5|]. rewrite ten2_fuse, <- turned_frob. exact V5'.
  - exact V6.
Qed.

(** 3/5 |00><00| + 4/5 |11><11|, written with bond dimension two *)
Definition pp_a : c4 := mkTen4 1 2 2 2 (fun _ s s' k => if (s =? s') && (s =? k) then (if s =? 0 then cre (3 / 5) else cre (4 / 5)) else c0).
Definition pp_b : c4 := mkTen4 2 2 2 1 (fun k s s' _ => if (s =? s') && (s =? k) then c1 else c0).
Definition pp : list c4 := [pp_a; pp_b].
Definition pp_st : cmpo := mkFmpo (map Some pp) [NONE; NONE] (-1)%Z.
Lemma pp_elem : forall s t s' t', s < 2 -> t < 2 -> melem pp [s; t] [s'; t'] = if (s =? s') && (t =? t') && (s =? t) then (if s =? 0 then cre (3 / 5) else cre (4 / 5)) else c0.
Proof.
  intros s t s' t' Hs Ht. unfold melem, elem, pp. cbn [o4_mat m3 e4 pp_a pp_b]. cbn [FmpsSpec.sumn].
  destruct s as [|[|s]]; [| |lia]; destruct t as [|[|t]]; try lia; destruct s' as [|[|s']], t' as [|[|t']]; cbn [Nat.eqb andb]; change (FmpsSpec.delta cx c0 c1 0 0) with c1; ring.
Qed.
Lemma pp_norm : hs2 [2; 2] (melem pp) = 1%R.
Proof.
  unfold hs2, hs. change (configs [2; 2]) with [[0; 0]; [0; 1]; [1; 0]; [1; 1]]. unfold csum_l. cbn [fold_right]. rewrite !pp_elem by lia. cbn [Nat.eqb andb]. unfold cre, c0, cadd, cmul, cconj. cbn [fst snd]. field.
Qed.
Lemma pp_ok : holds4 cx pp_st pp /\ oper_on cx [2; 2] pp /\ truthful4 pp_st /\ 2 <= length pp /\ hs2 [2; 2] (melem pp) <> 0%R.
Proof.
  split; [split; reflexivity|]. split; [repeat split|]. split; [|split; [cbn; lia|rewrite pp_norm; lra]].
  intros i. cbn [pp_st mtypes]. split; destruct i as [|[|[|i]]]; cbn; intros; discriminate.
Qed.
(** truncated to bond dimension one it loses something *)
Lemma pp_lossy : exists st' ts' e D, mpo_truncate qr4 svd4 svd4_one true (1 / 10) 1 1 pp_st = Ok (st', [(e, D)]) /\ holds4 cx st' ts' /\ (0 < e < 1)%R /\ D = 1 /\ hsdist2 [2; 2] (melem ts') (melem pp) = e.
Proof.
  destruct pp_ok as [G1 [G2 [G3 [G4 G5]]]].
  destruct (trunc_ok qr4 svd4 svd4_one qr4_ok svd4_ok (1 / 10) 1 1 (svd4_one_good _ _) true [2; 2] pp_st pp G1 G2 G3 G4 G5) as [st' [ts' [out [A1 [A2 [A3 [A4 [A5 [A6 [A7 [A8 [A9 [A10 _]]]]]]]]]]]]].
  cbn [length pp Nat.sub] in A7. destruct out as [|[e D] [|]]; try discriminate. inversion A6 as [|? ? [B1 [B2 _]] _]; subst. cbn [fst snd] in *.
  assert (HD : hsdist2 [2; 2] (melem ts') (melem pp) = e).
  { rewrite (proj_dist _ _ _ A8). unfold hs2 at 2. rewrite A9. cbn [map fst remains fold_right]. rewrite hs_re, pp_norm. unfold cre, cmul. cbn [fst snd]. ring. }
  destruct A3 as [F [P1 P2]]. destruct ts' as [|u [|z [|]]]; try discriminate. cbn [map tl snd rev app] in A5. injection A5 as A5. cbn in F. destruct F as [F0 [F1 F2]].
  assert (AM : forall s t s' t', melem [u; z] [s; t] [s'; t'] = csum (m3 u) (fun k => cmul (e4 u 0 s s' k) (csum (m3 z) (fun w => cmul (e4 z k t t' w) (FmpsSpec.delta cx c0 c1 w 0))))).
  { intros. unfold melem, elem. cbn [o4_mat]. reflexivity. }
  exists st', [u; z], e, D. split; [exact A1|]. split; [exact A2|].
  assert (EP : e <> 0%R /\ D = 1).
  { destruct (Nat.eq_dec D 0) as [->|].
    - exfalso. assert (Z : hs2 [2; 2] (melem [u; z]) = 0%R).
      { unfold hs2, hs. change (configs [2; 2]) with [[0; 0]; [0; 1]; [1; 0]; [1; 1]]. unfold csum_l. cbn [fold_right]. rewrite !AM, <- F1, A5. cbn [FmpsSpec.sumn]. unfold c0, cadd, cmul, cconj. cbn [fst snd]. ring. }
      unfold hs2 in Z. rewrite A9 in Z. cbn [map fst remains fold_right] in Z. rewrite hs_re, pp_norm in Z. unfold cre, cmul in Z. cbn [fst snd] in Z. lra.
    - assert (D = 1) as -> by lia. split; [|reflexivity]. intros ->. pose proof (zero_dist _ _ _ HD) as LS. rewrite <- F1, A5 in AM. cbn [FmpsSpec.sumn] in AM.
      assert (X : cmul (melem pp [0; 0] [0; 0]) (melem pp [1; 1] [1; 1]) = cmul (melem pp [0; 1] [0; 1]) (melem pp [1; 0] [1; 0])).
      { rewrite <- (LS [0; 0] [0; 0]), <- (LS [1; 1] [1; 1]), <- (LS [0; 1] [0; 1]), <- (LS [1; 0] [1; 0]) by (cbn; auto 6). rewrite !AM. ring. }
      rewrite !pp_elem in X by lia. cbn [Nat.eqb andb] in X. apply (f_equal fst) in X. cbn in X. lra. }
  destruct EP as [EP ->]. split; [lra|]. split; [reflexivity|]. exact HD.
Qed.
(** Normalize without a center: the norm of the first tensor is not that of the operator *)
Definition pq : list c4 := [pp_a; tscale cx cmul (cre 2) pp_b].
Definition pq_st : cmpo := mkFmpo (map Some pq) [NONE; NONE] (-1)%Z.
Lemma pq_norm : oper_on cx [2; 2] pq /\ hs2 [2; 2] (melem pq) = 4%R.
Proof.
  destruct (melem_scale [2; 2] [pp_a] pp_b [] (cre 2) (proj1 (proj2 pp_ok))) as [S1 S2]. split; [exact S1|].
  unfold hs2. transitivity (fst (cmul (cre (2 * 2)) (hs [2; 2] (melem pp) (melem pp)))).
  - f_equal. unfold hs. rewrite csum_mul. apply csum_ext. intros c Hc. rewrite csum_mul. apply csum_ext. intros c' Hc'. change pq with ([pp_a] ++ [tscale cx cmul (cre 2) pp_b]). rewrite !S2 by auto. rewrite cconj_mul, cconj_cre, cre_mul. cbn [app]. unfold pp. ring.
  - rewrite hs_re, pp_norm. unfold cre, cmul. cbn [fst snd]. ring.
Qed.
Lemma pp_a_norm : ten2 pp_a = 1%R.
Proof. unfold ten2. cbn [pp_a m0 m1 m2 m3 e4 FmpsSpec.sumn Nat.eqb andb]. unfold cre, c0, cadd, cmul, cconj. cbn [fst snd]. field. Qed.
Lemma pq_wrong : exists st' ts', cnormalize pq_st = Ok (cre 1, st') /\ holds4 cx st' ts' /\ hs2 [2; 2] (melem ts') = 4%R.
Proof.
  destruct (normalize_form cx cmul norm4 cinv pq_st pq) as [t [E1 E2]]; [split; reflexivity|left; reflexivity|cbn; lia|]. change (where_ cx pq_st) with 0 in *. injection E1 as <-.
  assert (N1 : norm4 pp_a = cre 1) by (unfold norm4; rewrite pp_a_norm, sqrt_1; reflexivity). rewrite N1 in E2.
  eexists. exists (tscale cx cmul (cinv (cre 1)) pp_a :: [tscale cx cmul (cre 2) pp_b]). split; [exact E2|]. split; [split; reflexivity|].
  destruct (melem_scale [2; 2] [] pp_a [tscale cx cmul (cre 2) pp_b] (cinv (cre 1)) (proj1 pq_norm)) as [S1 S2]. cbn [app] in *. rewrite <- (proj2 pq_norm).
  unfold hs2. f_equal. unfold hs. apply csum_ext. intros c Hc. apply csum_ext. intros c' Hc'. rewrite !S2 by auto. replace (cinv (cre 1)) with c1 by (unfold cinv; cbn [cre fst]; rewrite Rinv_1; reflexivity). rewrite cconj_mul, cconj1. unfold pq. ring.
Qed.

(** *** a center outside the chain *)
Lemma vset_inv : forall A (l l' : list A) i x, vset l i x = Ok l' -> i < length l /\ l' = upd l i x.
Proof. intros A l l' i x H. unfold vset in H. destruct (Nat.ltb_spec i (length l)); [|discriminate]. injection H as <-. auto. Qed.
Lemma mtouch_inv : forall i (st st' : cmpo), mtouch cx i st = Ok st' -> i < length (mtypes st) /\ i < length (mtens st) /\ length (mtens st') = length (mtens st) /\ length (mtypes st') = length (mtypes st).
Proof.
  intros i st st' H. unfold mtouch in H. destruct (vset (mtypes st) i NONE) as [ty| |] eqn:E1; try discriminate. cbn [bind] in H. apply vset_inv in E1. destruct E1 as [E1 ->].
  unfold vget in H. destruct (nth_error (mtens st) i) eqn:E2; [|discriminate]. cbn [bind] in H. injection H as <-. cbn [mtens mtypes]. rewrite upd_length. split; [exact E1|]. split; [apply nth_error_Some; congruence|auto].
Qed.
Lemma mput_inv : forall i p (st st' : cmpo), mput cx i p st = Ok st' -> length (mtens st') = length (mtens st) /\ length (mtypes st') = length (mtypes st).
Proof. intros i p st st' H. unfold mput in H. destruct (vset (mtens st) i p) as [v| |] eqn:E; try discriminate. cbn [bind] in H. injection H as <-. apply vset_inv in E. destruct E as [_ ->]. cbn. rewrite upd_length. auto. Qed.
Lemma mflag_inv : forall i c (st st' : cmpo), mflag i c st = Ok st' -> length (mtens st') = length (mtens st) /\ length (mtypes st') = length (mtypes st).
Proof. intros i c st st' H. unfold mflag in H. destruct (vset (mtypes st) i c) as [v| |] eqn:E; try discriminate. cbn [bind] in H. injection H as <-. apply vset_inv in E. destruct E as [_ ->]. cbn. rewrite upd_length. auto. Qed.
Lemma mlcan_inv : forall qr dbg i st st', mlcan_ten qr dbg i st = Ok st' -> i + 1 < length (mtens st) /\ length (mtens st') = length (mtens st).
Proof.
  intros qr dbg i st st' H. unfold mlcan_ten in H. destruct (assert_ dbg _) as [[]| |]; try discriminate. cbn [bind] in H.
  destruct (mtouch cx i st) as [s1| |] eqn:T1; try discriminate. cbn [bind] in H. apply mtouch_inv in T1. destruct T1 as [_ [_ [T1 _]]].
  destruct (mderef cx s1 i) as [a| |]; try discriminate. cbn [bind] in H. destruct (qr a) as [q r].
  destruct (mput cx i (Some q) s1) as [s2| |] eqn:T2; try discriminate. cbn [bind] in H. apply mput_inv in T2. destruct T2 as [T2 _].
  destruct (mtouch cx (i + 1) s2) as [s3| |] eqn:T3; try discriminate. cbn [bind] in H. apply mtouch_inv in T3. destruct T3 as [_ [T3' [T3 _]]].
  destruct (mderef cx s3 (i + 1)) as [b| |]; try discriminate. cbn [bind] in H. destruct (contract_m4 r b) as [b'| |]; try discriminate. cbn [bind] in H.
  destruct (mput cx (i + 1) (Some b') s3) as [s4| |] eqn:T4; try discriminate. cbn [bind] in H. apply mput_inv in T4. destruct T4 as [T4 _].
  destruct (mflag i LEFT s4) as [s5| |] eqn:T5; try discriminate. cbn [bind] in H. apply mflag_inv in T5. destruct T5 as [T5 _]. apply mflag_inv in H. destruct H as [H _]. split; [lia|congruence].
Qed.
Lemma scan_in : forall ty n i st, 0 < n -> scan_left ty i n = Ok (Some st) -> i <= st /\ st < i + n.
Proof.
  intros ty. induction n as [|n IH]; intros i st Hn H; cbn [scan_left] in H; [lia|]. destruct (vget ty i) as [c| |]; try discriminate. cbn [bind] in H. destruct (FiniteMps.is_left c); cbn [negb] in H.
  - destruct (Nat.eqb_spec n 0); [discriminate|]. apply IH in H; lia.
  - injection H as <-. lia.
Qed.
Lemma for_loop_len : forall qr dbg n i st st', for_loop i n (mlcan_ten qr dbg) st = Ok st' -> 0 < n -> i + n < length (mtens st).
Proof.
  intros qr dbg. induction n as [|n IH]; intros i st st' H Hn; [lia|]. cbn [for_loop] in H. destruct (mlcan_ten qr dbg i st) as [s1| |] eqn:E; try discriminate. cbn [bind] in H. apply mlcan_inv in E.
  destruct n as [|n]; [lia|]. apply IH in H; [|lia]. lia.
Qed.
Lemma central_range : forall qr svd dbg k st st', mcentralize qr svd dbg k st = Ok st' -> (0 <= k < Z.of_nat (length (mtens st)))%Z \/ mtens st = [].
Proof.
  intros qr svd dbg k st st' H. unfold mcentralize in H. destruct (assert_ dbg (0 <=? k)%Z) as [[]| |]; try discriminate. cbn [bind] in H. destruct (Z.ltb_spec k 0); [discriminate|].
  destruct (Nat.lt_ge_cases (Z.to_nat k) (length (mtens st))) as [L|L]; [left; lia|]. destruct (mtens st) as [|x T] eqn:ET; [right; reflexivity|exfalso]. rewrite <- ET in *. assert (1 <= length (mtens st)) by (rewrite ET; cbn; lia). clear ET x T.
  set (c := Z.to_nat k) in *. destruct (Nat.eqb_spec c 0); [lia|]. unfold mleft_cano in H. destruct (scan_left (mtypes st) 0 (S (c - 1))) as [o| |] eqn:E; try discriminate. cbn [bind] in H. destruct o as [s|].
  - apply scan_in in E; [|lia]. destruct (for_loop s (S (c - 1) - s) (mlcan_ten qr dbg) st) as [s1| |] eqn:F; try discriminate. apply for_loop_len in F; lia.
  - cbn [bind] in H. destruct (Nat.eqb_spec (c + 1) (length (mtens st))); [lia|]. unfold mright_cano in H. destruct (Nat.leb_spec (length (mtens st)) (c + 1)); [discriminate|lia].
Qed.
