(** Truncate of a FiniteMPO: one step, the loop and the whole call. *)
From Coq Require Import List Arith Lia Bool ZArith Reals Lra Psatz Ring.
From Verif Require Import Base CoefOpAlg Numeric FiniteMps FmpsSpec FmpsFacts EffHam EffHamSpec EffHamFacts ChainSpec ChainFacts ChainOne MeasureFacts VmpsState FinMpo FinMpoSpec FinMpoFacts Cx GVec DmrgStep
  TruncMps TruncMpsSpec TruncMpsMath TruncMpsFacts TruncMpsRun MpoCano MpoCanoSpec MpoMath MpoCanoFacts MpoCanoRun.
Import ListNotations.
Local Open Scope nat_scope.

(** the amplitudes psi projected on the basis of the right part are the left part *)
Definition rproj (psi : list nat -> cx) (l r : list cten) (D : nat) : Prop := forall c y, In c (configs (dims l)) -> y < D ->
  lsum (configs (dims r)) (fun c' => cmul (psi (c ++ c')) (cconj (mm r c' y 0))) = mm l c 0 y.
Lemma snoc_mm : forall l a c s D y, cfit 1 l D -> d0 a = D -> length c = length l -> y < d2 a -> mm (l ++ [a]) (c ++ [s]) 0 y = lsum (seq 0 D) (fun x => cmul (mm l c 0 x) (el a x s y)).
Proof. intros l a c s D y HF HD HL Hy. rewrite (mps_mat_app l [a] c [s] 1 D 0 y HF ltac:(lia) HL). apply lsum_ext. intros x _. rewrite mps_one by auto. reflexivity. Qed.

Lemma tproj : forall psi l p a r v s (us : nat -> nat -> cx) p', cfit 1 l (d0 p) -> d2 p = d0 a -> rproj psi ((l ++ [p]) ++ [a]) r (d2 a) ->
  d1 v = d1 a -> d2 v = d2 a ->
  (forall x k, x < d0 a -> k < s -> lsum (seq 0 (d1 a)) (fun t => lsum (seq 0 (d2 a)) (fun y => cmul (el a x t y) (cconj (el v k t y)))) = us x k) ->
  times p p' us s -> rproj psi (l ++ [p']) (v :: r) s.
Proof.
  intros psi l p a r v s us p' HF HD HP V1 V2 HJ [T0 [T1 [T2 T3]]] c y HC Hy. cbn [map].
  rewrite map_app in HC. cbn [map] in HC. apply configs_in_app in HC. destruct HC as [cl [cp [-> [C1 C2]]]]. rewrite T1 in C2.
  apply in_configs_nil in C2. destruct C2 as [t0 [e [-> [Ht He]]]]. destruct He as [<-|[]].
  assert (LC : length cl = length l) by (apply configs_len in C1; rewrite map_length in C1; exact C1).
  change (d1 v :: dims r) with ([d1 v] ++ dims r). rewrite configs_app, configs_one.
  assert (HF2 : cfit 1 (l ++ [p]) (d2 p)) by (eapply EffHamFacts.fit_app; [exact HF|]; cbn; auto).
  transitivity (lsum (seq 0 (d1 a)) (fun t => lsum (seq 0 (d2 a)) (fun z => cmul (cconj (el v y t z)) (mm ((l ++ [p]) ++ [a]) ((cl ++ [t0]) ++ [t]) 0 z)))).
  { rewrite V1. apply lsum_ext. intros t Ht'. apply in_seq in Ht'.
    transitivity (lsum (seq 0 (d2 a)) (fun z => cmul (cconj (el v y t z)) (lsum (configs (dims r)) (fun c' => cmul (psi (((cl ++ [t0]) ++ [t]) ++ c')) (cconj (mm r c' z 0)))))).
    2:{ apply lsum_ext. intros z Hz. apply in_seq in Hz. f_equal. apply HP; [|lia]. rewrite !map_app. cbn [map]. rewrite <- !app_assoc. cbn [app].
        apply cfg_in. apply Forall2_app; [apply cfg_in; exact C1|]. constructor; [exact Ht|]. constructor; [lia|]. constructor. }
    transitivity (lsum (configs (dims r)) (fun c' => lsum (seq 0 (d2 a)) (fun z => cmul (cconj (el v y t z)) (cmul (psi (((cl ++ [t0]) ++ [t]) ++ c')) (cconj (mm r c' z 0)))))).
    2:{ etransitivity; [apply lsum_swap|]. apply lsum_ext. intros z _. rewrite lsum_mul_l. reflexivity. }
    apply lsum_ext. intros c' Hc'. cbn [app mps_mat]. rewrite sumn_lsum, lsum_conj, V2, lsum_mul_l. apply lsum_ext. intros z _. rewrite cconj_mul. rewrite <- !app_assoc. cbn [app]. ring. }
  rewrite (snoc_mm l p' cl t0 (d0 p) y HF T0 LC ltac:(lia)).
  transitivity (lsum (seq 0 (d0 a)) (fun x => cmul (mm (l ++ [p]) (cl ++ [t0]) 0 x) (us x y))).
  { transitivity (lsum (seq 0 (d1 a)) (fun t => lsum (seq 0 (d2 a)) (fun z => lsum (seq 0 (d0 a)) (fun x => cmul (mm (l ++ [p]) (cl ++ [t0]) 0 x) (cmul (el a x t z) (cconj (el v y t z))))))).
    { apply lsum_ext. intros t _. apply lsum_ext. intros z Hz. apply in_seq in Hz. rewrite (snoc_mm (l ++ [p]) a (cl ++ [t0]) t (d2 p) z HF2 (eq_sym HD)) by (rewrite ?app_length; cbn; lia).
      rewrite HD, lsum_mul_l. apply lsum_ext. intros. ring. }
    etransitivity; [apply (EffHamFacts.pull2 cx c0 c1 cadd cmul csub copp cx_ring)|]. apply lsum_ext. intros x Hx. apply in_seq in Hx. rewrite <- HJ by lia. rewrite lsum_mul_l. apply lsum_ext. intros t _. rewrite lsum_mul_l. reflexivity. }
  rewrite <- HD.
  transitivity (lsum (seq 0 (d2 p)) (fun j => lsum (seq 0 (d0 p)) (fun x => cmul (cmul (mm l cl 0 x) (el p x t0 j)) (us j y)))).
  - apply lsum_ext. intros j Hj. apply in_seq in Hj. rewrite (snoc_mm l p cl t0 (d0 p) j HF eq_refl LC ltac:(lia)), lsum_mul_r. reflexivity.
  - etransitivity; [apply lsum_swap|]. apply lsum_ext. intros x Hx. apply in_seq in Hx. rewrite T3 by lia. rewrite lsum_mul_l. apply lsum_ext. intros. ring.
Qed.
Lemma tfrob : forall p p' us s (sv : list real) (u : nat -> nat -> cx), lcan p -> times p p' us s -> s = length sv -> (forall x k, k < s -> us x k = cmul (u x k) (cre (nth k sv 0%R))) ->
  (forall k, k < s -> lsum (seq 0 (d2 p)) (fun x => cmul (cconj (u x k)) (u x k)) = c1) -> frob p' = cre (sum_sq sv).
Proof.
  intros p p' us s sv u HL [T0 [T1 [T2 T3]]] HS HU HN. rewrite sum_sq_nth, frob_lsum, T0, T1, T2.
  transitivity (lsum (seq 0 s) (fun k => lsum (seq 0 (d0 p)) (fun x => lsum (seq 0 (d1 p)) (fun t => cmul (cconj (el p' x t k)) (el p' x t k))))).
  { symmetry. etransitivity; [apply lsum_swap|]. apply lsum_ext. intros x _. apply lsum_swap. }
  rewrite <- HS. apply lsum_ext. intros k Hk. apply in_seq in Hk.
  transitivity (cmul (lsum (seq 0 (d2 p)) (fun x => cmul (cconj (u x k)) (u x k))) (cmul (cre (nth k sv 0%R)) (cre (nth k sv 0%R)))); [|rewrite HN by lia; ring].
  transitivity (lsum (seq 0 (d2 p)) (fun z => lsum (seq 0 (d2 p)) (fun z' => cmul (FmpsSpec.delta cx c0 c1 z z') (cmul (cconj (us z k)) (us z' k))))).
  - transitivity (lsum (seq 0 (d0 p)) (fun x => lsum (seq 0 (d1 p)) (fun t => lsum (seq 0 (d2 p)) (fun z => lsum (seq 0 (d2 p)) (fun z' => cmul (cmul (cconj (us z k)) (us z' k)) (cmul (cconj (el p x t z)) (el p x t z'))))))).
    { apply lsum_ext. intros x Hx. apply lsum_ext. intros t Ht. apply in_seq in Hx, Ht. rewrite !T3 by lia. rewrite lsum_conj, lsum_mul_r. apply lsum_ext. intros z _. rewrite lsum_mul_l. apply lsum_ext. intros z' _. rewrite cconj_mul. ring. }
    etransitivity; [apply (EffHamFacts.pull2 cx c0 c1 cadd cmul csub copp cx_ring)|]. apply lsum_ext. intros z Hz. etransitivity; [apply (EffHamFacts.pull2 cx c0 c1 cadd cmul csub copp cx_ring)|].
    apply lsum_ext. intros z' Hz'. apply in_seq in Hz, Hz'. rewrite <- (HL z z') by lia. rewrite sumn_lsum, lsum_mul_r. apply lsum_ext. intros x _. rewrite sumn_lsum, lsum_mul_r. apply lsum_ext. intros t _. ring.
  - rewrite lsum_mul_r. apply lsum_ext. intros z Hz. apply in_seq in Hz.
    rewrite (EffHamFacts.delta_l cx c0 c1 cadd cmul csub copp cx_ring (d2 p) z (fun z' => cmul (cconj (us z k)) (us z' k))) by lia. rewrite HU by lia. rewrite cconj_mul, cconj_cre. ring.
Qed.
(** the end: the first tensor *)
Lemma tend : forall psi a r, d0 a = 1 -> cfit (d2 a) r 1 -> Forall rcan r -> rproj psi [a] r (d2 a) ->
  lsum (configs (dims (a :: r))) (fun c => cmul (cconj (mm (a :: r) c 0 0)) (psi c)) = frob a /\ cnorm2 (a :: r) = frob a.
Proof.
  intros psi a r H0 HF HR HP. split.
  - cbn [map]. change (d1 a :: dims r) with ([d1 a] ++ dims r). rewrite configs_app, configs_one, frob_lsum, H0. cbn [seq EffHamSpec.lsum fold_right].
    match goal with |- _ = cadd ?x c0 => transitivity x; [|ring] end. apply lsum_ext. intros t Ht. apply in_seq in Ht.
    transitivity (lsum (configs (dims r)) (fun c' => lsum (seq 0 (d2 a)) (fun y => cmul (cconj (el a 0 t y)) (cmul (psi ([t] ++ c')) (cconj (mm r c' y 0)))))).
    + apply lsum_ext. intros c' _. cbn [app mps_mat]. rewrite sumn_lsum, lsum_conj, lsum_mul_r. apply lsum_ext. intros y _. rewrite cconj_mul. ring.
    + etransitivity; [apply lsum_swap|]. apply lsum_ext. intros y Hy. apply in_seq in Hy. rewrite <- lsum_mul_l. f_equal. rewrite (HP [t] y); [|apply in_configs_cons; split; [lia|left; reflexivity]|lia]. apply mps_one. lia.
  - pose proof (norm2_one cx c0 c1 cadd cmul csub copp cx_ring cconj cconj0 cconj_add cconj_mul [] r a) as E. cbn [app] in E. rewrite E; [reflexivity|cbn; auto| |].
    + apply (left_basis_ok cx c0 c1 cadd cmul csub copp cx_ring cconj cconj0 cconj1 cconj_add cconj_mul); [cbn; auto|constructor].
    + apply (right_basis_ok cx c0 c1 cadd cmul csub copp cx_ring cconj cconj0 cconj1 cconj_add cconj_mul); auto.
Qed.

(** *** the loop *)
Definition printed4 (terr : real) (Dmax : nat) (o : real * nat) : Prop := (0 <= fst o < 1)%R /\ snd o <= Dmax /\ (snd o < Dmax -> (fst o <= terr)%R).
Section Trunc.
Variables (svdt : real -> nat -> nat -> c4 -> cmat * list real * c4 * real) (terr : real) (Dmin Dmax : nat).
Hypothesis SV : good4 terr Dmin Dmax svdt.
Notation step := (mrcan_trunc svdt).

Lemma tstep_ok : forall dbg l p a r st out psi, holds4 cx st (l ++ p :: a :: r) -> cfit 1 (fz l) (m0 p) -> m3 p = m0 a -> left4 p -> fst (frob (fuse a)) <> 0%R -> rproj psi ((fz l ++ [fuse p]) ++ [fuse a]) (fz r) (m3 a) ->
  exists p' vt e D st', step dbg terr Dmin Dmax (S (length l)) (st, out) = Ok (st', out ++ [(e, D)]) /\ holds4 cx st' (l ++ p' :: vt :: r) /\ mcenter st' = (-1)%Z /\
    m0 p' = m0 p /\ m3 p' = D /\ m0 vt = D /\ m3 vt = m3 a /\ legs_same [p; a] [p'; vt] /\ right4 vt /\ printed4 terr Dmax (e, D) /\
    rproj psi (fz l ++ [fuse p']) (fz (vt :: r)) (m3 p') /\ frob (fuse p') = cmul (cre (1 - e)) (frob (fuse a)) /\
    (forall k, nth_error (mtypes st') k = if k =? length l then Some NONE else if k =? S (length l) then Some RIGHT else nth_error (mtypes st) k).
Proof.
  intros dbg l p a r [T ty z] out psi [HT HY] HF HP HL HN HR. cbn [mtens mtypes] in *. subst T. unfold mrcan_trunc. rewrite asserted by reflexivity. cbn [bind].
  assert (L1 : length (map Some (l ++ p :: a :: r)) = length l + S (S (length r))) by (rewrite map_length, app_length; reflexivity).
  assert (L2 : length ty = length l + S (S (length r))) by (rewrite HY, app_length; reflexivity).
  sm. erewrite mderef_ok. 2:{ cbn [mtens]. rewrite map_mid. cbn [map]. rewrite <- (Nat.add_1_r (length l)), <- (map_length Some l). apply nth_mid1. } cbn [bind].
  pose proof (SV a (proj2 (nonzero4_fuse a) HN)) as V. destruct (svdt terr Dmin Dmax a) as [[[u s] vt] e]. destruct V as [[V1 [V2 [V3 [V4 [V5 V6]]]]] V7 V8 V9 [V10 V11] V12].
  destruct (absorb_ok l p a r (upd ty (S (length l)) NONE) (-1)%Z u s vt) as [us [p' [C1 [C2 [C3 [C4 [C5 [ty' [A1 [A2 A3]]]]]]]]]].
  { rewrite upd_length. exact HY. } { exact V2. } { congruence. }
  rewrite A1. cbn [bind]. destruct (fuse_4m _ _ _ C2) as [F1 [F2 [F3 [F4 F5]]]]. pose proof (tm0_times _ _ _ F1) as TT. rewrite C4 in TT, F5.
  exists p', vt, e, (length s). eexists. split; [reflexivity|].
  split. { split; [reflexivity|]. cbn [mtypes]. rewrite A2, upd_length, HY, !app_length. reflexivity. }
  split; [reflexivity|]. split; [exact F2|]. split; [exact F5|]. split; [exact V3|]. split; [exact V6|]. split; [split; cbn [map]; congruence|]. split; [exact V7|]. split; [split; [exact V10|exact V12]|].
  split; [|split].
  - rewrite F5. apply (tproj psi (fz l) (fuse p) (fuse a) (fz r) (fuse vt) (length s) (me us) (fuse p') HF HP HR).
    + cbn [fuse d1]. congruence.
    + exact V6.
    + intros x k Hx Hk. cbn [fuse d0 d1 d2 el] in *. rewrite C5, <- (V9 x k Hx Hk), V5.
      rewrite (pairs (m1 a) (m2 a) (fun t t' => lsum (seq 0 (m3 a)) (fun y => cmul (e4 a x t t' y) (cconj (e4 vt k t t' y))))).
      rewrite sumn_lsum. apply lsum_ext. intros. rewrite sumn_lsum. apply lsum_ext. intros. symmetry. apply sumn_lsum.
    + exact TT.
  - rewrite (tfrob (fuse p) (fuse p') (me us) (length s) s (me u) (proj1 (left4_fuse p) HL) TT eq_refl).
    + change (sum_sq s) with (sq_sum s). rewrite V11, ten2_fuse, cre_mul, <- frob_re. reflexivity.
    + intros x k Hk. apply C5.
    + intros k Hk. cbn [fuse d2]. rewrite HP, <- V1, <- sumn_lsum. apply V8. exact Hk.
  - intros k. cbn [mtypes]. rewrite A3, nth_error_upd, (Nat.eqb_sym (S (length l)) k). destruct (k =? length l); [reflexivity|]. destruct (k =? S (length l)); reflexivity.
Qed.

Lemma tloop : forall dbg psi l a r st out, holds4 cx st (l ++ a :: r) -> fit4 cx 1 l (m0 a) -> fit4 cx (m3 a) r 1 -> Forall left4 l -> Forall right4 r -> fst (frob (fuse a)) <> 0%R ->
  rproj psi (fz l ++ [fuse a]) (fz r) (m3 a) ->
  exists a' r' out' st', for_each (rev (seq 1 (length l))) (step dbg terr Dmin Dmax) (st, out) = Ok (st', out ++ out') /\ holds4 cx st' (a' :: r' ++ r) /\
    fit4 cx 1 (a' :: r' ++ r) 1 /\ legs_same (l ++ [a]) (a' :: r') /\ Forall right4 r' /\ map (@m0 cx) r' = rev (map snd out') /\ Forall (printed4 terr Dmax) out' /\ length out' = length l /\
    rproj psi [fuse a'] (fz (r' ++ r)) (m3 a') /\ frob (fuse a') = cmul (cre (remains (map fst out'))) (frob (fuse a)) /\
    (forall k, nth_error (mtypes st') k = if (k =? 0) && (0 <? length l) then Some NONE else if k <=? length l then if 0 <? length l then Some RIGHT else nth_error (mtypes st) k else nth_error (mtypes st) k) /\
    (0 < length l -> mcenter st' = (-1)%Z).
Proof.
  intros dbg psi l. induction l as [|p l IH] using rev_ind; intros a r st out HH HF1 HF2 HL HR HN HP.
  - exists a, [], [], st. cbn [length seq rev for_each app map]. cbn [app] in HH, HP. cbn in HF1. rewrite app_nil_r. split; [reflexivity|]. split; [exact HH|]. split; [split; [congruence|exact HF2]|]. split; [split; reflexivity|].
    split; [constructor|]. split; [reflexivity|]. split; [constructor|]. split; [reflexivity|]. split; [exact HP|]. split; [cbn [remains fold_right]; rewrite cre_1; ring|]. split; [|lia].
    intros k. rewrite andb_false_r. destruct (k <=? 0); reflexivity.
  - apply Forall_app in HL. destruct HL as [HL1 HL2]. inversion HL2 as [|? ? HLp _]; subst. apply fit4_app in HF1. destruct HF1 as [d [G1 [G2 G3]]]. cbn in G3. subst d.
    rewrite <- app_assoc in HH. cbn [app] in HH. rewrite map_app in HP. cbn [map] in HP.
    destruct (tstep_ok dbg l p a r st out psi HH (proj1 (fit4_fuse _ _ _) G1) G3 HLp HN HP) as [p' [vt [e [D [st1 [A1 [A2 [A3 [A4 [A5 [A6 [A7 [A8 [A9 [A10 [A11 [A12 A13]]]]]]]]]]]]]]]]].
    destruct (IH p' (vt :: r) st1 (out ++ [(e, D)])) as [a' [r' [out' [st' [B1 [B2 [B3 [B4 [B5 [B6 [B7 [B8 [B9 [B10 [B11 B12]]]]]]]]]]]]]]].
    + exact A2.
    + rewrite A4. exact G1.
    + split; [congruence|]. rewrite A7. exact HF2.
    + exact HL1.
    + constructor; assumption.
    + rewrite A12. destruct A10 as [[E1 E2] _]. cbn [fst] in *. destruct (frob_pos (fuse a)) as [P1 P2]. unfold cre, cmul. cbn [fst snd]. rewrite P2. nra.
    + exact A11.
    + exists a', (r' ++ [vt]), ((e, D) :: out'), st'. rewrite app_length. cbn [length]. rewrite Nat.add_1_r. split.
      { rewrite seq_S, rev_app_distr. cbn [rev app for_each]. replace (1 + length l) with (S (length l)) by lia. rewrite A1. cbn [bind]. rewrite B1, <- app_assoc. reflexivity. }
      rewrite <- !app_assoc. cbn [app]. split; [exact B2|]. split; [exact B3|].
      split. { destruct A8 as [X Y], B4 as [X' Y']. cbn [map] in X, Y. rewrite map_app in X', Y'. cbn [map] in X', Y'. split; cbn [map]; rewrite !map_app; cbn [map]; rewrite ?app_comm_cons.
        - rewrite X'. rewrite <- app_assoc. cbn [app]. congruence.
        - rewrite Y'. rewrite <- app_assoc. cbn [app]. congruence. }
      split; [apply Forall_app; split; [exact B5|constructor; [exact A9|constructor]]|].
      split. { rewrite map_app. cbn [map rev snd]. rewrite B6. congruence. }
      split; [constructor; assumption|]. split; [lia|]. split; [exact B9|]. split.
      { rewrite B10, A12. cbn [map fst remains fold_right]. fold (remains (map fst out')). rewrite cre_mul. ring. }
      split; [|intros _; destruct l as [|x l]; [cbn in B1; injection B1 as <- _; exact A3|apply B12; cbn; lia]].
      intros k. rewrite B11, A13. replace (0 <? S (length l)) with true by reflexivity. rewrite andb_true_r.
      destruct (Nat.eqb_spec k 0), (Nat.leb_spec k (length l)), (Nat.leb_spec k (S (length l))), (Nat.ltb_spec 0 (length l)), (Nat.eqb_spec k (length l)), (Nat.eqb_spec k (S (length l))); cbn [andb]; auto; try lia.
Qed.
End Trunc.

(** *** the call *)
Lemma remains_bound : forall es, Forall (fun e => (0 <= e < 1)%R) es -> (0 < remains es <= 1)%R /\ (1 - lost_sum es <= remains es)%R /\ (0 <= lost_sum es)%R.
Proof.
  induction es as [|e es IH]; intros H; [cbn; lra|]. inversion H as [|? ? H1 H2]; subst. destruct (IH H2) as [A [B C]]. cbn [remains lost_sum fold_right]. fold (remains es). fold (lost_sum es).
  split; [split; nra|]. split; [|lra]. nra.
Qed.
Section Call.
Variables (qr : c4 -> c4 * cmat) (svd : c4 -> cmat * list real * c4) (svdt : real -> nat -> nat -> c4 -> cmat * list real * c4 * real).
Hypothesis QR : qr4_exact qr.
Hypothesis SV : svd4_exact svd.
Variables (terr : real) (Dmin Dmax : nat).
Hypothesis SVT : good4 terr Dmin Dmax svdt.

Lemma trunc_ok : forall (dbg : bool) ds st ts, holds4 cx st ts -> oper_on cx ds ts -> truthful4 st -> (if dbg then 2 else 1) <= length ts -> hs2 ds (melem ts) <> 0%R ->
  exists st' ts' out, mpo_truncate qr svd svdt dbg terr Dmin Dmax st = Ok (st', out) /\ holds4 cx st' ts' /\ oper_on cx ds ts' /\ truthful4 st' /\
    map (@m0 cx) (tl ts') = rev (map snd out) /\ Forall (printed4 terr Dmax) out /\ length out = length ts - 1 /\
    hs ds (melem ts') (melem ts) = hs ds (melem ts') (melem ts') /\ hs ds (melem ts') (melem ts') = cmul (cre (remains (map fst out))) (hs ds (melem ts) (melem ts)) /\
    (2 <= length ts -> mcenter st' = (-1)%Z /\ mtypes st' = NONE :: repeat RIGHT (length ts - 1)) /\
    exists a r, ts' = a :: r /\ Forall right4 r.
Proof.
  intros dbg ds st ts HH HO HT HN HZ. unfold mpo_truncate.
  assert (LT : length (mtens st) = length ts) by (rewrite (proj1 HH); apply map_length). rewrite LT.
  assert (N1 : 1 <= length ts) by (destruct dbg; lia).
  assert (E0 : assert_ dbg (2 <=? length ts) = Ok tt) by (destruct dbg; [rewrite (proj2 (Nat.leb_le _ _)) by lia; reflexivity|reflexivity]). rewrite E0. cbn [bind].
  destruct (Nat.eqb_spec (length ts) 0); [lia|].
  destruct (mcentral_ok qr svd QR SV dbg ts st (length ts - 1) HH (proj1 HO) HT ltac:(lia)) as [st1 [l [p [r [A1 [A2 [A3 [A4 [A5 [A6 [A7 [A8 [A9 A10]]]]]]]]]]]]].
  rewrite A1. cbn [bind]. pose proof (legs_len _ _ (s4_legs _ _ A3)) as LL. rewrite app_length in LL. cbn [length] in LL.
  destruct r as [|x r]; [|cbn in LL; lia]. destruct (same4_oper ds ts _ HO A3) as [HO1 SO].
  pose proof (proj1 HO1) as F1. apply fit4_app in F1. destruct F1 as [d [F1 [F2 F3]]]. cbn in F3. subst d.
  set (psi := fun c => mm (fz ts) c 0 0).
  assert (HSE : hs ds (melem ts) (melem ts) = frob (fuse p)).
  { transitivity (hs ds (melem (l ++ [p])) (melem (l ++ [p]))).
    - unfold hs, csum_l. apply lsum_ext. intros c Hc. apply lsum_ext. intros c' Hc'. rewrite (SO c c' Hc Hc'). reflexivity.
    - rewrite (hs_fuse ds _ _ HO1 HO1). change (inner (fz (l ++ [p])) (fz (l ++ [p]))) with (cnorm2 (fz (l ++ [p]))). rewrite map_app. cbn [map].
      pose proof (norm2_one cx c0 c1 cadd cmul csub copp cx_ring cconj cconj0 cconj_add cconj_mul (fz l) [] (fuse p)) as E. cbn [app] in E. rewrite E; [reflexivity| | |].
      + apply fit4_fuse. exact F1.
      + apply (left_basis_ok cx c0 c1 cadd cmul csub copp cx_ring cconj cconj0 cconj1 cconj_add cconj_mul); [apply fit4_fuse; exact F1|]. apply Forall_forall. intros t Ht. apply in_map_iff in Ht. destruct Ht as [t' [<- Ht]].
        apply left4_fuse. apply (proj1 (Forall_forall _ _) A7). exact Ht.
      + cbn [fuse d2]. rewrite F3. apply (right_basis_ok cx c0 c1 cadd cmul csub copp cx_ring cconj cconj0 cconj1 cconj_add cconj_mul); [reflexivity|constructor]. }
  assert (DM : dims (fz (l ++ [p])) = dims (fz ts)) by (apply legs_dims, A3).
  destruct (tloop svdt terr Dmin Dmax SVT dbg psi l p [] st1 [] A2) as [a' [r' [out' [st' [B1 [B2 [B3 [B4 [B5 [B6 [B7 [B8 [B9 [B10 [B11 B12]]]]]]]]]]]]]]].
  - exact F1.
  - cbn. exact F3.
  - exact A7.
  - constructor.
  - rewrite <- HSE. exact HZ.
  - intros c y HC Hy. assert (y = 0) as -> by lia. cbn [map configs EffHamSpec.lsum fold_right mps_mat Nat.eqb]. rewrite app_nil_r.
    change (cadd (cmul (psi c) (cconj c1)) c0 = mm (fz l ++ [fuse p]) c 0 0). rewrite cconj1.
    assert (E : mm (fz l ++ [fuse p]) c 0 0 = psi c); [|rewrite E; ring]. unfold psi. pose proof (s4_mm _ _ A3 c) as X. rewrite map_app in X. apply X. rewrite <- DM, map_app. exact HC.
  - rewrite app_nil_r in *. cbn [app] in B1. replace (length ts - 1) with (length l) by lia. exists st', (a' :: r'), out'. split; [exact B1|]. split; [exact B2|].
    assert (HO2 : oper_on cx ds (a' :: r')). { destruct HO1 as [_ [X Y]], B4 as [X' Y']. split; [exact B3|split; congruence]. }
    assert (LR : length r' = length l) by (apply legs_len in B4; rewrite app_length in B4; cbn in B4; lia).
    split; [exact HO2|]. split.
    { intros i. rewrite B11. destruct l as [|x l].
      - cbn [length] in *. rewrite andb_false_r. destruct r'; [|discriminate]. replace (if i <=? 0 then if 0 <? 0 then Some RIGHT else nth_error (mtypes st1) i else nth_error (mtypes st1) i) with (nth_error (mtypes st1) i) by (destruct (i <=? 0); reflexivity).
        cbn [seq rev for_each] in B1. injection B1 as <- _. apply A4.
      - replace (0 <? length (x :: l)) with true by reflexivity. rewrite andb_true_r. destruct (Nat.eqb_spec i 0); [split; discriminate|].
        destruct (Nat.leb_spec i (length (x :: l))) as [Hi|Hi].
        + split; [discriminate|intros _]. destruct i as [|i]; [lia|]. destruct (nth_error r' i) as [t|] eqn:Et; [|apply nth_error_None in Et; lia].
          exists t. split; [rewrite (proj1 B2); cbn [map nth_error]; apply nth_map_some; exact Et|]. apply (proj1 (Forall_forall _ _) B5). eapply nth_error_In; eauto.
        + assert (E : nth_error (mtypes st1) i = None) by (apply nth_error_None; rewrite (proj2 A2), app_length; cbn [length] in *; lia). rewrite E. split; discriminate. }
    split; [exact B6|]. split; [exact B7|]. split; [lia|].
    assert (R4 : Forall rcan (fz r')). { apply Forall_forall. intros t Ht. apply in_map_iff in Ht. destruct Ht as [t' [<- Ht]]. apply right4_fuse. apply (proj1 (Forall_forall _ _) B5). exact Ht. }
    destruct B3 as [B31 B32]. destruct (tend psi (fuse a') (fz r') B31 (proj1 (fit4_fuse _ _ _) B32) R4 B9) as [T1 T2].
    assert (HA : hs ds (melem (a' :: r')) (melem (a' :: r')) = frob (fuse a')) by (rewrite (hs_fuse ds _ _ HO2 HO2); exact T2).
    assert (HB : hs ds (melem (a' :: r')) (melem ts) = frob (fuse a')).
    { rewrite (hs_fuse ds _ _ HO2 HO), <- T1. unfold inner, basis, total. rewrite (oper_dims ds ts HO). change (fuse a' :: fz r') with (fz (a' :: r')). rewrite (oper_dims ds _ HO2). reflexivity. }
    split; [congruence|]. split; [rewrite HA, B10, HSE; reflexivity|]. split.
    { intros H2. split; [apply B12; lia|]. rewrite A6 in B11.
      assert (LY : length (mtypes st') = length ts) by (rewrite (proj2 B2); cbn [length]; lia).
      apply nth_error_ext. intros k. rewrite B11. replace (0 <? length ts - 1) with true by (symmetry; apply Nat.ltb_lt; lia). rewrite andb_true_r. destruct k as [|k]; [reflexivity|]. cbn [Nat.eqb nth_error].
      destruct (Nat.leb_spec (S k) (length ts - 1)).
      - symmetry. rewrite nth_error_repeat by lia. reflexivity.
      - transitivity (@None cano); [|symmetry; apply nth_error_None; rewrite repeat_length; lia]. change (nth_error (mtypes st1) (S k) = None). apply nth_error_None. rewrite (proj2 A2), app_length. cbn [length]. lia. }
    exists a', r'. auto.
Qed.
End Call.
