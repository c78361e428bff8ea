(** GetEntanglementEntropy: the loop, the values and the whole call. *)
From Coq Require Import List Arith Lia Bool ZArith Reals Lra Psatz Ring.
From Verif Require Import Base FiniteMps FmpsSpec FmpsFacts FmpsTruth EffHam EffHamSpec EffHamFacts ChainSpec ChainFacts ChainOne FinMpoFacts MeasureFacts Cx GVec DmrgStep TruncMps TruncMpsSpec TruncMpsMath TruncMpsFacts TruncMpsRun TruncMpsInst EntropyMps EntropySpec EntropyMath EntropyChain.
Import ListNotations.
Local Open Scope nat_scope.

(** *** the value of one bond *)
Lemma rank_le : forall q, rank q <= length q.
Proof. induction q as [|x q IH]; [unfold rank; cbn; lia|]. unfold rank in *. cbn [filter]. destruct (Req_EM_T x 0); cbn [length]; lia. Qed.
Lemma one_value : forall s, bond_entropy 1 s = if rank (map prob s) <? length s then None else Some (von_neumann (map prob s)).
Proof.
  intros s. unfold bond_entropy. cbn [Nat.eqb].
  assert (G0 : forall s, fold_left (fun ee x => ee_add ee (prob x)) s None = None) by (induction s0 as [|x s0 IH]; cbn; auto).
  assert (G : forall s e, fold_left (fun ee x => ee_add ee (prob x)) s (Some e) = if rank (map prob s) <? length s then None else Some (e + von_neumann (map prob s))%R).
  { induction s0 as [|x s0 IH]; intros e; [cbn; f_equal; ring|]. cbn [fold_left ee_add]. pose proof (rank_le (map prob s0)) as RL. rewrite map_length in RL.
    destruct (Req_EM_T (prob x) 0) as [Z|N].
    - rewrite G0. unfold rank. cbn [map filter]. destruct (Req_EM_T (prob x) 0); [|contradiction]. fold (rank (map prob s0)). cbn [length].
      rewrite (proj2 (Nat.ltb_lt _ _)) by lia. reflexivity.
    - rewrite IH. unfold rank at 2. cbn [map filter]. destruct (Req_EM_T (prob x) 0) eqn:E; [contradiction|]. cbn [length]. fold (rank (map prob s0)).
      change (S (rank (map prob s0)) <? S (length s0)) with (rank (map prob s0) <? length s0). destruct (_ <? _); [reflexivity|]. f_equal.
      cbn [von_neumann fold_right]. rewrite E. fold (von_neumann (map prob s0)). ring. }
  rewrite G. destruct (_ <? _); [reflexivity|]. f_equal. ring.
Qed.
Lemma to_n_pow : forall n p, to_n (S n) p = (p ^ S n)%R.
Proof. intros n p. unfold to_n. replace (S n - 1) with n by lia. induction n as [|n IH]; [cbn; ring|]. change (Nat.iter (S n) (fun q => (q * p)%R) p) with (Nat.iter n (fun q => (q * p)%R) p * p)%R. rewrite IH. cbn [pow]. ring. Qed.
Lemma sum_value : forall (f : real -> real) s a, fold_left (fun a x => (a + f (prob x))%R) s a = (a + rsum (map prob s) f)%R.
Proof. intros f. induction s as [|x s IH]; intros a; [cbn; ring|]. cbn [fold_left map]. rewrite IH, rsum_cons. ring. Qed.
Lemma pow_sum_pos : forall p n, Forall (fun x => (0 <= x)%R) p -> rsum p (fun x => x ^ 1)%R = 1%R -> (0 < rsum p (fun x => x ^ S n)%R)%R.
Proof.
  intros p n HP H1. assert (P : forall l, Forall (fun x => (0 <= x)%R) l -> (0 <= rsum l (fun x => x ^ S n)%R)%R).
  { induction l as [|x l IH]; intros H; [cbn; lra|]. inversion H as [|? ? G1 G2]; subst. rewrite rsum_cons. specialize (IH G2). pose proof (pow_le x (S n) G1). lra. }
  assert (Q : forall l, Forall (fun x => (0 <= x)%R) l -> (0 < rsum l (fun x => x ^ 1)%R)%R -> (0 < rsum l (fun x => x ^ S n)%R)%R).
  { induction l as [|x l IH]; intros H G; [cbn in G; lra|]. inversion H as [|? ? G1 G2]; subst. rewrite rsum_cons in *. destruct (Req_EM_T x 0) as [->|N].
    - assert (0 < rsum l (fun x => x ^ S n)%R)%R by (apply IH; auto; rewrite (pow_1 0) in G; lra). rewrite (pow_ne_zero (S n)) by lia. lra.
    - pose proof (P l G2). assert (0 < x ^ S n)%R by (apply pow_lt; lra). lra. }
  apply Q; auto. lra.
Qed.
Lemma renyi_value : forall psi ds i p A n, diagonal psi ds i p A -> renyi psi ds i (S (S n)) = (- ln (rsum p (fun x => x ^ S (S n))%R) / INR (S n))%R.
Proof.
  intros psi ds i p A n H. unfold renyi. rewrite (diag_trace psi ds i p A H (S n)). cbn [fst cre]. rewrite (S_INR (S n)). pose proof (S_INR n). pose proof (pos_INR n). field. split; lra.
Qed.
(** the trace of rho is the squared norm *)
Lemma trace_one : forall psi ds i, trace_pow psi ds i 1 = lsum (configs ds) (fun c => cmul (cconj (psi c)) (psi c)).
Proof.
  intros psi ds i. unfold trace_pow, left_states. cbn [Nat.sub rho_pow]. unfold rho, right_states.
  transitivity (lsum (configs (firstn i ds ++ skipn i ds)) (fun c => cmul (cconj (psi c)) (psi c))); [|rewrite firstn_skipn; reflexivity]. rewrite configs_app.
  change (lsum (configs (firstn i ds)) (fun c => lsum (configs (skipn i ds)) (fun e => cmul (psi (c ++ e)) (cconj (psi (c ++ e))))) =
    lsum (configs (firstn i ds)) (fun c => lsum (configs (skipn i ds)) (fun e => cmul (cconj (psi (c ++ e))) (psi (c ++ e))))).
  apply lsum_ext. intros c _. apply lsum_ext. intros e _. ring.
Qed.

Definition bond_ok (psi : list nat -> cx) (ds : list nat) (i D n : nat) (e : double) : Prop :=
  (exists q v, spectral psi ds i q v) /\
  match n with
  | 0 => e = Some 0%R
  | 1 => forall q v, spectral psi ds i q v -> e = if rank q <? D then None else Some (von_neumann q)
  | _ => (0 < fst (trace_pow psi ds i n))%R /\ snd (trace_pow psi ds i n) = 0%R /\ e = Some (renyi psi ds i n)
  end.
Lemma bond_value : forall psi ds i s A n, diagonal psi ds i (map prob s) A -> lsum (configs ds) (fun c => cmul (cconj (psi c)) (psi c)) = c1 ->
  bond_ok psi ds i (length s) n (bond_entropy n s).
Proof.
  intros psi ds i s A n HA H1.
  assert (NN : Forall (fun x => (0 <= x)%R) (map prob s)) by (apply Forall_forall; intros x Hx; apply in_map_iff in Hx; destruct Hx as [y [<- _]]; unfold prob; nra).
  assert (ONE : rsum (map prob s) (fun x => x ^ 1)%R = 1%R).
  { pose proof (diag_trace psi ds i _ A HA 0) as E. rewrite trace_one, H1 in E. injection E as E. symmetry. exact E. }
  split; [exact (diag_spectral psi ds i _ A HA NN)|]. destruct n as [|[|n]].
  - unfold bond_entropy. cbn [Nat.eqb]. rewrite (sum_value (to_n 0)). replace (rsum (map prob s) (to_n 0)) with 1%R.
    + destruct (Rlt_dec 0 (0 + 1)) as [_|N]; [|exfalso; apply N; lra]. f_equal. replace (0 + 1)%R with 1%R by ring. rewrite ln_1. unfold Rdiv. ring.
    + rewrite <- ONE. apply rsum_ext. intros x _. unfold to_n. cbn. ring.
  - intros q v SP. rewrite one_value. pose proof (diag_same psi ds i _ q A _ HA (spectral_diag psi ds i q v SP)) as SM.
    rewrite (same_rank _ _ SM), (same_von_neumann _ _ SM). reflexivity.
  - pose proof (pow_sum_pos _ (S n) NN ONE) as PS. rewrite (diag_trace psi ds i _ A HA (S n)). split; [exact PS|]. split; [reflexivity|].
    rewrite (renyi_value psi ds i _ A n HA). unfold bond_entropy. cbn [Nat.eqb]. rewrite (sum_value (to_n (S (S n)))).
    assert (E : rsum (map prob s) (to_n (S (S n))) = rsum (map prob s) (fun x => x ^ S (S n))%R) by (apply rsum_ext; intros; apply to_n_pow).
    rewrite E, Rplus_0_l. destruct (Rlt_dec 0 _) as [_|N]; [reflexivity|contradiction].
Qed.

Section Run.
Variables (qr : cten -> cten * cmat) (svd1 : cten -> cmat * cten * list cx).
Hypothesis QR : qr_exact cx c0 c1 cadd cmul cconj qr.
Notation same := (FmpsFacts.same_state cx c0 c1 cadd cmul 1 1).
Notation rcan_ten := (rcan_ten cx c0 cadd cmul qr svd1).
Notation site := (ee_site qr svd1).

Ltac stp := first [rewrite (touch_ok cx) by (cbn [tens types]; rewrite ?upd_length; auto; lia)
  | rewrite (put_ok cx) by (cbn [tens types]; rewrite ?upd_length; auto; lia)
  | rewrite (flag_ok cx) by (cbn [tens types]; rewrite ?upd_length; auto; lia)]; cbn [bind tens types center].

(** one SVD step *)
Lemma svd_step : forall dbg st l p a r us vt s, holdsc st (l ++ p :: a :: r) -> linked cx 1 (l ++ p :: a :: r) 1 -> svd1 a = (us, vt, s) -> schmidt_svd a (us, vt, s) ->
  exists p', rcan_ten dbg (S (length l)) true st =
    Ok (mkFmps (map Some (l ++ p' :: vt :: r))
         (upd (upd (upd (upd (types st) (S (length l)) NONE) (length l) NONE) (S (length l)) RIGHT) (length l) NONE) (-1)%Z, s) /\
    same (l ++ p :: a :: r) (l ++ p' :: vt :: r).
Proof.
  intros dbg st l p a r us vt s [HT HY] HL EV [[U0 [U1 [V0 [V1 V2]]]] SR SX SL SP].
  pose proof HL as HL'. apply linked_app in HL'. destruct HL' as [c [L1 [L2 [L3 L4]]]].
  assert (LT : length (tens st) = length l + S (S (length r))) by (rewrite HT, map_length, app_length; reflexivity).
  assert (LY : length (types st) = length l + S (S (length r))) by (rewrite HY, app_length; reflexivity).
  assert (C : exists p', contract_tm0 cx c0 cadd cmul p us = Ok p' /\ d0 p' = d0 p /\ d1 p' = d1 p /\ d2 p' = n1 us /\ el p' = fun x t k => csum (d2 p) (fun z => cmul (el p x t z) (me us z k))).
  { unfold contract_tm0. rewrite U0, L3, Nat.eqb_refl. eexists. split; [reflexivity|]. auto. }
  destruct C as [p' [C [P0 [P1 [P2 P3]]]]]. exists p'. split.
  - unfold FiniteMps.rcan_ten. assert (E0 : assert_ dbg (0 <? S (length l)) = Ok tt) by (destruct dbg; reflexivity). rewrite E0. cbn [bind]. stp.
    assert (DA : nth_error (tens st) (S (length l)) = Some (Some a)).
    { rewrite HT, map_app. cbn [map]. rewrite <- (map_length Some l). replace (S (length (map Some l))) with (length (map Some l) + 1) by lia. apply nth_mid1. }
    erewrite (deref_ok cx) by (cbn [tens]; exact DA). cbn [bind]. rewrite EV. stp. stp.
    erewrite (deref_ok cx).
    2:{ cbn [tens]. rewrite nth_error_upd_other by lia. rewrite HT, map_app. cbn [map]. rewrite <- (map_length Some l). apply nth_mid. }
    cbn [bind]. rewrite C. cbn [bind]. stp. stp. stp. do 3 f_equal.
    rewrite HT, !map_app. cbn [map]. rewrite <- (map_length Some l). replace (S (length (map Some l))) with (length (map Some l) + 1) by lia. rewrite upd_app1, upd_app. reflexivity.
  - constructor.
    + rewrite !app_length. reflexivity.
    + apply linked_app. exists c. split; auto. cbn [linked]. split; [congruence|]. split; [congruence|]. rewrite V2. auto.
    + rewrite !map_app. cbn [map]. rewrite P1, V1. reflexivity.
    + intros t CF x y Hx. eapply (mps_replace cx c0 c1 cadd cmul csub copp cx_ring); [exact HL|exact V2| |exact Hx]. intros x1 w Hx1 Hw.
      assert (Ht : t (S (length l)) < d1 a). { apply CF. replace (S (length l)) with (length l + 1) by lia. apply nth_mid1. }
      rewrite !sumn_lsum, P2, P3.
      transitivity (lsum (seq 0 (d2 p)) (fun z => lsum (seq 0 (n1 us)) (fun k => cmul (el p x1 (t (length l)) z) (cmul (me us z k) (el vt k (t (S (length l))) w))))).
      * rewrite lsum_swap. apply lsum_ext. intros k _. rewrite sumn_lsum, lsum_mul_r. apply lsum_ext. intros. ring.
      * apply lsum_ext. intros z Hz. apply in_seq in Hz. rewrite (SP z (t (S (length l))) w) by lia. rewrite sumn_lsum, lsum_mul_l. reflexivity.
Qed.

Lemma types_at : forall (ty : list cano) i c j, i < length ty -> nth_error (upd ty i c) j = if i =? j then Some c else nth_error ty j.
Proof. induction ty as [|t ty IH]; intros [|i] c [|j] Hi; cbn in *; auto; try lia. apply IH. lia. Qed.

Lemma ee_loop : forall dbg n psi ds m l a r st acc, length l = m -> holdsc st (l ++ a :: r) -> linked cx 1 (l ++ a :: r) 1 -> Forall lcan l -> Forall rcan r ->
  dims (l ++ a :: r) = ds -> (forall c, In c (configs ds) -> mm (l ++ a :: r) c 0 0 = psi c) -> center st = (-1)%Z -> nth_error (types st) m = Some NONE ->
  (forall j, m < j < m + S (length r) -> nth_error (types st) j = Some RIGHT) ->
  (forall j st2 es a', j < m -> for_each (firstn j (rev (seq 1 m))) (site dbg n) (st, acc) = Ok (st2, es) -> nth_error (tens st2) (m - j) = Some (Some a') -> schmidt_svd a' (svd1 a')) ->
  exists st' z w svs, for_each (rev (seq 1 m)) (site dbg n) (st, acc) = Ok (st', map (bond_entropy n) svs ++ acc) /\ length svs = m /\
    holdsc st' (z :: w ++ r) /\ linked cx 1 (z :: w ++ r) 1 /\ dims (z :: w ++ r) = ds /\ (forall c, In c (configs ds) -> mm (z :: w ++ r) c 0 0 = psi c) /\ Forall rcan w /\ map d0 w = map (@length cx) svs /\
    center st' = (-1)%Z /\ nth_error (types st') 0 = Some NONE /\ (forall j, 0 < j < m + S (length r) -> nth_error (types st') j = Some RIGHT) /\
    forall i s, nth_error svs i = Some s -> exists A, diagonal psi ds (S i) (map prob s) A.
Proof.
  intros dbg n psi ds. induction m as [|m IH]; intros l a r st acc HM HH HL HLC HRC HD HA HC HT0 HT HS.
  - destruct l; [|discriminate]. exists st, a, [], []. cbn [seq rev for_each map app length] in *.
    split; [reflexivity|]. split; [reflexivity|]. split; [exact HH|]. split; [exact HL|]. split; [exact HD|]. split; [exact HA|]. split; [constructor|]. split; [reflexivity|]. split; [exact HC|]. split; [exact HT0|]. split; [exact HT|].
    intros [|i] s H; discriminate.
  - destruct (exists_last (l := l)) as [l0 [p El]]; [intros ->; discriminate|]. subst l. rewrite app_length in HM. cbn in HM. assert (LM : length l0 = m) by lia. clear HM.
    rewrite <- app_assoc in HH, HL, HD, HA. cbn [app] in HH, HL, HD, HA. apply Forall_app in HLC. destruct HLC as [HLC HLP].
    destruct (svd1 a) as [[us vt] s] eqn:EV.
    assert (SV : schmidt_svd a (us, vt, s)).
    { rewrite <- EV. apply (HS 0 st acc a ltac:(lia)); [reflexivity|]. rewrite (proj1 HH), map_app. cbn [map]. rewrite <- LM, <- (map_length Some l0).
      replace (S (length (map Some l0)) - 0) with (length (map Some l0) + 1) by lia. apply nth_mid1. }
    destruct (svd_step dbg st l0 p a r us vt s HH HL EV SV) as [p' [E1 SS]]. rewrite LM in E1.
    set (st1 := mkFmps (map Some (l0 ++ p' :: vt :: r)) (upd (upd (upd (upd (types st) (S m) NONE) m NONE) (S m) RIGHT) m NONE) (-1)%Z) in *.
    assert (SEQ : rev (seq 1 (S m)) = S m :: rev (seq 1 m)) by (rewrite seq_S, rev_app_distr; cbn [rev app]; f_equal).
    assert (E2 : site dbg n (S m) (st, acc) = Ok (st1, bond_entropy n s :: acc)) by (unfold ee_site; cbn [fst snd]; rewrite E1; reflexivity).
    assert (LY : length (types st) = m + S (S (length r))) by (rewrite (proj2 HH), app_length, LM; reflexivity).
    pose proof (sv_right _ _ SV) as VR. pose proof (sv_dims _ _ SV) as VD. cbn iota in VR, VD. destruct VD as [U0 [U1 [V0 [V1 V2]]]].
    destruct (IH l0 p' (vt :: r) st1 (bond_entropy n s :: acc) LM) as [st' [z [w [svs [A1 [A2 [A3 [A4 [A5 [A6 [A7 [A8 [A9 [A10 [A11 A12]]]]]]]]]]]]]]].
    + split; [reflexivity|]. cbn [st1 types]. rewrite !upd_length, LY, app_length, LM. reflexivity.
    + exact (ss_link _ _ _ _ _ _ _ _ _ SS).
    + exact HLC.
    + constructor; auto.
    + rewrite <- HD. exact (ss_phys _ _ _ _ _ _ _ _ _ SS).
    + intros c Hc. rewrite <- HA by auto. apply (same_mat _ _ SS). rewrite HD. exact Hc.
    + reflexivity.
    + cbn [st1 types]. rewrite types_at by (rewrite !upd_length; lia). rewrite Nat.eqb_refl. reflexivity.
    + intros j Hj. cbn [length] in Hj. cbn [st1 types]. repeat (rewrite types_at by (rewrite ?upd_length; lia)).
      replace (m =? j) with false by (symmetry; apply Nat.eqb_neq; lia). destruct (Nat.eqb_spec (S m) j) as [EJ|NE]; [reflexivity|]. apply HT. lia.
    + intros j st2 es a' Hj E Hn. apply (HS (S j) st2 es a' ltac:(lia)); [|exact Hn]. rewrite SEQ. cbn [firstn for_each]. rewrite E2. exact E.
    + exists st', z, (w ++ [vt]), (svs ++ [s]). rewrite SEQ. cbn [for_each]. rewrite E2. cbn [bind].
      assert (EA : forall X (u v : list X) x, (u ++ [x]) ++ v = u ++ x :: v) by (intros; rewrite <- app_assoc; reflexivity).
      split; [rewrite A1, map_app; cbn [map]; rewrite EA; reflexivity|]. rewrite !app_length, A2, EA. split; [cbn; lia|]. split; [exact A3|]. split; [exact A4|]. split; [exact A5|]. split; [exact A6|].
      split; [apply Forall_app; split; [exact A7|constructor; auto]|]. split; [rewrite !map_app, A8; cbn [map]; rewrite V0; reflexivity|]. split; [exact A9|]. split; [exact A10|].
      split; [intros j Hj; apply A11; cbn [length]; lia|].
      intros i s0 Hi. destruct (Nat.lt_ge_cases i m) as [Hlt|Hge]; [apply A12; rewrite nth_error_app1 in Hi by lia; exact Hi|].
      assert (i < length (svs ++ [s])) by (apply nth_error_Some; congruence). rewrite app_length in H. cbn in H. assert (i = m) by lia. subst i.
      rewrite nth_error_app2 in Hi by lia. rewrite A2, Nat.sub_diag in Hi. injection Hi as <-.
      pose proof HL as HL'. replace (l0 ++ p :: a :: r) with ((l0 ++ [p]) ++ a :: r) in * by (rewrite <- app_assoc; reflexivity).
      apply linked_app in HL'. destruct HL' as [c [L1 [L2 L3]]]. subst c.
      replace (S m) with (length (l0 ++ [p])) by (rewrite app_length; cbn; lia).
      apply (schmidt_diag psi ds (l0 ++ [p]) a r us vt s); auto.
      * apply Forall_app. auto.
      * intros c Hc. symmetry. apply HA. exact Hc.
Qed.

(** Centralize(N - 1) does not call the SVD *)
Lemma central_svd : forall svd2 dbg k st, centralize cx c0 cadd cmul qr svd1 dbg k st = centralize cx c0 cadd cmul qr svd2 dbg k st.
Proof. reflexivity. Qed.
Lemma centered_last : forall dbg st ts m, holdsc st ts -> linked cx 1 ts 1 -> truthful cx c0 c1 cadd cmul cconj st -> length ts = S m ->
  exists st1 l a, centralize cx c0 cadd cmul qr svd1 dbg (Z.of_nat m) st = Ok st1 /\ holdsc st1 (l ++ [a]) /\ same ts (l ++ [a]) /\ Forall lcan l /\ frob a = inner ts ts.
Proof.
  intros dbg st ts m HH HL HT HN. rewrite (central_svd csvd1).
  destruct (centralize_ok cx c0 c1 cadd cmul csub copp cx_ring cconj qr csvd1 QR csvd1_exact dbg 1 1 ts st m HH HL ltac:(lia)) as [st1 [ts1 [A [B [C [D [E F]]]]]]].
  pose proof (centralize_true cx c0 c1 cadd cmul cconj qr csvd1 QR csvd1_exact dbg _ st st1 HT A) as T'.
  pose proof (ss_len _ _ _ _ _ _ _ _ _ C) as L1. destruct (exists_last (l := ts1)) as [l [a El]]; [intros ->; cbn in L1; lia|]. subst ts1. rewrite app_length in L1. cbn in L1.
  assert (HR : Forall lcan l).
  { apply Forall_forall. intros t Ht. apply In_nth_error in Ht. destruct Ht as [j Hj]. assert (j < length l) by (apply nth_error_Some; congruence).
    destruct (proj1 (T' j) (E j ltac:(lia))) as [t' [T1 T2]]. rewrite (proj1 B), map_app, nth_error_app1 in T1 by (rewrite map_length; auto). rewrite nth_error_map, Hj in T1. injection T1 as <-. exact T2. }
  pose proof (ss_link _ _ _ _ _ _ _ _ _ C) as LK. apply linked_app in LK. destruct LK as [d [LK1 [LK2 LK3]]]. subst d. cbn [linked] in LK3.
  exists st1, l, a. split; [exact A|]. split; [exact B|]. split; [exact C|]. split; [exact HR|].
  change (inner ts ts) with (cnorm2 ts). rewrite <- (same_inner _ _ C).
  pose proof (norm2_one cx c0 c1 cadd cmul csub copp cx_ring cconj cconj0 cconj_add cconj_mul l [] a) as E2. cbn [app] in E2. rewrite E2; [reflexivity|exact LK1| |].
  - apply (left_basis_ok cx c0 c1 cadd cmul csub copp cx_ring cconj cconj0 cconj1 cconj_add cconj_mul); auto.
  - rewrite LK3. apply (right_basis_ok cx c0 c1 cadd cmul csub copp cx_ring cconj cconj0 cconj1 cconj_add cconj_mul); [reflexivity|constructor].
Qed.

Lemma start_ok : forall dbg st ts, holdsc st ts -> linked cx 1 ts 1 -> truthful cx c0 c1 cadd cmul cconj st -> ts <> [] ->
  (norm ts = 0%R -> ee_start qr svd1 dbg st = Ub) /\
  (norm ts <> 0%R -> exists st1 l a, ee_start qr svd1 dbg st = Ok st1 /\ holdsc st1 (l ++ [a]) /\ linked cx 1 (l ++ [a]) 1 /\ Forall lcan l /\ dims (l ++ [a]) = dims ts /\
    (forall c, In c (configs (dims ts)) -> mm (l ++ [a]) c 0 0 = cmul (cre (/ norm ts)) (mm ts c 0 0)) /\ center st1 = (-1)%Z /\ nth_error (types st1) (length l) = Some NONE).
Proof.
  intros dbg st ts HH HL HT HN. destruct ts as [|t0 ts0] eqn:Ets; [congruence|]. rewrite <- Ets in *. assert (LN : length ts = S (length ts0)) by (rewrite Ets; reflexivity). clear Ets HN t0.
  destruct (centered_last dbg st ts (length ts0) HH HL HT LN) as [st1 [l [a [A [B [C [HR FA]]]]]]].
  assert (LT : length (tens st) = S (length ts0)) by (rewrite (proj1 HH), map_length; exact LN).
  assert (Ll : length l = length ts0). { pose proof (ss_len _ _ _ _ _ _ _ _ _ C) as E. rewrite app_length in E. cbn in E. lia. }
  assert (LT1 : length (tens st1) = S (length l)) by (rewrite (proj1 B), map_length, app_length; cbn; lia).
  assert (LY1 : length (types st1) = S (length l)) by (rewrite (proj2 B), app_length; cbn; lia).
  unfold ee_start. rewrite LT. replace (S (length ts0) - 1) with (length ts0) by lia. rewrite A. cbn [bind]. rewrite <- Ll.
  rewrite (touch_ok cx) by lia. cbn [bind]. erewrite (deref_ok cx) by (cbn [tens]; rewrite (proj1 B), map_app; cbn [map]; rewrite <- (map_length Some l); apply nth_mid). cbn [bind].
  assert (NA : norm ts = sqrt (fst (frob a))) by (unfold norm; rewrite FA; reflexivity).
  unfold normalize_ten. rewrite <- NA. split; intros HZ.
  - destruct (Req_EM_T (norm ts) 0) as [_|]; [reflexivity|contradiction].
  - destruct (Req_EM_T (norm ts) 0) as [|_]; [contradiction|]. cbn [bind]. rewrite (put_ok cx) by (cbn [tens]; lia). cbn [bind tens types center].
    set (a' := mkTen (d0 a) (d1 a) (d2 a) (fun x s b => cmul (cre (/ norm ts)) (el a x s b))).
    pose proof (ss_link _ _ _ _ _ _ _ _ _ C) as LK. apply linked_app in LK. destruct LK as [d [LK1 [LK2 LK3]]]. cbn [linked] in LK3.
    eexists. exists l, a'. split; [reflexivity|]. split.
    { split; [|cbn [types]; rewrite upd_length, LY1, app_length; cbn; lia]. cbn [tens]. rewrite (proj1 B), !map_app. cbn [map]. rewrite <- (map_length Some l). apply upd_app. }
    split; [apply linked_app; exists d; split; [exact LK1|]; cbn [linked]; split; [exact LK2|exact LK3]|]. split; [exact HR|].
    split. { rewrite <- (ss_phys _ _ _ _ _ _ _ _ _ C), !map_app. reflexivity. }
    split; [|split; [reflexivity|]].
    + intros c Hc. rewrite <- (same_mat _ _ C c Hc). rewrite <- (ss_phys _ _ _ _ _ _ _ _ _ C), map_app in Hc. cbn [map] in Hc.
      apply FinMpoFacts.cfg_in in Hc. apply Forall2_app_inv_r in Hc. destruct Hc as [c1' [c2' [F1 [F2 ->]]]]. inversion F2 as [|s ? ? ? Hs F3]; subst. inversion F3; subst.
      assert (LC : length c1' = length l) by (pose proof (Forall2_len _ _ _ _ _ F1) as E; rewrite map_length in E; exact E).
      rewrite (mps_mat_app l [a'] c1' [s] 1 (d0 a) 0 0 LK1 ltac:(lia) LC), (mps_mat_app l [a] c1' [s] 1 (d0 a) 0 0 LK1 ltac:(lia) LC), lsum_mul_l.
      apply lsum_ext. intros x _. rewrite !mps_one by (cbn [d2 a']; lia). cbn [el a']. ring.
    + cbn [types]. rewrite types_at by lia. rewrite Nat.eqb_refl. reflexivity.
Qed.

Lemma norm_one : forall ts, norm ts <> 0%R -> lsum (configs (dims ts)) (fun c => cmul (cconj (cmul (cre (/ norm ts)) (mm ts c 0 0))) (cmul (cre (/ norm ts)) (mm ts c 0 0))) = c1.
Proof.
  intros ts H. transitivity (cmul (cre (/ norm ts * / norm ts)) (inner ts ts)).
  - unfold inner. change (total (basis ts)) with (lsum (configs (dims ts))). rewrite lsum_mul_l. apply lsum_ext. intros c _. rewrite cconj_mul, cconj_cre, cre_mul. unfold amplitude. ring.
  - rewrite inner_self, <- cre_mul, <- cre_1. f_equal. field. exact H.
Qed.

(** *** the whole call *)
Lemma ee_ok : forall dbg n st ts, holdsc st ts -> linked cx 1 ts 1 -> truthful cx c0 c1 cadd cmul cconj st -> ts <> [] -> norm ts <> 0%R ->
  (forall a, svd_call qr svd1 dbg n st a -> schmidt_svd a (svd1 a)) ->
  exists st' ts' es, get_ee qr svd1 dbg n st = Ok (st', es) /\ holdsc st' ts' /\ linked cx 1 ts' 1 /\ dims ts' = dims ts /\ length ts' = length ts /\
    (forall c, In c (configs (dims ts)) -> mm ts' c 0 0 = cmul (cre (/ norm ts)) (mm ts c 0 0)) /\ Forall rcan (tl ts') /\ center st' = (-1)%Z /\
    nth_error (types st') 0 = Some NONE /\ (forall j, 0 < j < length ts -> nth_error (types st') j = Some RIGHT) /\
    length es = length ts - 1 /\
    forall i t, S i < length ts -> nth_error ts' i = Some t -> exists e, nth_error es i = Some e /\ bond_ok (fun c => cmul (cre (/ norm ts)) (mm ts c 0 0)) (dims ts) (S i) (d2 t) n e.
Proof.
  intros dbg n st ts HH HL HT HN HZ HS. destruct (proj2 (start_ok dbg st ts HH HL HT HN) HZ) as [st1 [l [a [A1 [A2 [A3 [A4 [A5 [A6 [A7 A8]]]]]]]]]].
  assert (LT : length (tens st) = length ts) by (rewrite (proj1 HH), map_length; reflexivity).
  assert (L1 : length ts = S (length l)). { rewrite <- (map_length (@d1 cx) ts), <- A5, map_length, app_length. cbn. lia. }
  unfold get_ee. rewrite LT, L1. cbn [Nat.eqb]. rewrite A1. cbn [bind]. replace (S (length l) - 1) with (length l) by lia.
  destruct (ee_loop dbg n _ (dims ts) (length l) l a [] st1 [] eq_refl A2 A3 A4 (Forall_nil _) A5 A6 A7 A8) as [st' [z [w [svs [B1 [B2 [B3 [B4 [B5 [B6 [B7 [B8 [B9 [B10 [B11 B12]]]]]]]]]]]]]]].
  - intros j Hj. cbn in Hj. lia.
  - intros j st2 es a' Hj E Hn. apply HS. exists st1, j, st2, es. rewrite LT, L1. replace (S (length l) - 1) with (length l) by lia. auto.
  - rewrite app_nil_r in *. exists st', (z :: w), (map (bond_entropy n) svs). rewrite B1.
    assert (Lw : length w = length l) by (rewrite <- (map_length d0 w), B8, map_length; exact B2).
    split; [reflexivity|]. split; [exact B3|]. split; [exact B4|]. split; [exact B5|]. split; [cbn; lia|]. split; [exact B6|]. split; [exact B7|]. split; [exact B9|]. split; [exact B10|].
    split; [intros j Hj; apply B11; cbn; lia|]. split; [rewrite map_length; exact B2|].
    intros i t Hi Ht. assert (Hi' : i < length svs) by lia. destruct (nth_error svs i) as [s|] eqn:Es; [|apply nth_error_None in Es; lia].
    exists (bond_entropy n s). split; [rewrite nth_error_map, Es; reflexivity|]. destruct (B12 i s Es) as [A DA].
    assert (D2 : d2 t = length s).
    { assert (W : nth_error (map d0 w) i = Some (length s)) by (rewrite B8, nth_error_map, Es; reflexivity).
      clear -B4 Ht W. revert z w i B4 Ht W. generalize 1 at 1 as x. intros x z w. revert x z. induction w as [|u w IH]; intros x z [|i] H Ht W; try discriminate.
      - cbn in *. injection Ht as <-. destruct H as [_ [H _]]. congruence.
      - cbn [map nth_error] in *. destruct H as [_ H]. exact (IH _ _ _ H Ht W). }
    rewrite D2. eapply bond_value; [exact DA|]. apply norm_one. exact HZ.
Qed.
Lemma ee_zero : forall dbg n st ts, holdsc st ts -> linked cx 1 ts 1 -> truthful cx c0 c1 cadd cmul cconj st -> ts <> [] -> norm ts = 0%R -> get_ee qr svd1 dbg n st = Ub.
Proof.
  intros dbg n st ts HH HL HT HN HZ. unfold get_ee. rewrite (proj1 HH), map_length. destruct ts as [|t ts]; [congruence|]. cbn [length Nat.eqb].
  rewrite (proj1 (start_ok dbg st _ HH HL HT HN) HZ). reflexivity.
Qed.
End Run.
