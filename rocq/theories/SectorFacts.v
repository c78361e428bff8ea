(** Sectors: what vanishes stays zero in the solvers, in the effective Hamiltonians and in the products of tensors. *)
From Coq Require Import List Arith Bool Lia QArith Qreals Reals Lra Ring_theory.
From Verif Require Import Base Disk SweepSpec Tdvp TdvpSpec FiniteMps FmpsSpec FmpsFacts EffHam EffHamSpec EffHamFacts ChainSpec ChainFacts Legs VmpsLocal VmpsSpec VmpsEnv VmpsHeff VmpsState Lanczos LanczosSpec LanczosEig LanczosExp Krylov KrylovSpec KrylovRun Cx KrylovInst GVec GVecFacts DmrgStep ChainOne ChainPair ChainUpdate DmrgVarSpec DmrgVar ConserveSpec ConserveFacts ConserveRun ConserveVmps ConserveInst CorrSpec CorrRun TruncUpdate TruncSpec TruncFacts SectorSpec.
Import ListNotations.
Local Open Scope nat_scope.

(** *** numbers that do not vanish *)
Lemma cx_dec : forall z : cx, {z = c0} + {z <> c0}.
Proof.
  intros [a b]. destruct (Req_EM_T a 0) as [->|N]; [|right; intros E; apply N; exact (f_equal fst E)]. destruct (Req_EM_T b 0) as [->|N]; [left; reflexivity|right; intros E; apply N; exact (f_equal snd E)].
Qed.
Lemma add_nz : forall x y, cadd x y <> c0 -> x <> c0 \/ y <> c0.
Proof. intros x y H. destruct (cx_dec x) as [->|N]; [|left; exact N]. right. intros ->. apply H. ring. Qed.
Lemma sub_nz : forall x y, csub x y <> c0 -> x <> c0 \/ y <> c0.
Proof. intros x y H. destruct (cx_dec x) as [->|N]; [|left; exact N]. right. intros ->. apply H. ring. Qed.
Lemma mul_nz : forall x y, cmul x y <> c0 -> x <> c0 /\ y <> c0.
Proof. intros x y H. split; intros ->; apply H; ring. Qed.
Lemma conj_nz : forall x, cconj x <> c0 -> x <> c0.
Proof. intros x H ->. apply H. apply cconj0. Qed.
Lemma csum_nz : forall n f, csum n f <> c0 -> exists i, i < n /\ f i <> c0.
Proof.
  induction n as [|n IH]; intros f H; cbn [FmpsSpec.sumn] in H; [exfalso; apply H; reflexivity|]. destruct (add_nz _ _ H) as [A|A]; [|exists n; auto]. destruct (IH f A) as [i [Hi Fi]]. exists i. auto.
Qed.
Lemma lsum_nz : forall A (l : list A) f, lsum cx c0 cadd l f <> c0 -> exists x, In x l /\ f x <> c0.
Proof.
  intros A l f. induction l as [|a l IH]; cbn; intros H; [exfalso; apply H; reflexivity|]. destruct (add_nz _ _ H) as [B|B]; [exists a; auto|]. destruct (IH B) as [x [Ix Fx]]. exists x. auto.
Qed.

(** *** vectors that vanish outside a set of indices *)
Section Within.
Variable L : list nat -> Prop.
Definition within (v : cvec) : Prop := forall k, v k <> c0 -> L k.
Lemma within_lc1 : forall a q g, within q -> within g -> within (g_lc1 a q g).
Proof. intros a q g Hq Hg k H. destruct (sub_nz _ _ H) as [A|A]; [apply Hg; exact A|]. apply Hq. apply (mul_nz _ _ A). Qed.
Lemma within_lc2 : forall rt a q n q' g, within q -> within q' -> within g -> within (g_lc2 rt a q n q' g).
Proof. intros. unfold g_lc2. apply within_lc1; [assumption|]. apply within_lc1; assumption. Qed.
Lemma within_scale : forall a x, within x -> within (g_scale a x).
Proof. intros a x H k E. apply H. apply (mul_nz _ _ E). Qed.
Lemma within_comb : forall c l, (forall v, In v l -> within v) -> within (g_comb c l).
Proof.
  intros c l H k. unfold g_comb. revert l H. induction c as [|a c IH]; intros [|v l] H E; try (cbn in E; exfalso; apply E; reflexivity). cbn [List.combine fold_right fst snd] in E.
  destruct (add_nz _ _ E) as [A|A]; [apply (H v (or_introl eq_refl)); apply (mul_nz _ _ A)|]. apply (IH l); [|exact A]. intros u Iu. apply H. right. exact Iu.
Qed.
Lemma within_normalize : forall ls v, within v -> within (fst (g_normalize ls v)).
Proof. intros ls v H. unfold g_normalize. destruct (g_isz _); cbn [fst]; [exact H|]. apply within_scale. exact H. Qed.
Variables (ls : list nat) (mul : cvec -> cvec).
Hypothesis MW : forall v, within v -> within (mul v).
Lemma within_kr : forall rt off v, within v -> forall m, let '(q, q', _) := kr real cvec 0%R mul (g_dot ls) g_lc1 (g_lc2 rt) (g_normalize ls) off v m in within q /\ within q'.
Proof.
  intros rt off v HV. induction m as [|m IH]; cbn [kr]; [split; apply within_normalize; exact HV|].
  destruct (kr real cvec 0%R mul (g_dot ls) g_lc1 (g_lc2 rt) (g_normalize ls) off v m) as [[q q'] n]. destruct IH as [A B]. split; [|exact A]. apply within_normalize.
  destruct (m =? 0); [apply within_lc1|apply within_lc2]; auto.
Qed.
Lemma within_qv : forall rt off v, within v -> forall m, within (qv real cvec 0%R mul (g_dot ls) g_lc1 (g_lc2 rt) (g_normalize ls) off v m).
Proof. intros rt off v HV m. pose proof (within_kr rt off v HV m) as P. unfold qv. destruct (kr _ _ _ _ _ _ _ _ _ _ _) as [[q q'] n]. apply P. Qed.
Lemma within_qvs : forall rt off v, within v -> forall k u, In u (qvs real cvec 0%R mul (g_dot ls) g_lc1 (g_lc2 rt) (g_normalize ls) off v k) -> within u.
Proof. intros rt off v HV k u Iu. apply in_map_iff in Iu. destruct Iu as [m [<- _]]. apply within_qv. exact HV. Qed.
Variables (stev : list real -> list real -> list real * list real) (maxit dim : nat).
Hypothesis Hmax : 2 <= maxit.
Lemma within_lanczos : forall close v r g, within v -> g_lanczos ls mul stev close maxit dim v = Ok (r, g) -> within g.
Proof.
  intros close v r g HV E.
  destruct (eig_solver_ok real cvec real 0%R (fun x => (x * x)%R) g_isz mul (g_dot ls) g_lc1 (g_lc2 sqrt) (g_normalize ls) (fun x => x) (fun _ => eq_refl) (gs_eng real 0%R stev) (gs_vec real 0%R stev) (fun c l => g_comb (map cre c) l) close v maxit dim (mkH cvec real [Some v] []) 0 eq_refl Hmax)
    as [m [r' [h [_ [_ [O RUN]]]]]].
  unfold g_lanczos in E. rewrite RUN in E. cbn [bind] in E. unfold rd in E.
  assert (GW : forall k, within (ground real cvec real 0%R (fun x => (x * x)%R) mul (g_dot ls) g_lc1 (g_lc2 sqrt) (g_normalize ls) (gs_vec real 0%R stev) (fun c l => g_comb (map cre c) l) v k)).
  { intros k. unfold ground. destruct (k =? 1); [apply within_qv; exact HV|]. apply within_comb. intros u. apply within_qvs. exact HV. }
  destruct O as [[_ [_ [_ O]]]|[_ [_ [_ [_ O]]]]]; destruct O as [_ [_ [_ [O _]]]]; rewrite O in E; cbn [bind] in E; injection E as _ <-; apply GW.
Qed.
Lemma within_expmv : forall d far v r g, within v -> g_expmv ls mul stev d far maxit dim v = Ok (r, g) -> within g.
Proof.
  intros d far v r g HV E.
  destruct (exp_solver_ok real cvec cx 0%R g_isz mul (g_dot ls) g_lc1 (g_lc2 (fun x => x)) (g_normalize ls) g_comb c0 (expme1 real cx 0%R c0 cadd cmul cre (cph d) stev) far g_diff (vscale real cx cmul cre) (g_phase d)
    (tx_len real cx 0%R c0 cadd cmul cre stev (cph d)) g_diff_len (vs_len real cx cmul cre) v maxit dim (mkH cvec cx [Some v] []) 0 eq_refl Hmax) as [m [r' [h [_ [_ [O RUN]]]]]].
  unfold g_expmv in E. rewrite RUN in E. cbn [bind] in E. unfold rd in E.
  destruct O as [[_ [_ O]]|[_ [_ [_ O]]]]; destruct O as [_ [_ [_ [O _]]]]; rewrite O in E; cbn [bind] in E; injection E as _ <-.
  - unfold evolved0. destruct (m =? 1); [apply within_scale, within_qv; exact HV|]. apply within_comb. intros u. apply within_qvs. exact HV.
  - unfold evolved. apply within_comb. intros u. apply within_qvs. exact HV.
Qed.
End Within.

Section Labels.
Variables (G : Type) (q0 : G) (qadd : G -> G -> G) (qopp : G -> G).
Hypothesis QG : q_group q0 qadd qopp.
Variable ch : nat -> nat -> G.
Infix "+q" := qadd (at level 50, left associativity).
Notation total := (total G q0 qadd ch). Notation labelled3 := (labelled3 G qadd ch). Notation labelled4 := (labelled4 G qadd ch).
Lemma q_assoc : forall a b c, a +q (b +q c) = a +q b +q c. Proof. exact (qg_assoc _ _ _ QG). Qed.
Lemma q_cancel_l : forall a b c, a +q b = a +q c -> b = c.
Proof. intros a b c E. rewrite <- (qg_l _ _ _ QG b), <- (qg_l _ _ _ QG c), <- (qg_inv_l _ _ _ QG a), <- !q_assoc, E. reflexivity. Qed.
Lemma q_cancel_r : forall a b c, b +q a = c +q a -> b = c.
Proof. intros a b c E. rewrite <- (qg_r _ _ _ QG b), <- (qg_r _ _ _ QG c), <- (qg_inv_r _ _ _ QG a), !q_assoc, E. reflexivity. Qed.
Lemma total_app : forall c c' i, total i (c ++ c') = total i c +q total (i + length c) c'.
Proof.
  induction c as [|s c IH]; intros c' i; cbn [app SectorSpec.total length]; [rewrite Nat.add_0_r; symmetry; apply (qg_l _ _ _ QG)|]. rewrite IH, q_assoc. f_equal. f_equal. lia.
Qed.
(** along a part of a chain *)
Lemma mps_label : forall ts (bt : nat -> nat -> G) n i x0 y0 c x y, fit cx x0 (map (fun j => cten_of (ts j)) (seq i n)) y0 -> x < x0 -> (forall j, i <= j < i + n -> labelled3 (bt j) j (bt (j + 1)) (ts j)) ->
  In c (configs (map (@d1 cx) (map (fun j => cten_of (ts j)) (seq i n)))) -> mps_mat cx c0 c1 cadd cmul (map (fun j => cten_of (ts j)) (seq i n)) c x y <> c0 -> bt i x +q total i c = bt (i + n) y.
Proof.
  intros ts bt. induction n as [|n IH]; intros i x0 y0 c x y HF Hx HL HI HN; cbn [seq map configs] in *.
  - destruct HI as [<-|[]]. cbn [EffHamSpec.mps_mat SectorSpec.total] in *. rewrite Nat.add_0_r. unfold delta in HN. destruct (Nat.eqb_spec x y) as [->|]; [apply (qg_r _ _ _ QG)|]. exfalso. apply HN. reflexivity.
  - apply in_flat_map in HI. destruct HI as [s [Is HI]]. apply in_map_iff in HI. destruct HI as [c' [<- HI]]. apply in_seq in Is. cbn [fit] in HF. destruct HF as [F1 F2]. cbn [EffHamSpec.mps_mat] in HN. cbn [SectorSpec.total].
    destruct (csum_nz _ _ HN) as [z [Hz NZ]]. destruct (mul_nz _ _ NZ) as [N1 N2].
    assert (E : bt i x +q ch i s = bt (i + 1) z). { apply (HL i ltac:(lia)); try exact N1; [rewrite <- F1 in Hx; exact Hx|cbn [Legs.ten_of d1] in Is; lia|exact Hz]. }
    rewrite q_assoc, E. replace (i + 1) with (S i) by lia. rewrite (IH (S i) _ y0 c' z y F2 Hz); [f_equal; lia| |exact HI|exact N2]. intros j Hj. apply HL. lia.
Qed.

Section Chain.
Variable N : nat.
Variable ws : nat -> cg.
Variable ds : list nat.
Notation chain := (chain N ws ds). Notation blocks := (blocks G qadd ch N). Notation in_sector := (in_sector G q0 qadd ch ds). Notation conserving := (conserving G q0 qadd ch N ws ds).
Notation e4 := (fun v : cvec => (fun a s1 s2 b => v [a; s1; s2; b]) : nat -> nat -> nat -> nat -> cx).
Notation e3 := (fun v : cvec => (fun a s b => v [a; s; b]) : nat -> nat -> nat -> cx).
(** a chain in block form has amplitudes in one sector only *)
Lemma blocks_sector : forall bt q ts, chain ts -> blocks bt q ts -> in_sector q (amp N ts).
Proof.
  intros bt q ts HC [HB HQ] c Ic HN. apply chain_iff in HC. destruct HC as [_ [HF [_ HD]]]. unfold amp, sites in HN. rewrite map_map in HN. unfold sites in HF, HD.
  rewrite <- HD in Ic. pose proof (mps_label ts bt N 0 1 1 c 0 0 HF ltac:(lia) ltac:(intros j Hj; apply HB; lia) Ic HN) as P. cbn [Nat.add] in P. rewrite <- HQ in P. apply (q_cancel_l _ _ _ P).
Qed.
Lemma sector_bounded_chain : forall q lam ts, sector_bounded G q0 qadd ch N ws ds q lam -> chain ts -> in_sector q (amp N ts) -> (lam * fst (sq_norm N ts) <= fst (energy_val N ws ts))%R.
Proof.
  intros q lam ts HB HC HI. rewrite <- (weight_norm N ws ds ts HC). eapply Rle_trans; [apply (HB _ HI)|]. right. f_equal. unfold ConserveSpec.energy_val, EffHamSpec.energy. destruct HC as [_ HD]. rewrite HD. reflexivity.
Qed.

Section Two.
Variables (ts : nat -> cg) (bt : nat -> nat -> G) (q : G) (l D0 p1 D p2 D3 : nat).
Hypothesis HC : chain ts.
Hypothesis HB : blocks bt q ts.
Hypothesis Hl : l + 1 < N.
Hypothesis E1 : cgd (ts l) = [D0; p1; D].
Hypothesis E2 : cgd (ts (l + 1)) = [D; p2; D3].
Notation tl := (sites l (fun i => cten_of (ts i))). Notation tr := (map (fun i => cten_of (ts i)) (seq (l + 2) (N - (l + 2)))).
Notation wl := (sites l (fun i => csite_of (ws i))). Notation wr := (map (fun i => csite_of (ws i)) (seq (l + 2) (N - (l + 2)))).
Definition lab4 (k : list nat) : Prop := forall a s t b, k = [a; s; t; b] -> a < D0 -> s < p1 -> t < p2 -> b < D3 -> bt l a +q ch l s +q ch (l + 1) t = bt (l + 2) b.
Lemma lab4_within : forall v, within lab4 v <-> labelled4 (bt l) l (bt (l + 2)) (mkG cx [D0; p1; p2; D3] v).
Proof.
  intros v. split.
  - intros H a s t b Ha Hs Ht Hb HN. cbn [gd nth] in *. apply (H [a; s; t; b] HN a s t b eq_refl); auto.
  - intros H k HN a s t b -> Ha Hs Ht Hb. apply (H a s t b); auto.
Qed.
Lemma two_fit : fit cx 1 tl D0 /\ fit cx D3 tr 1.
Proof. destruct (cut2_at N ws ds ts l HC Hl) as [? [? [? [? [? [G1 [G2 [_ [F1 F3]]]]]]]]]. rewrite E1 in G1. injection G1 as <- <- <-. rewrite E2 in G2. injection G2 as <- <-. auto. Qed.
Lemma tl_label : forall cl a, In cl (configs (map (@d1 cx) tl)) -> mps_mat cx c0 c1 cadd cmul tl cl 0 a <> c0 -> bt 0 0 +q total 0 cl = bt l a.
Proof. intros cl a Ic HN. destruct two_fit as [F1 _]. refine (mps_label ts bt l 0 1 D0 cl 0 a F1 ltac:(lia) _ Ic HN). intros j Hj. apply HB. lia. Qed.
Lemma tr_label : forall cr b, b < D3 -> In cr (configs (map (@d1 cx) tr)) -> mps_mat cx c0 c1 cadd cmul tr cr b 0 <> c0 -> bt (l + 2) b +q total (l + 2) cr = bt 0 0 +q q.
Proof.
  intros cr b Hb Ic HN. destruct two_fit as [_ F3]. destruct HB as [HB1 HB2]. rewrite HB2. replace N with (l + 2 + (N - (l + 2))) at 1 by lia. refine (mps_label ts bt _ (l + 2) D3 1 cr b 0 F3 Hb _ Ic HN). intros j Hj. apply HB1. lia.
Qed.
Lemma cl_len : forall cl, In cl (configs (map (@d1 cx) tl)) -> length cl = l.
Proof. intros cl Ic. apply EffHamFacts.configs_len in Ic. rewrite Ic. unfold sites. rewrite !map_length, seq_length. reflexivity. Qed.
Lemma total_mid : forall cl s1 s2 cr, length cl = l -> total 0 (cl ++ [s1; s2] ++ cr) = total 0 cl +q ch l s1 +q ch (l + 1) s2 +q total (l + 2) cr.
Proof. intros cl s1 s2 cr E. rewrite total_app, E. cbn [Nat.add app SectorSpec.total]. rewrite !q_assoc. replace (S l) with (l + 1) by lia. replace (S (l + 1)) with (l + 2) by lia. reflexivity. Qed.
Lemma whole_sector : forall v cl s1 s2 cr, within lab4 v -> In cl (configs (map (@d1 cx) tl)) -> s1 < p1 -> s2 < p2 -> In cr (configs (map (@d1 cx) tr)) ->
  whole cx c0 c1 cadd cmul tl tr D0 D3 (e4 v) cl s1 s2 cr <> c0 -> total 0 (cl ++ [s1; s2] ++ cr) = q.
Proof.
  intros v cl s1 s2 cr HV I1 H1 H2 I2 HN. unfold whole in HN. destruct (csum_nz _ _ HN) as [a [Ha HNa]]. destruct (csum_nz _ _ HNa) as [b [Hb HNb]]. destruct (mul_nz _ _ HNb) as [HNc N3]. destruct (mul_nz _ _ HNc) as [N1 N2].
  pose proof (tl_label cl a I1 N1) as A. pose proof (tr_label cr b Hb I2 N3) as B. pose proof (HV _ N2 a s1 s2 b eq_refl Ha H1 H2 Hb) as C.
  rewrite (total_mid cl s1 s2 cr (cl_len cl I1)). apply (q_cancel_l (bt 0 0)). rewrite !q_assoc, A, C, B. reflexivity.
Qed.
Hypothesis HCons : conserving.
Lemma projected_sector : forall v a' s1' s2' b', within lab4 v -> a' < D0 -> s1' < p1 -> s2' < p2 -> b' < D3 ->
  projected cx c0 c1 cadd cmul cconj tl tr wl (csite_of (ws l)) (csite_of (ws (l + 1))) wr D0 p1 p2 D3 (e4 v) a' s1' s2' b' <> c0 -> bt l a' +q ch l s1' +q ch (l + 1) s2' = bt (l + 2) b'.
Proof.
  intros v a' s1' s2' b' HV Ha H1 H2 Hb HN. unfold projected in HN.
  destruct (lsum_nz _ _ _ HN) as [cl' [I1' HN1]]. destruct (lsum_nz _ _ _ HN1) as [cr' [I2' HN2]]. clear HN HN1. destruct (mul_nz _ _ HN2) as [HN3 HN4]. destruct (mul_nz _ _ HN3) as [N1 N2]. apply conj_nz in N1, N2.
  destruct (lsum_nz _ _ _ HN4) as [cl [I1 HN5]]. destruct (csum_nz _ _ HN5) as [s1 [Hs1 HN6]]. destruct (csum_nz _ _ HN6) as [s2 [Hs2 HN7]]. destruct (lsum_nz _ _ _ HN7) as [cr [I2 HN8]]. destruct (mul_nz _ _ HN8) as [N5 N6].
  clear HN2 HN3 HN4 HN5 HN6 HN7 HN8.
  pose proof (whole_sector v cl s1 s2 cr HV I1 Hs1 Hs2 I2 N6) as W.
  assert (WS : map csite_of (sites N ws) = wl ++ [csite_of (ws l); csite_of (ws (l + 1))] ++ wr) by (unfold sites at 1; rewrite map_map; apply (sites_mid N _ (fun i => csite_of (ws i)) l Hl)).
  assert (TS : map cten_of (sites N ts) = tl ++ [cten_of (ts l); cten_of (ts (l + 1))] ++ tr) by (unfold sites at 1; rewrite map_map; apply (sites_mid N _ (fun i => cten_of (ts i)) l Hl)).
  destruct (ten_dims cx _ _ _ _ E1) as [A0 [A1 A2]]. destruct (ten_dims cx _ _ _ _ E2) as [B0 [B1 B2]].
  assert (DS : ds = map (@d1 cx) tl ++ [p1; p2] ++ map (@d1 cx) tr) by (rewrite <- (proj2 HC), TS, !map_app; cbn [map]; rewrite A1, B1; reflexivity).
  assert (T : total 0 (cl ++ [s1; s2] ++ cr) = total 0 (cl' ++ [s1'; s2'] ++ cr')).
  { apply HCons; [rewrite DS; apply (in_over cx tl tr p1 p2); auto|rewrite DS; apply (in_over cx tl tr p1 p2); auto|rewrite WS; exact N5]. }
  pose proof (tl_label cl' a' I1' N1) as A. pose proof (tr_label cr' b' Hb I2' N2) as B. rewrite W in T. rewrite (total_mid cl' s1' s2' cr' (cl_len cl' I1')) in T.
  apply (q_cancel_r (total (l + 2) cr')). rewrite B, T, !q_assoc, A. reflexivity.
Qed.
(** the product of the solver *)
Lemma h_two_within : forall el er v, lenvs_from cx c0 cadd cmul cconj (trivial_env cx c0 c1 1 1) (sites l ts) (sites l ws) = Ok el ->
  renvs_from cx c0 cadd cmul cconj (trivial_env cx c0 c1 1 1) (map ts (seq (l + 2) (N - (l + 2)))) (map ws (seq (l + 2) (N - (l + 2)))) = Ok er ->
  within lab4 v -> within lab4 (h_two ws l el er [D0; p1; p2; D3] v).
Proof.
  intros el er v L1 R1 HV k HN a s t b -> Ha Hs Ht Hb.
  destruct (cut2_at N ws ds ts l HC Hl) as [? [? [? [? [? [G1 [G2 [HCut _]]]]]]]]. rewrite E1 in G1. injection G1 as <- <- <-. rewrite E2 in G2. injection G2 as <- <-.
  destruct (mul2_projected cx c0 c1 cadd cmul csub copp cx_ring cconj cconj0 cconj1 cconj_add cconj_mul _ _ _ _ _ _ _ _ _ _ HCut) as [el' [er' [L1' [R1' MP]]]].
  rewrite L1 in L1'. injection L1' as <-. rewrite R1 in R1'. injection R1' as <-.
  destruct (MP (mkG cx [D0; p1; p2; D3] v) eq_refl) as [y [Y1 [_ Y2]]]. unfold h_two in HN. rewrite Y1, Y2 in HN by auto. unfold sites in HN. rewrite !map_map in HN.
  apply (projected_sector v a s t b HV Ha Hs Ht Hb). exact HN.
Qed.
End Two.
(** the chain of two sites put together *)
Lemma pair_within : forall ts bt q l D0 p1 D p2 D3 x, blocks bt q ts -> l + 1 < N -> cgd (ts l) = [D0; p1; D] -> cgd (ts (l + 1)) = [D; p2; D3] ->
  gcontract cx c0 cadd cmul [2] [0] (ts l) (ts (l + 1)) = Ok x -> within (lab4 bt l D0 p1 p2 D3) (cge x).
Proof.
  intros ts bt q l D0 p1 D p2 D3 x [HB _] Hl E1 E2 X k HN a s t b -> Ha Hs Ht Hb. destruct (pair_ok cx c0 cadd cmul _ _ _ _ _ _ _ E1 E2) as [x' [X1 [_ X3]]]. rewrite X in X1. injection X1 as <-.
  specialize (X3 a s t b). unfold elems4 in X3. rewrite X3 in HN. unfold two_site in HN. destruct (csum_nz _ _ HN) as [m [Hm NZ]]. destruct (mul_nz _ _ NZ) as [N1 N2]. cbn [Legs.ten_of d2 el] in *. rewrite E1 in Hm. cbn [nth] in Hm.
  rewrite (HB l ltac:(lia) a s m); [|rewrite E1; exact Ha|rewrite E1; exact Hs|rewrite E1; exact Hm|exact N1].
  rewrite (HB (l + 1) Hl m t b); [f_equal; lia|rewrite E2; exact Hm|rewrite E2; exact Ht|rewrite E2; exact Hb|exact N2].
Qed.
(** the two factors *)
Lemma split_labels : forall svd (rt : bool) bl i br x y m m' a b D0 p1 p2 D3, cgd x = [D0; p1; p2; D3] -> factors cx c0 cadd cmul svd 2 x y -> keeps_labels G qadd ch svd bl i br x m m' ->
  split2 cx c0 cadd cmul svd rt x = Ok (a, b) -> let mm := if rt then m else m' in labelled3 bl i mm a /\ labelled3 mm (i + 1) br b.
Proof.
  intros svd rt bl i br x y m m' a b D0 p1 p2 D3 Ex [_ HF] HK HS. unfold keeps_labels in HK. unfold split2 in HS. destruct (svd 2 x) as [[u s] vt]. destruct HF as [K [L [U1 [U2 [U3 _]]]]]. rewrite Ex in U1, U3. cbn [firstn skipn app] in U1, U3.
  destruct HK as [K1 [K2 K3]]. destruct u as [? u], s as [? s], vt as [? vt]. cbn in U1, U2, U3. subst. destruct rt; cbv zeta.
  - assert (P : exists b', gcontract cx c0 cadd cmul [1] [0] (mkG cx [K; L] s) (mkG cx [L; p2; D3] vt) = Ok b' /\ cgd b' = [K; p2; D3] /\ forall i j k, cge b' [i; j; k] = csum L (fun n => cmul (s [i; n]) (vt [n; j; k]))).
    { eexists. split; [legs; reflexivity|]. split; [reflexivity|]. intros. legs. reflexivity. }
    destruct P as [b' [P1 [P2 P3]]]. rewrite P1 in HS. cbn [bind] in HS. injection HS as <- <-. split; [exact K1|]. intros k t c Hk Ht Hc HN. rewrite P2 in Hk, Ht, Hc. cbn [nth] in *. rewrite P3 in HN.
    destruct (csum_nz _ _ HN) as [n [Hn NZ]]. destruct (mul_nz _ _ NZ) as [N1 N2]. rewrite (K3 k n Hk Hn N1). apply (K2 n t c); auto.
  - assert (P : exists a', gcontract cx c0 cadd cmul [2] [0] (mkG cx [D0; p1; K] u) (mkG cx [K; L] s) = Ok a' /\ cgd a' = [D0; p1; L] /\ forall i j k, cge a' [i; j; k] = csum K (fun n => cmul (u [i; j; n]) (s [n; k]))).
    { eexists. split; [legs; reflexivity|]. split; [reflexivity|]. intros. legs. reflexivity. }
    destruct P as [a' [P1 [P2 P3]]]. rewrite P1 in HS. cbn [bind] in HS. injection HS as <- <-. split; [|exact K2]. intros c t k Hc Ht Hk HN. rewrite P2 in Hk, Ht, Hc. cbn [nth] in *. rewrite P3 in HN.
    destruct (csum_nz _ _ HN) as [n [Hn NZ]]. destruct (mul_nz _ _ NZ) as [N1 N2]. rewrite <- (K3 n k Hn Hk N2). apply (K1 c t n); auto.
Qed.
Lemma blocks_set : forall bt q ts l a b mm, l + 1 < N -> blocks bt q ts -> labelled3 (bt l) l mm a -> labelled3 mm (l + 1) (bt (l + 2)) b -> blocks (fset bt (l + 1) mm) q (fset (fset ts l a) (l + 1) b).
Proof.
  intros bt q ts l a b mm Hl [HB HQ] HA Hb. split.
  - intros i Hi. destruct (Nat.eq_dec i l) as [->|N1]; [|destruct (Nat.eq_dec i (l + 1)) as [->|N2]].
    + unfold fset. replace (l =? l + 1) with false by (symmetry; apply Nat.eqb_neq; lia). rewrite !Nat.eqb_refl. exact HA.
    + unfold fset. rewrite Nat.eqb_refl. replace (l + 1 + 1 =? l + 1) with false by (symmetry; apply Nat.eqb_neq; lia). replace (l + 1 + 1) with (l + 2) by lia. exact Hb.
    + unfold fset. replace (i =? l + 1) with false by (symmetry; apply Nat.eqb_neq; lia). replace (i =? l) with false by (symmetry; apply Nat.eqb_neq; lia). replace (i + 1 =? l + 1) with false by (symmetry; apply Nat.eqb_neq; lia). apply HB. exact Hi.
  - unfold fset. replace (0 =? l + 1) with false by (symmetry; apply Nat.eqb_neq; lia). replace (N =? l + 1) with false by (symmetry; apply Nat.eqb_neq; lia). exact HQ.
Qed.

Section One.
Variables (ts : nat -> cg) (bt : nat -> nat -> G) (q : G) (j D0 p D2 : nat).
Hypothesis HC : chain ts.
Hypothesis HB : blocks bt q ts.
Hypothesis Hj : j < N.
Hypothesis E1 : cgd (ts j) = [D0; p; D2].
Hypothesis HCons : conserving.
Notation tl := (sites j (fun i => cten_of (ts i))). Notation tr := (map (fun i => cten_of (ts i)) (seq (j + 1) (N - 1 - j))).
Notation wl := (sites j (fun i => csite_of (ws i))). Notation wr := (map (fun i => csite_of (ws i)) (seq (j + 1) (N - 1 - j))).
Definition lab3 (k : list nat) : Prop := forall a s b, k = [a; s; b] -> a < D0 -> s < p -> b < D2 -> bt j a +q ch j s = bt (j + 1) b.
Lemma lab3_within : forall v, within lab3 v <-> labelled3 (bt j) j (bt (j + 1)) (mkG cx [D0; p; D2] v).
Proof.
  intros v. split.
  - intros H a s b Ha Hs Hb HN. cbn [gd nth] in *. apply (H [a; s; b] HN a s b eq_refl); auto.
  - intros H k HN a s b -> Ha Hs Hb. apply (H a s b); auto.
Qed.
Lemma one_fit : fit cx 1 tl D0 /\ fit cx D2 tr 1.
Proof. destruct (cut1_at N ws ds ts j HC Hj) as [? [? [? [G1 [_ [F1 F3]]]]]]. rewrite E1 in G1. injection G1 as <- <- <-. auto. Qed.
Lemma in_one : forall cl s cr, In cl (configs (map (@d1 cx) tl)) -> s < p -> In cr (configs (map (@d1 cx) tr)) -> In (cl ++ [s] ++ cr) (configs (map (@d1 cx) tl ++ [p] ++ map (@d1 cx) tr)).
Proof.
  assert (A : forall ds ds' c c', In c (configs ds) -> In c' (configs ds') -> In (c ++ c') (configs (ds ++ ds'))).
  { induction ds0 as [|d ds0 IH]; intros ds' c c' I I'; cbn [configs app] in *; [destruct I as [<-|[]]; exact I'|]. apply in_flat_map in I. destruct I as [s [Is I]]. apply in_map_iff in I. destruct I as [c1 [<- I]].
    apply in_flat_map. exists s. split; [exact Is|]. cbn [app]. apply in_map. auto. }
  intros cl s cr I1 H1 I2. apply A; [exact I1|]. apply A; [|exact I2]. cbn [configs]. apply in_flat_map. exists s. split; [apply in_seq; lia|]. left. reflexivity.
Qed.
Lemma projected1_sector : forall v a' s' b', within lab3 v -> a' < D0 -> s' < p -> b' < D2 ->
  projected1 cx c0 c1 cadd cmul cconj tl tr wl (csite_of (ws j)) wr D0 p D2 (e3 v) a' s' b' <> c0 -> bt j a' +q ch j s' = bt (j + 1) b'.
Proof.
  intros v a' s' b' HV Ha Hs Hb HN. unfold projected1 in HN. destruct one_fit as [F1 F3]. destruct HB as [HB1 HB2].
  destruct (lsum_nz _ _ _ HN) as [cl' [I1' HN1]]. destruct (lsum_nz _ _ _ HN1) as [cr' [I2' HN2]]. clear HN HN1. destruct (mul_nz _ _ HN2) as [HN3 HN4]. destruct (mul_nz _ _ HN3) as [N1 N2]. apply conj_nz in N1, N2.
  destruct (lsum_nz _ _ _ HN4) as [cl [I1 HN5]]. destruct (csum_nz _ _ HN5) as [s [Hs1 HN6]]. destruct (lsum_nz _ _ _ HN6) as [cr [I2 HN8]]. destruct (mul_nz _ _ HN8) as [N5 N6]. clear HN2 HN3 HN4 HN5 HN6 HN8.
  unfold whole1 in N6. destruct (csum_nz _ _ N6) as [a [Ha1 HNa]]. destruct (csum_nz _ _ HNa) as [b [Hb1 HNb]]. destruct (mul_nz _ _ HNb) as [HNc M3]. destruct (mul_nz _ _ HNc) as [M1 M2].
  assert (TL : forall cl a, In cl (configs (map (@d1 cx) tl)) -> mps_mat cx c0 c1 cadd cmul tl cl 0 a <> c0 -> bt 0 0 +q total 0 cl = bt j a).
  { intros c z Ic HN. refine (mps_label ts bt j 0 1 D0 c 0 z F1 ltac:(lia) _ Ic HN). intros i Hi. apply HB1. lia. }
  assert (TR : forall cr b, b < D2 -> In cr (configs (map (@d1 cx) tr)) -> mps_mat cx c0 c1 cadd cmul tr cr b 0 <> c0 -> bt (j + 1) b +q total (j + 1) cr = bt 0 0 +q q).
  { intros c z Hz Ic HN. rewrite HB2. replace N with (j + 1 + (N - 1 - j)) at 1 by lia. refine (mps_label ts bt _ (j + 1) D2 1 c z 0 F3 Hz _ Ic HN). intros i Hi. apply HB1. lia. }
  assert (LN : forall c, In c (configs (map (@d1 cx) tl)) -> length c = j) by (intros c Ic; apply EffHamFacts.configs_len in Ic; rewrite Ic; unfold sites; rewrite !map_length, seq_length; reflexivity).
  assert (TM : forall cl s cr, length cl = j -> total 0 (cl ++ [s] ++ cr) = total 0 cl +q ch j s +q total (j + 1) cr).
  { intros c t c' E. rewrite total_app, E. cbn [Nat.add app SectorSpec.total]. rewrite !q_assoc. replace (S j) with (j + 1) by lia. reflexivity. }
  pose proof (HV _ M2 a s b eq_refl Ha1 Hs1 Hb1) as C.
  assert (W : total 0 (cl ++ [s] ++ cr) = q). { rewrite (TM _ _ _ (LN _ I1)). apply (q_cancel_l (bt 0 0)). rewrite !q_assoc, (TL cl a I1 M1), C. apply TR; auto. }
  assert (WS : map csite_of (sites N ws) = wl ++ [csite_of (ws j)] ++ wr) by (unfold sites at 1; rewrite map_map; apply (sites_one N _ (fun i => csite_of (ws i)) j Hj)).
  assert (TS : map cten_of (sites N ts) = tl ++ [cten_of (ts j)] ++ tr) by (unfold sites at 1; rewrite map_map; apply (sites_one N _ (fun i => cten_of (ts i)) j Hj)).
  destruct (ten_dims cx _ _ _ _ E1) as [A0 [A1 A2]].
  assert (DS : ds = map (@d1 cx) tl ++ [p] ++ map (@d1 cx) tr) by (rewrite <- (proj2 HC), TS, !map_app; cbn [map]; rewrite A1; reflexivity).
  assert (T : total 0 (cl ++ [s] ++ cr) = total 0 (cl' ++ [s'] ++ cr')).
  { apply HCons; [rewrite DS; apply in_one; auto|rewrite DS; apply in_one; auto|rewrite WS; exact N5]. }
  rewrite W, (TM _ _ _ (LN _ I1')) in T. apply (q_cancel_r (total (j + 1) cr')). rewrite (TR cr' b' Hb I2' N2), T, !q_assoc, (TL cl' a' I1' N1). reflexivity.
Qed.
Lemma h_one_within : forall el er v, lenvs_from cx c0 cadd cmul cconj (trivial_env cx c0 c1 1 1) (sites j ts) (sites j ws) = Ok el ->
  renvs_from cx c0 cadd cmul cconj (trivial_env cx c0 c1 1 1) (map ts (seq (j + 1) (N - 1 - j))) (map ws (seq (j + 1) (N - 1 - j))) = Ok er ->
  within lab3 v -> within lab3 (h_one ws j el er [D0; p; D2] v).
Proof.
  intros el er v L1 R1 HV k HN a s b -> Ha Hs Hb.
  destruct (cut1_at N ws ds ts j HC Hj) as [? [? [? [G1 [HCut _]]]]]. rewrite E1 in G1. injection G1 as <- <- <-.
  destruct (mul1_projected cx c0 c1 cadd cmul csub copp cx_ring cconj cconj0 cconj1 cconj_add cconj_mul _ _ _ _ _ _ _ _ HCut) as [el' [er' [L1' [R1' MP]]]].
  rewrite L1 in L1'. injection L1' as <-. rewrite R1 in R1'. injection R1' as <-.
  destruct (MP (mkG cx [D0; p; D2] v) eq_refl) as [y [Y1 [_ Y2]]]. unfold h_one in HN. rewrite Y1, Y2 in HN by auto. unfold sites in HN. rewrite !map_map in HN.
  apply (projected1_sector v a s b HV Ha Hs Hb). exact HN.
Qed.
End One.
End Chain.
End Labels.
