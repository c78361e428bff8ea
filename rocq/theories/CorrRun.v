(** The record of a TDVP run: every entry is a correlation of the initial state with the state that the run evolves. *)
From Coq Require Import List Arith Bool Lia QArith Qreals Reals Lra Ring_theory.
From Verif Require Import Base Disk SweepSpec NoiseSpec Tdvp TdvpSpec TdvpFacts TdvpRun FiniteMps FmpsSpec FmpsFacts EffHam EffHamSpec EffHamFacts ChainSpec ChainFacts Legs VmpsLocal VmpsSpec VmpsEnv VmpsHeff Lanczos LanczosSpec KrylovSpec Cx KrylovInst GVec GVecFacts DmrgStep ChainOne ChainPair ChainUpdate DmrgVarSpec DmrgVar ConserveSpec ConserveFacts ConserveRun ConserveVmps ConserveDisk CorrUpdate CorrSpec CorrFacts CorrChain.
Import ListNotations.
Local Open Scope nat_scope.

Section Gauge.
Variable N : nat.
Variable ws : nat -> cg.
Variable ds : list nat.
Notation chain := (chain N ws ds). Notation holds := (holds N). Notation center_at := (center_at N).
Lemma set_pair_amp : forall ts l a b D0 p1 D p2 D3, chain ts -> l + 1 < N -> cgd (ts l) = [D0; p1; D] -> cgd (ts (l + 1)) = [D; p2; D3] ->
  csplits D0 p1 p2 D3 (ctwo (cten_of (ts l)) (cten_of (ts (l + 1)))) (cten_of a) (cten_of b) ->
  forall c, In c (configs ds) -> amp N (fset (fset ts l a) (l + 1) b) c = amp N ts c.
Proof.
  intros ts l a b D0 p1 D p2 D3 HC Hl E1 E2 SP.
  destruct (ten_dims cx _ _ _ _ E1) as [A0 [A1 A2]]. destruct (ten_dims cx _ _ _ _ E2) as [B0 [B1 B2]].
  assert (HC' := HC). apply chain_iff in HC'. destruct HC' as [HS [HF [HW HD]]].
  rewrite (sites_mid N _ _ l Hl) in HF. apply fit_mid in HF. destruct HF as [F1 [F2 F3]]. rewrite A0 in F1. rewrite B2 in F3.
  set (tl := sites l (fun i => cten_of (ts i))) in *. set (tr := map (fun i => cten_of (ts i)) (seq (l + 2) (N - (l + 2)))) in *.
  assert (TS : map cten_of (sites N ts) = tl ++ [cten_of (ts l); cten_of (ts (l + 1))] ++ tr) by (unfold sites at 1; rewrite map_map; apply (sites_mid N _ (fun i => cten_of (ts i)) l Hl)).
  assert (TS' : map cten_of (sites N (fset (fset ts l a) (l + 1) b)) = tl ++ [cten_of a; cten_of b] ++ tr).
  { rewrite (sites_set N _ _ _ _ _ Hl), !map_app. cbn [map]. unfold sites. rewrite !map_map. reflexivity. }
  assert (SM : csame (map cten_of (sites N ts)) (map cten_of (sites N (fset (fset ts l a) (l + 1) b)))).
  { rewrite TS, TS'. apply (splits_same cx c0 c1 cadd cmul csub copp cx_ring); [rewrite A0; exact F1|congruence|]. rewrite A0, A1, B1, B2. exact SP. }
  intros c Ic. unfold amp. apply (proj2 SM). destruct HC as [_ HD']. rewrite HD'. exact Ic.
Qed.
Variable qr : nat -> cg -> cg * cg.
Hypothesis EQ : exact_qr qr.
Lemma center0_amp : forall c rs ts, c < N -> holds rs ts -> chain ts -> (forall i, c < i < N -> cright (cten_of (ts i))) ->
  exists ts', holds (center0 (res cg) (t_rcano qr) c rs) ts' /\ chain ts' /\ center_at 0 ts' /\ forall k, In k (configs ds) -> amp N ts' k = amp N ts k.
Proof.
  induction c as [|c IH]; intros rs ts Hc HR HC HRi.
  - exists ts. cbn [center0]. repeat split; auto; try apply HC; intros; lia.
  - cbn [center0]. assert (Hl : c + 1 < N) by lia. destruct (cut2_at N ws ds ts c HC Hl) as [D0 [p1 [D [p2 [D3 [E1 [E2 _]]]]]]].
    destruct (rcano_ok cx c0 c1 cadd cmul csub copp cx_ring cconj qr EQ _ _ _ _ _ _ _ E1 E2) as [a [b [K [RC [S2 [S3 [SP CB]]]]]]].
    destruct (set_pair N ws ds ts c a b _ _ _ _ _ _ HC Hl E1 E2 S2 S3 SP) as [C' _]. cbv zeta in *.
    assert (HR' : holds (let (x, y) := t_rcano qr (rs c) (rs (S c)) in fset (fset rs c x) (S c) y) (fset (fset ts c a) (c + 1) b)).
    { rewrite (HR c) by lia. rewrite (HR (S c)) by lia. unfold t_rcano. cbn [bind]. replace (S c) with (c + 1) by lia. unfold rcano in RC. rewrite RC. cbn [both]. apply set_holds. exact HR. }
    destruct (IH _ _ ltac:(lia) HR' C') as [t2 [B1 [B2 [B3 B4]]]].
    { intros i Hi. unfold fset. destruct (Nat.eqb_spec i (c + 1)); [exact CB|]. replace (i =? c) with false by (symmetry; apply Nat.eqb_neq; lia). apply HRi. lia. }
    exists t2. split; [exact B1|]. split; [exact B2|]. split; [exact B3|]. intros k Ik. rewrite B4 by exact Ik. apply (set_pair_amp ts c a b D0 p1 D p2 D3); auto.
Qed.
Lemma weight_norm : forall ts, chain ts -> weight ds (amp N ts) = sq_norm N ts.
Proof. intros ts [_ HD]. unfold weight, sq_norm, norm2. rewrite HD. reflexivity. Qed.
End Gauge.
Lemma weight_ext : forall ds f g, (forall c, In c (configs ds) -> f c = g c) -> weight ds f = weight ds g.
Proof. intros ds f g H. unfold weight. apply (lsum_ext cx c0 cadd). intros c Ic. rewrite H by exact Ic. reflexivity. Qed.
Lemma corr_ext : forall ds os f f' g g', (forall c, In c (configs ds) -> f c = f' c) -> (forall c, In c (configs ds) -> g c = g' c) -> ccorr ds os f g = ccorr ds os f' g'.
Proof.
  intros ds os f f' g g' Hf Hg. unfold corr. apply (lsum_ext cx c0 cadd). intros c Ic. rewrite Hf by exact Ic. f_equal. unfold applied. apply (lsum_ext cx c0 cadd). intros k Ik. rewrite Hg by exact Ik. reflexivity.
Qed.

(** *** Cauchy-Schwarz *)
Lemma ab2_pos : forall v, (0 <= ab2 v)%R.
Proof. intros v. unfold ab2. nra. Qed.
Lemma ab2_mul : forall a b, ab2 (cmul a b) = (ab2 a * ab2 b)%R.
Proof. intros [a a'] [b b']. unfold ab2, cmul. cbn [fst snd]. ring. Qed.
Lemma ab2_conj : forall a, ab2 (cconj a) = ab2 a.
Proof. intros [a a']. unfold ab2, cconj. cbn [fst snd]. ring. Qed.
Lemma self_ab2 : forall v, cmul (cconj v) v = cre (ab2 v).
Proof. intros [a b]. unfold cmul, cconj, cre, ab2. cbn [fst snd]. f_equal; ring. Qed.
Fixpoint rsum {A} (l : list A) (f : A -> real) : real := match l with [] => 0%R | x :: l => (f x + rsum l f)%R end.
Lemma rsum_pos : forall A (l : list A) f, (forall x, (0 <= f x)%R) -> (0 <= rsum l f)%R.
Proof. intros A l f H. induction l as [|x l IH]; cbn; [lra|]. pose proof (H x). lra. Qed.
Lemma weight_rsum : forall ds psi, weight ds psi = cre (rsum (configs ds) (fun c => ab2 (psi c))).
Proof.
  intros ds psi. unfold weight. induction (configs ds) as [|c l IH]; [reflexivity|]. cbn [lsum fold_right rsum]. unfold lsum in IH. rewrite IH, self_ab2. unfold cadd, cre. cbn [fst snd]. f_equal; ring.
Qed.
Lemma two_le : forall (x a b A B : real), (0 <= a -> 0 <= b -> 0 <= A -> 0 <= B -> x * x <= a * b * (A * B) -> x <= (a * B + b * A) / 2)%R.
Proof.
  intros x a b A B Ha Hb HA HB H. assert (P : (0 <= (a * B + b * A) / 2)%R) by nra. destruct (Rle_or_lt x 0) as [X|X]; [lra|].
  apply Rsqr_incr_0; [|lra|exact P]. unfold Rsqr. assert (Q : (0 <= (a * B - b * A) * (a * B - b * A))%R) by apply Rle_0_sqr. nra.
Qed.
Lemma schwarz : forall A (l : list A) (f g : A -> cx), (ab2 (lsum cx c0 cadd l (fun c => cmul (cconj (f c)) (g c))) <= rsum l (fun c => ab2 (f c)) * rsum l (fun c => ab2 (g c)))%R.
Proof.
  intros A l f g. induction l as [|c l IH]; [unfold ab2; cbn; lra|]. cbn [lsum fold_right rsum]. unfold lsum in IH.
  set (s := fold_right _ c0 l) in *. set (F := rsum l (fun c => ab2 (f c))) in *. set (G := rsum l (fun c => ab2 (g c))) in *.
  assert (PF : (0 <= F)%R) by (apply rsum_pos; intros; apply ab2_pos). assert (PG : (0 <= G)%R) by (apply rsum_pos; intros; apply ab2_pos).
  pose proof (ab2_mul (cconj (f c)) (g c)) as M. rewrite ab2_conj in M. set (q := cmul (cconj (f c)) (g c)) in *.
  pose proof (ab2_pos (f c)) as P1. pose proof (ab2_pos (g c)) as P2. set (a := ab2 (f c)) in *. set (b := ab2 (g c)) in *.
  assert (E : ab2 (cadd q s) = (ab2 q + ab2 s + 2 * (fst q * fst s + snd q * snd s))%R) by (destruct q as [q q'], s as [s s']; unfold ab2, cadd; cbn [fst snd]; ring).
  rewrite E, M. assert (X : ((fst q * fst s + snd q * snd s) <= (a * G + b * F) / 2)%R).
  { apply two_le; auto. apply Rle_trans with (ab2 q * ab2 s)%R.
    - destruct q as [q q'], s as [s s']. unfold ab2. cbn [fst snd]. assert (0 <= (q * s' - q' * s) * (q * s' - q' * s))%R by apply Rle_0_sqr. nra.
    - rewrite M. apply Rmult_le_compat_l; [nra|exact IH]. }
  nra.
Qed.
Lemma turned_ab2 : forall e0 t v, ab2 (turned e0 t v) = ab2 v.
Proof.
  intros e0 t v. unfold turned. rewrite ab2_mul. unfold ab2 at 2. cbn [fst snd]. pose proof (sin2_cos2 (e0 * Q2R t)) as H. unfold Rsqr in H.
  transitivity (ab2 v * (sin (e0 * Q2R t) * sin (e0 * Q2R t) + cos (e0 * Q2R t) * cos (e0 * Q2R t)))%R; [ring|]. rewrite H. ring.
Qed.
Lemma prod_adjoints : forall os c c', prod_op cx c0 c1 cmul (adjoints os) c' c = cconj (prod_op cx c0 c1 cmul os c c').
Proof.
  induction os as [|o os IH]; intros [|s c] [|s' c']; cbn -[cmul cconj c0 c1]; try (symmetry; apply cconj0); [symmetry; apply cconj1|]. unfold adjoints in IH. rewrite IH, cconj_mul. reflexivity.
Qed.
(** <phi| O psi> = <O^+ phi | psi> *)
Lemma corr_adjoint : forall ds os phi psi, ccorr ds os phi psi = lsum cx c0 cadd (configs ds) (fun c => cmul (cconj (capplied ds (adjoints os) phi c)) (psi c)).
Proof.
  intros ds os phi psi. unfold corr, applied.
  transitivity (lsum cx c0 cadd (configs ds) (fun c' => lsum cx c0 cadd (configs ds) (fun c => cmul (cmul (cconj (phi c')) (prod_op cx c0 c1 cmul os c c')) (psi c)))).
  - apply (lsum_ext cx c0 cadd). intros c' _. rewrite (lsum_mul_l cx c0 c1 cadd cmul csub copp cx_ring). apply (lsum_ext cx c0 cadd). intros c _. ring.
  - etransitivity; [apply (lsum_swap cx c0 c1 cadd cmul csub copp cx_ring)|]. apply (lsum_ext cx c0 cadd). intros c _. rewrite (lsum_conj cx c0 cadd cconj cconj0 cconj_add), (lsum_mul_r cx c0 c1 cadd cmul csub copp cx_ring).
    apply (lsum_ext cx c0 cadd). intros c' _. rewrite cconj_mul, prod_adjoints, cconj_conj. ring.
Qed.
Lemma corr_bound : forall ds os phi psi, (ab2 (ccorr ds os phi psi) <= fst (weight ds (capplied ds (adjoints os) phi)) * fst (weight ds psi))%R.
Proof. intros ds os phi psi. rewrite corr_adjoint, !weight_rsum. cbn [fst cre]. apply schwarz. Qed.

(** *** the run *)
Section Run.
Variable N : nat.
Variable ws : nat -> cg.
Variables (p : nat) (ds : list nat).
Hypothesis Hds : ds = repeat p N.
Variables (stev : list real -> list real -> list real * list real) (maxit : nat) (size : list nat -> nat) (svd : nat -> cg -> cg * cg * cg) (qr : nat -> cg -> cg * cg) (far : list cx -> list cx -> bool).
Hypothesis HH : hermitian_chain N ws ds.
Hypothesis ES : exact_gsvd svd.
Hypothesis EQ : exact_qr qr.
Hypothesis Hmax : 2 <= maxit.
Variables (dT dE dM : res cg) (canoL : res cg -> res cg -> res cg * res cg) (dbg : bool).
Variables (op0 : cg) (str0 : option cg) (op1 : cg) (str1 : option cg) (e0 : real).
Hypotheses (Hop0 : square p op0) (Hstr0 : match str0 with Some g => square p g | None => True end) (Hop1 : square p op1) (Hstr1 : match str1 with Some g => square p g | None => True end).
Notation evo := (t_evo ws stev maxit size svd far). Notation back := (t_back ws stev maxit size far).
Notation run := (tdvp_run (res cg) (res cg) (res cg) (res cx) dT dE dM w_triv (w_grow ws) canoL (t_rcano qr) evo back dbg (t_act op0) (option_map t_act str0) m_triv m_triv m_right (m_left str1) (m_val op1) (m_phase e0)).
Notation after := (after (res cg) (res cg) w_triv (w_grow ws) evo back N).
Notation prepared site rs := (center0 (res cg) (t_rcano qr) site (acted (res cg) (t_act op0) (option_map t_act str0) site rs)).
Notation O0 := (fun site => cstring N (str_of str0) (op_of op0) site). Notation O1 := (fun i => cstring N (str_of str1) (op_of op1) i).

Lemma states_ok : forall site tau n rs ts, 3 <= N -> site < N -> holds N rs ts -> chain N ws ds ts -> (forall i, site < i < N -> cright (cten_of (ts i))) ->
  weight ds (capplied ds (O0 site) (amp N ts)) <> c0 -> steps_lapack N ws stev maxit size svd far tau n (prepared site rs) ->
  forall k, k <= n -> exists tk, holds N (after tau k (prepared site rs)) tk /\ chain N ws ds tk /\ weight ds (amp N tk) = weight ds (capplied ds (O0 site) (amp N ts)) /\
  (k = 0 -> forall c, In c (configs ds) -> amp N tk c = capplied ds (O0 site) (amp N ts) c).
Proof.
  intros site tau n rs ts H3 Hs HR HC HRi NZ LA k Hk.
  destruct (acted_ok N ws p ds Hds op0 str0 Hop0 Hstr0 site rs ts Hs HR HC) as [ta [A1 [A2 [A3 A4]]]].
  assert (HRa : forall i, site < i < N -> cright (cten_of (ta i))) by (intros i Hi; rewrite A3 by exact Hi; apply HRi; exact Hi).
  assert (Wa : weight ds (capplied ds (O0 site) (amp N ts)) = sq_norm N ta) by (rewrite <- (weight_norm N ws ds ta A2); symmetry; apply weight_ext; exact A4).
  destruct k as [|k].
  - destruct (center0_amp N ws ds qr EQ site _ ta Hs A1 A2 HRa) as [t0 [B1 [B2 [_ B3]]]]. exists t0. split; [exact B1|]. split; [exact B2|].
    assert (B4 : forall c, In c (configs ds) -> amp N t0 c = capplied ds (O0 site) (amp N ts) c) by (intros c Ic; rewrite B3, A4 by exact Ic; reflexivity).
    split; [apply weight_ext; exact B4|]. intros _. exact B4.
  - destruct (steps_ok N ws ds HH stev maxit size svd qr far ES EQ Hmax (t_act op0) (option_map t_act str0) site tau n rs ta H3 Hs A1 A2 HRa ltac:(congruence) LA (S k) Hk) as [tk [B1 [B2 [B3 _]]]].
    exists tk. split; [exact B1|]. split; [exact B2|]. split; [rewrite (weight_norm N ws ds tk B2); congruence|discriminate].
Qed.
Lemma record_ok : forall site steps tau ini t0 mf rs ts w, 3 <= N -> site < N -> idle (res cg) (res cg) N rs w -> holds N rs ts -> chain N ws ds ts -> (forall i, site < i < N -> cright (cten_of (ts i))) ->
  (match ini with Some f => (forall i, i < N -> f i = Some (Ok (t0 i))) /\ chain N ws ds t0 | None => t0 = ts end) ->
  weight ds (capplied ds (O0 site) (amp N ts)) <> c0 -> steps_lapack N ws stev maxit size svd far tau steps (prepared site rs) ->
  exists r w' (psi : nat -> nat -> cg), run true site steps tau ini mf w = Ok (r, w') /\ length r = N * (steps + 1) /\
  (forall c, In c (configs ds) -> amp N (psi 0) c = capplied ds (O0 site) (amp N ts) c) /\
  (forall k, k <= steps -> holds N (after tau k (prepared site rs)) (psi k) /\ chain N ws ds (psi k) /\ weight ds (amp N (psi k)) = weight ds (amp N (psi 0))) /\
  (forall i, i < N -> dm (res cg) (res cg) unit w' i = Some (Ok (psi steps i))) /\
  (forall k i, k <= steps -> i < N -> nth_error r (k * N + i) = Some (Some (mkE (res cx) site i (e_time_of tau k) (Some (Ok (turned e0 (e_time_of tau k) (ccorr ds (O1 i) (amp N t0) (amp N (psi k))))))))).
Proof.
  intros site steps tau ini t0 mf rs ts w H3 Hs HI HR HC HRi Hini NZ LA.
  assert (X : exists rs0, holds N rs0 t0 /\ chain N ws ds t0 /\ match ini with Some f => forall i, i < N -> f i = Some (rs0 i) | None => rs0 = rs end).
  { destruct ini as [f|]; [exists (fun i => Ok (t0 i)); split; [intros i _; reflexivity|]; destruct Hini; auto|]. subst t0. exists rs. auto. }
  destruct X as [rs0 [I1 [I2 I3]]].
  destruct (TdvpRun.run_ok (res cg) (res cg) (res cg) (res cx) dT dE dM w_triv (w_grow ws) canoL (t_rcano qr) evo back dbg (t_act op0) (option_map t_act str0) m_triv m_triv m_right (m_left str1) (m_val op1) (m_phase e0) N site steps tau ini rs0 mf rs w H3 Hs HI I3) as [r [w' [R1 [R2 [R3 R4]]]]].
  pose proof (states_ok site tau steps rs ts H3 Hs HR HC HRi NZ LA) as ST.
  set (psi := fun k i => match after tau k (prepared site rs) i with Ok t => t | _ => ts i end).
  assert (PS : forall k, k <= steps -> holds N (after tau k (prepared site rs)) (psi k) /\ chain N ws ds (psi k) /\ weight ds (amp N (psi k)) = weight ds (capplied ds (O0 site) (amp N ts)) /\ (k = 0 -> forall c, In c (configs ds) -> amp N (psi k) c = capplied ds (O0 site) (amp N ts) c)).
  { intros k Hk. destruct (ST k Hk) as [tk [A1 A2]]. assert (E : forall i, i < N -> tk i = psi k i) by (intros i Hi; unfold psi; rewrite (A1 i Hi); reflexivity).
    assert (ES' : sites N (psi k) = sites N tk) by (unfold sites; apply map_ext_in; intros i Hi; apply in_seq in Hi; symmetry; apply E; lia).
    unfold amp, ConserveSpec.chain in *. rewrite ES'. split; [|exact A2]. intros i Hi. rewrite <- E by exact Hi. apply A1. exact Hi. }
  exists r, w', psi. split; [exact R1|]. split; [exact R2|]. split; [apply (PS 0 ltac:(lia)); reflexivity|]. split; [|split].
  - intros k Hk. destruct (PS k Hk) as [A1 [A2 [A3 _]]]. split; [exact A1|]. split; [exact A2|]. rewrite A3. symmetry. apply (PS 0). lia.
  - intros i Hi. pose proof (tr_dm _ _ _ _ _ _ _ R3 i Hi) as D. rewrite D. f_equal. apply (PS steps (le_n _)). exact Hi.
  - intros k i Hk Hi. pose proof (R4 k i Hk Hi) as R5. cbn [fst] in R5. unfold TdvpRun.prepared in R5. cbv iota in R5. rewrite R5. clear R5. destruct (PS k Hk) as [A1 [A2 _]].
    rewrite (overlap_ok N ws p ds Hds op1 str1 Hop1 Hstr1 _ rs0 (psi k) t0 A1 I1 A2 I2 i Hi). destruct k as [|k]; [|reflexivity]. cbn [e_val e_time_of]. do 5 f_equal. unfold turned. rewrite RMicromega.Q2R_0, Rmult_0_r, cos_0, sin_0. set (v := ccorr _ _ _ _). destruct v as [x y]. unfold cmul. cbn [fst snd]. f_equal; ring.
Qed.
Lemma record_bound_ok : forall site steps tau ini t0 mf rs ts w r w', 3 <= N -> site < N -> idle (res cg) (res cg) N rs w -> holds N rs ts -> chain N ws ds ts -> (forall i, site < i < N -> cright (cten_of (ts i))) ->
  (match ini with Some f => (forall i, i < N -> f i = Some (Ok (t0 i))) /\ chain N ws ds t0 | None => t0 = ts end) ->
  weight ds (capplied ds (O0 site) (amp N ts)) <> c0 -> steps_lapack N ws stev maxit size svd far tau steps (prepared site rs) ->
  run true site steps tau ini mf w = Ok (r, w') -> forall k i, k <= steps -> i < N -> exists v, nth_error r (k * N + i) = Some (Some (mkE (res cx) site i (e_time_of tau k) (Some (Ok v)))) /\
  (ab2 v <= fst (weight ds (capplied ds (adjoints (O1 i)) (amp N t0))) * fst (weight ds (capplied ds (O0 site) (amp N ts))))%R.
Proof.
  intros site steps tau ini t0 mf rs ts w r w' H3 Hs HI HR HC HRi Hini NZ LA HRun k i Hk Hi.
  destruct (record_ok site steps tau ini t0 mf rs ts w H3 Hs HI HR HC HRi Hini NZ LA) as [r2 [w2 [psi [R1 [R2 [R3 [R4 [R5 R6]]]]]]]].
  rewrite HRun in R1. injection R1 as <- <-. eexists. split; [apply (R6 k i Hk Hi)|]. rewrite turned_ab2. eapply Rle_trans; [apply corr_bound|]. right. f_equal. rewrite (proj2 (proj2 (R4 k Hk))). f_equal. apply weight_ext. exact R3.
Qed.
End Run.
