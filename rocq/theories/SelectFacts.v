(** Selection rules: operators with a charge on chains and on amplitudes, the record of a TDVP run with truncation. *)
From Coq Require Import List Arith Bool Lia QArith Qreals Reals Lra Ring_theory.
From Verif Require Import Base Disk SweepSpec NoiseSpec Tdvp TdvpSpec TdvpFacts TdvpRun FiniteMps FmpsSpec FmpsFacts EffHam EffHamSpec EffHamFacts ChainSpec ChainFacts Legs VmpsLocal VmpsSpec VmpsEnv VmpsHeff Lanczos LanczosSpec KrylovSpec Cx KrylovInst GVec GVecFacts DmrgStep ChainOne ChainPair ChainUpdate DmrgVarSpec DmrgVar ConserveSpec ConserveFacts ConserveRun ConserveVmps ConserveDisk CorrUpdate CorrSpec CorrFacts CorrChain CorrRun TruncUpdate TruncSpec SectorSpec SectorFacts SectorRun SelectSpec.
Import ListNotations.
Local Open Scope nat_scope.

Section Amp.
Variables (G : Type) (q0 : G) (qadd : G -> G -> G) (qopp : G -> G).
Hypothesis QG : q_group q0 qadd qopp.
Hypothesis QC : forall a b, qadd a b = qadd b a.
Variable ch : nat -> nat -> G.
Variables (N p : nat) (ds : list nat).
Hypothesis Hds : ds = repeat p N.
Notation total := (total G q0 qadd ch). Notation in_sector := (in_sector G q0 qadd ch ds). Notation shifts := (shifts G qadd ch p). Notation neutral := (neutral G ch p).
Lemma q_swap : forall a b c, qadd (qadd a b) c = qadd (qadd a c) b.
Proof. intros a b c. rewrite <- !(qg_assoc _ _ _ QG), (QC b c). reflexivity. Qed.
Lemma string_shift : forall str op i dq, shifts i op dq -> neutral i str -> forall n j c c', In c (configs (repeat p n)) -> In c' (configs (repeat p n)) ->
  prod_op cx c0 c1 cmul (map (site_op cx c0 c1 str op i) (seq j n)) c c' <> c0 -> total j c' = qadd (total j c) (if (j <=? i) && (i <? j + n) then dq else q0).
Proof.
  intros str op i dq HO HS. induction n as [|n IH]; intros j c c' Ic Ic' HN.
  - cbn [repeat configs In] in Ic, Ic'. destruct Ic as [<-|[]]. destruct Ic' as [<-|[]]. replace ((j <=? i) && (i <? j + 0)) with false; [cbn [SectorSpec.total]; symmetry; apply (qg_r _ _ _ QG)|].
    symmetry. destruct (Nat.leb_spec j i); [|reflexivity]. cbn [andb]. apply Nat.ltb_ge. lia.
  - cbn [repeat configs] in Ic, Ic'. apply in_flat_map in Ic. destruct Ic as [s [Is Ic]]. apply in_map_iff in Ic. destruct Ic as [d [<- Id]]. apply in_flat_map in Ic'. destruct Ic' as [s' [Is' Ic']]. apply in_map_iff in Ic'. destruct Ic' as [d' [<- Id']].
    apply in_seq in Is. apply in_seq in Is'. cbn [seq map prod_op] in HN. destruct (mul_nz _ _ HN) as [N1 N2]. specialize (IH (Datatypes.S j) d d' Id Id' N2). cbn [SectorSpec.total]. rewrite IH. clear IH N2 HN Id Id'.
    unfold site_op in N1. destruct (Nat.eqb_spec j i) as [->|Nj].
    + rewrite (HO s s' ltac:(lia) ltac:(lia) N1). replace ((Datatypes.S i <=? i) && (i <? Datatypes.S i + n)) with false by (symmetry; replace (Datatypes.S i <=? i) with false by (symmetry; apply Nat.leb_gt; lia); reflexivity).
      replace ((i <=? i) && (i <? i + Datatypes.S n)) with true by (symmetry; rewrite Nat.leb_refl; apply Nat.ltb_lt; lia). rewrite (qg_r _ _ _ QG). apply q_swap.
    + assert (ES : ch j s' = ch j s).
      { destruct (Nat.ltb_spec j i) as [Lj|Lj].
        - destruct str as [g|]; [apply (HS j s s'); auto; lia|]. unfold delta in N1. destruct (Nat.eqb_spec s s') as [->|]; [reflexivity|congruence].
        - unfold delta in N1. destruct (Nat.eqb_spec s s') as [->|]; [reflexivity|congruence]. }
      rewrite ES, (qg_assoc _ _ _ QG). f_equal. replace (Datatypes.S j + n) with (j + Datatypes.S n) by lia.
      replace (Datatypes.S j <=? i) with (j <=? i); [reflexivity|]. destruct (Nat.leb_spec j i), (Nat.leb_spec (Datatypes.S j) i); try reflexivity; lia.
Qed.
Lemma op_total : forall str op i dq c c', i < N -> shifts i op dq -> neutral i str -> In c (configs ds) -> In c' (configs ds) -> prod_op cx c0 c1 cmul (cstring N str op i) c c' <> c0 -> total 0 c' = qadd (total 0 c) dq.
Proof.
  intros str op i dq c c' Hi HO HS Ic Ic' HN. rewrite Hds in Ic, Ic'. rewrite (string_shift str op i dq HO HS N 0 c c' Ic Ic' HN). f_equal. cbn [Nat.leb andb Nat.add]. replace (i <? N) with true by (symmetry; apply Nat.ltb_lt; exact Hi). reflexivity.
Qed.
Lemma applied_sector : forall str op i dq q psi, i < N -> shifts i op dq -> neutral i str -> in_sector q psi -> in_sector (qadd q dq) (capplied ds (cstring N str op i) psi).
Proof.
  intros str op i dq q psi Hi HO HS HP c' Ic' HN. unfold applied in HN. destruct (lsum_nz _ _ _ HN) as [c [Ic NZ]]. destruct (mul_nz _ _ NZ) as [N1 N2]. rewrite (op_total str op i dq c c' Hi HO HS Ic Ic' N1). f_equal. apply HP; auto.
Qed.
Lemma corr_zero : forall str op i dq qa qb phi psi, i < N -> shifts i op dq -> neutral i str -> in_sector qa phi -> in_sector qb psi -> qadd qb dq <> qa -> ccorr ds (cstring N str op i) phi psi = c0.
Proof.
  intros str op i dq qa qb phi psi Hi HO HS HA HB NE. destruct (cx_dec (ccorr ds (cstring N str op i) phi psi)) as [E|HN]; [exact E|]. exfalso. apply NE. unfold corr in HN.
  destruct (lsum_nz _ _ _ HN) as [c [Ic NZ]]. destruct (mul_nz _ _ NZ) as [N1 N2]. apply conj_nz in N1. rewrite <- (applied_sector str op i dq qb psi Hi HO HS HB c Ic N2). apply HA; auto.
Qed.
End Amp.

Section Act.
Variables (G : Type) (q0 : G) (qadd : G -> G -> G) (qopp : G -> G).
Hypothesis QG : q_group q0 qadd qopp.
Hypothesis QC : forall a b, qadd a b = qadd b a.
Variable ch : nat -> nat -> G.
Variable N : nat.
Variable ws : nat -> cg.
Variables (p : nat) (ds : list nat).
Hypothesis Hds : ds = repeat p N.
Variables (op : cg) (str : option cg).
Hypothesis Hop : square p op.
Hypothesis Hstr : match str with Some g => square p g | None => True end.
Notation acted := (acted (res cg) (t_act op) (option_map t_act str)).
Notation blocks := (blocks G qadd ch N).
Lemma acted_blocks : forall site dq rs ts ta bt q, site < N -> shifts G qadd ch p site (op_of op) dq -> neutral G ch p site (str_of str) -> holds N rs ts -> chain N ws ds ts -> holds N (acted site rs) ta -> blocks bt q ts ->
  exists bt', blocks bt' (qadd q dq) ta.
Proof.
  intros site dq rs ts ta bt q Hs HO HS HR HC HA [HB HQ]. exists (fun j x => if j <=? site then bt j x else qadd (bt j x) dq). split.
  - intros j Hj a s' b Ha Hs' Hb HN. destruct (acted_one N ws p ds Hds op str Hop Hstr site ts j HC Hj) as [t' [A1 [A2 [A3 A4]]]].
    assert (E : t' = ta j). { pose proof (HA j Hj) as H. unfold TdvpSpec.acted in H, A1. rewrite (HR j Hj) in H. rewrite A1 in H. congruence. }
    subst t'. destruct (chain_dim N ws p ds Hds ts j HC Hj) as [D [E' ED]]. rewrite A2, ED in Ha, Hs', Hb. cbn [nth] in Ha, Hs', Hb. pose proof (HB j Hj) as LB. unfold labelled3 in LB. rewrite ED in LB. cbn [nth] in LB.
    destruct (lt_dec site j) as [Lj|Lj].
    + rewrite (A4 Lj) in HN. replace (j <=? site) with false by (symmetry; apply Nat.leb_gt; lia). replace (j + 1 <=? site) with false by (symmetry; apply Nat.leb_gt; lia). rewrite <- (LB a s' b Ha Hs' Hb HN). apply (q_swap G q0 qadd qopp QG QC).
    + destruct A3 as [_ [_ A3]]. destruct (ten_dims cx _ _ _ _ ED) as [_ [X1 _]]. specialize (A3 a s' b). rewrite X1 in A3. specialize (A3 Hs'). cbn [Legs.ten_of el] in A3. rewrite A3 in HN. clear A3.
      destruct (lsum_nz _ _ _ HN) as [s [Is NZ]]. apply in_seq in Is. destruct (mul_nz _ _ NZ) as [N1 N2]. specialize (LB a s b Ha ltac:(lia) Hb N2).
      replace (j <=? site) with true by (symmetry; apply Nat.leb_le; lia). unfold site_op in N1. destruct (Nat.eqb_spec j site) as [->|Nj].
      * replace (site + 1 <=? site) with false by (symmetry; apply Nat.leb_gt; lia). rewrite (HO s s' ltac:(lia) Hs' N1), (qg_assoc _ _ _ QG), LB. reflexivity.
      * replace (j + 1 <=? site) with true by (symmetry; apply Nat.leb_le; lia). replace (j <? site) with true in N1 by (symmetry; apply Nat.ltb_lt; lia).
        rewrite <- LB. f_equal. unfold str_of in *. destruct str as [g|]; cbn [option_map] in *; [apply (HS j s s'); auto; lia|]. unfold delta in N1. destruct (Nat.eqb_spec s s') as [->|]; [reflexivity|congruence].
  - replace (0 <=? site) with true by reflexivity. replace (N <=? site) with false by (symmetry; apply Nat.leb_gt; lia). rewrite (qg_assoc _ _ _ QG), HQ. reflexivity.
Qed.
End Act.

Section Run.
Variables (G : Type) (q0 : G) (qadd : G -> G -> G) (qopp : G -> G).
Hypothesis QG : q_group q0 qadd qopp.
Hypothesis QC : forall a b, qadd a b = qadd b a.
Variable ch : nat -> nat -> G.
Variable N : nat.
Variable ws : nat -> cg.
Variables (p : nat) (ds : list nat).
Hypothesis Hds : ds = repeat p N.
Variables (stev : list real -> list real -> list real * list real) (maxit : nat) (size : list nat -> nat) (svd : nat -> cg -> cg * cg * cg) (err : cg -> real) (qr : nat -> cg -> cg * cg) (far : list cx -> list cx -> bool).
Hypothesis HH : hermitian_chain N ws ds.
Hypothesis HCons : conserving G q0 qadd ch N ws ds.
Hypothesis ET : trunc_gsvd err svd.
Hypothesis EQ : exact_qr qr.
Hypothesis BQ : block_qr G qadd ch qr.
Hypothesis Hmax : 2 <= maxit.
Variables (dT dE dM : res cg) (canoL : res cg -> res cg -> res cg * res cg) (dbg : bool).
Variables (op0 : cg) (str0 : option cg) (op1 : cg) (str1 : option cg) (e0 : real).
Hypotheses (Hop0 : square p op0) (Hstr0 : match str0 with Some g => square p g | None => True end) (Hop1 : square p op1) (Hstr1 : match str1 with Some g => square p g | None => True end).
Notation evo := (t_evo ws stev maxit size svd far). Notation back := (t_back ws stev maxit size far).
Notation run := (tdvp_run (res cg) (res cg) (res cg) (res cx) dT dE dM w_triv (w_grow ws) canoL (t_rcano qr) evo back dbg (t_act op0) (option_map t_act str0) m_triv m_triv m_right (m_left str1) (m_val op1) (m_phase e0)).
Notation after := (after (res cg) (res cg) w_triv (w_grow ws) evo back N).
Notation prepared site rs := (center0 (res cg) (t_rcano qr) site (acted (res cg) (t_act op0) (option_map t_act str0) site rs)).
Notation O0 := (fun site => cstring N (str_of str0) (op_of op0) site). Notation O1 := (fun i => cstring N (str_of str1) (op_of op1) i).
Notation blocks := (blocks G qadd ch N). Notation in_sector := (in_sector G q0 qadd ch ds).
Notation along_subs := (along_subs G qadd ch N ws svd stev maxit size far). Notation steps_lapack := (steps_lapack N ws stev maxit size svd far).
Lemma substeps_prefix : forall tau n k, k <= n -> exists r, substeps N tau n = substeps N tau k ++ r.
Proof.
  intros tau n k. induction n as [|n IH]; intros Hk; [replace k with 0 by lia; exists []; rewrite app_nil_r; reflexivity|].
  destruct (Nat.eq_dec k (Datatypes.S n)) as [->|]; [exists []; rewrite app_nil_r; reflexivity|]. destruct (IH ltac:(lia)) as [r E]. rewrite substeps_S, E. exists (r ++ schedule N tau). rewrite app_assoc. reflexivity.
Qed.
Lemma select_record_ok : forall site steps tau ini t0 mf rs ts w bt q dq, 3 <= N -> site < N -> idle (res cg) (res cg) N rs w -> holds N rs ts -> chain N ws ds ts -> (forall i, site < i < N -> cright (cten_of (ts i))) ->
  (match ini with Some f => (forall i, i < N -> f i = Some (Ok (t0 i))) /\ chain N ws ds t0 | None => t0 = ts end) ->
  weight ds (capplied ds (O0 site) (amp N ts)) <> c0 -> steps_lapack tau steps (prepared site rs) ->
  blocks bt q ts -> shifts G qadd ch p site (op_of op0) dq -> neutral G ch p site (str_of str0) ->
  (forall t1 bt1, holds N (prepared site rs) t1 -> blocks bt1 (qadd q dq) t1 -> along_subs (substeps N tau steps) (prepared site rs) bt1) ->
  exists r w' (psi : nat -> nat -> cg), run true site steps tau ini mf w = Ok (r, w') /\ length r = N * (steps + 1) /\
  (forall c, In c (configs ds) -> amp N (psi 0) c = capplied ds (O0 site) (amp N ts) c) /\
  (forall k, k <= steps -> holds N (after tau k (prepared site rs)) (psi k) /\ chain N ws ds (psi k) /\ weight ds (amp N (psi k)) <> c0 /\ in_sector (qadd q dq) (amp N (psi k))) /\
  (forall i, i < N -> dm (res cg) (res cg) unit w' i = Some (Ok (psi steps i))) /\
  (forall k i, k <= steps -> i < N -> nth_error r (k * N + i) = Some (Some (mkE (res cx) site i (e_time_of tau k) (Some (Ok (turned e0 (e_time_of tau k) (ccorr ds (O1 i) (amp N t0) (amp N (psi k))))))))).
Proof.
  intros site steps tau ini t0 mf rs ts w bt q dq H3 Hs HI HR HC HRi Hini NZ LA HB HO HS HAL.
  assert (X : exists rs0, holds N rs0 t0 /\ chain N ws ds t0 /\ match ini with Some f => forall i, i < N -> f i = Some (rs0 i) | None => rs0 = rs end).
  { destruct ini as [f|]; [exists (fun i => Ok (t0 i)); split; [intros i _; reflexivity|]; destruct Hini; auto|]. subst t0. exists rs. auto. }
  destruct X as [rs0 [I1 [I2 I3]]].
  destruct (TdvpRun.run_ok (res cg) (res cg) (res cg) (res cx) dT dE dM w_triv (w_grow ws) canoL (t_rcano qr) evo back dbg (t_act op0) (option_map t_act str0) m_triv m_triv m_right (m_left str1) (m_val op1) (m_phase e0) N site steps tau ini rs0 mf rs w H3 Hs HI I3) as [r [w' [R1 [R2 [R3 R4]]]]].
  destruct (acted_ok N ws p ds Hds op0 str0 Hop0 Hstr0 site rs ts Hs HR HC) as [ta [A1 [A2 [A3 A4]]]].
  assert (HRa : forall i, site < i < N -> cright (cten_of (ta i))) by (intros i Hi; rewrite A3 by exact Hi; apply HRi; exact Hi).
  assert (Wa : weight ds (capplied ds (O0 site) (amp N ts)) = sq_norm N ta) by (rewrite <- (weight_norm N ws ds ta A2); symmetry; apply weight_ext; exact A4).
  destruct (acted_blocks G q0 qadd qopp QG QC ch N ws p ds Hds op0 str0 Hop0 Hstr0 site dq rs ts ta bt q Hs HO HS HR HC A1 HB) as [ba Ba].
  destruct (sector_center0_ok G qadd ch N ws ds maxit Hmax qr EQ BQ site _ ta ba (qadd q dq) Hs A1 A2 HRa Ba) as [t1 [bt1 [C1 [C2 [C3 [C4 C5]]]]]].
  assert (ST : forall k, k <= steps -> exists tk, holds N (after tau k (prepared site rs)) tk /\ chain N ws ds tk /\ weight ds (amp N tk) <> c0 /\ in_sector (qadd q dq) (amp N tk)).
  { intros k Hk. destruct (substeps_prefix tau steps k Hk) as [rest ER].
    destruct (sector_steps_ok G q0 qadd qopp QG ch N ws ds HH HCons stev maxit size svd err ET Hmax far tau steps (length (substeps N tau k)) _ t1 bt1 (qadd q dq) H3 C1 C2 C3) as [tk [bk [B1 [B2 [B3 [B4 B5]]]]]]; [congruence|exact LA|exact C5|exact (HAL t1 bt1 C1 C5)|].
    rewrite ER, firstn_app, firstn_all, Nat.sub_diag in B1. cbn [firstn] in B1. rewrite app_nil_r, <- after_substeps in B1. exists tk. split; [exact B1|]. split; [exact B2|]. split; [rewrite (weight_norm N ws ds tk B2); exact B3|exact B5]. }
  set (psi := fun k i => match after tau k (prepared site rs) i with Ok t => t | _ => ts i end).
  assert (PS : forall k, k <= steps -> holds N (after tau k (prepared site rs)) (psi k) /\ chain N ws ds (psi k) /\ weight ds (amp N (psi k)) <> c0 /\ in_sector (qadd q dq) (amp N (psi k))).
  { intros k Hk. destruct (ST k Hk) as [tk [P1 P2]]. assert (E : forall i, i < N -> tk i = psi k i) by (intros i Hi; unfold psi; rewrite (P1 i Hi); reflexivity).
    assert (ES' : sites N (psi k) = sites N tk) by (unfold sites; apply map_ext_in; intros i Hi; apply in_seq in Hi; symmetry; apply E; lia).
    unfold amp, ConserveSpec.chain in *. rewrite ES'. split; [|exact P2]. intros i Hi. rewrite <- E by exact Hi. apply P1. exact Hi. }
  exists r, w', psi. split; [exact R1|]. split; [exact R2|]. split; [|split; [exact PS|split]].
  - destruct (center0_amp N ws ds qr EQ site _ ta Hs A1 A2 HRa) as [t2 [B1 [_ [_ B3]]]]. intros c Ic. rewrite <- A4 by exact Ic. rewrite <- B3 by exact Ic. unfold amp. do 2 f_equal. unfold sites. apply map_ext_in. intros i Hi. apply in_seq in Hi. pose proof (B1 i ltac:(lia)) as E1. pose proof (proj1 (PS 0 ltac:(lia)) i ltac:(lia)) as E2. cbn [TdvpSpec.after] in E2. congruence.
  - intros i Hi. pose proof (tr_dm _ _ _ _ _ _ _ R3 i Hi) as D. rewrite D. f_equal. apply (PS steps (le_n _)). exact Hi.
  - intros k i Hk Hi. pose proof (R4 k i Hk Hi) as R5. cbn [fst] in R5. unfold TdvpRun.prepared in R5. cbv iota in R5. rewrite R5. clear R5. destruct (PS k Hk) as [P1 [P2 _]].
    rewrite (overlap_ok N ws p ds Hds op1 str1 Hop1 Hstr1 _ rs0 (psi k) t0 P1 I1 P2 I2 i Hi). destruct k as [|k]; [|reflexivity]. cbn [e_val e_time_of]. do 5 f_equal. unfold turned. rewrite RMicromega.Q2R_0, Rmult_0_r, cos_0, sin_0. set (v := ccorr _ _ _ _). destruct v as [x y]. unfold cmul. cbn [fst snd]. f_equal; ring.
Qed.
Lemma select_zero_ok : forall site steps tau ini t0 mf rs ts w bt q dq q' r w', 3 <= N -> site < N -> idle (res cg) (res cg) N rs w -> holds N rs ts -> chain N ws ds ts -> (forall i, site < i < N -> cright (cten_of (ts i))) ->
  (match ini with Some f => (forall i, i < N -> f i = Some (Ok (t0 i))) /\ chain N ws ds t0 | None => t0 = ts end) ->
  weight ds (capplied ds (O0 site) (amp N ts)) <> c0 -> steps_lapack tau steps (prepared site rs) ->
  blocks bt q ts -> shifts G qadd ch p site (op_of op0) dq -> neutral G ch p site (str_of str0) ->
  (forall t1 bt1, holds N (prepared site rs) t1 -> blocks bt1 (qadd q dq) t1 -> along_subs (substeps N tau steps) (prepared site rs) bt1) ->
  in_sector q' (amp N t0) -> run true site steps tau ini mf w = Ok (r, w') ->
  forall k i d1, k <= steps -> i < N -> shifts G qadd ch p i (op_of op1) d1 -> neutral G ch p i (str_of str1) -> qadd (qadd q dq) d1 <> q' ->
  nth_error r (k * N + i) = Some (Some (mkE (res cx) site i (e_time_of tau k) (Some (Ok c0)))).
Proof.
  intros site steps tau ini t0 mf rs ts w bt q dq q' r w' H3 Hs HI HR HC HRi Hini NZ LA HB HO HS HAL HI' HRun k i d1 Hk Hi HO1 HS1 NE.
  destruct (select_record_ok site steps tau ini t0 mf rs ts w bt q dq H3 Hs HI HR HC HRi Hini NZ LA HB HO HS HAL) as [r2 [w2 [psi [R1 [_ [_ [R3 [_ R5]]]]]]]].
  rewrite HRun in R1. injection R1 as <- <-. rewrite (R5 k i Hk Hi). do 5 f_equal. rewrite (corr_zero G q0 qadd qopp QG QC ch N p ds Hds (str_of str1) (op_of op1) i d1 q' (qadd q dq) _ _ Hi HO1 HS1 HI' (proj2 (proj2 (proj2 (R3 k Hk)))) NE).
  unfold turned. ring.
Qed.
End Run.
