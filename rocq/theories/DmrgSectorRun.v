(** Symmetry sectors: the preparation and whole DMRG runs on disk. *)
From Coq Require Import List Arith Bool Lia Reals Lra Ring_theory.
From Verif Require Import Base Disk SweepSpec NoiseSpec Dmrg DmrgSpec DmrgFacts DmrgMore VmpsInitFacts FiniteMps FmpsSpec FmpsFacts EffHam EffHamSpec EffHamFacts ChainSpec ChainFacts Lanczos LanczosSpec KrylovSpec Cx DmrgUpdate DmrgStep DmrgVarSpec DmrgVar DmrgVarRun DmrgTrunc DmrgTruncSpec DmrgTruncFacts DmrgTruncRun SectorSpec SectorFacts DmrgSectorSpec DmrgSectorFacts.
Import ListNotations.
Local Open Scope nat_scope.

Section Prep.
Variables (G : Type) (q0 : G) (qadd : G -> G -> G).
Variable ch : nat -> nat -> G.
Variable N : nat.
Variable ds : list nat.
Notation on_sites := (on_sites N ds). Notation blocks := (d_blocks G qadd ch N).
Notation cmovesR := (moves_right cx c0 c1 cadd cmul cconj). Notation cmovesL := (moves_left cx c0 c1 cadd cmul cconj).
Variables (canoL canoR : cten -> cten -> cten * cten) (bigL smallL bigR smallR : cten -> bool) (combL combR : cten -> cten -> cten * cten).
Hypothesis HcL : cmovesR canoL.
Hypothesis HcR : cmovesL canoR.
Hypothesis HbL : cmovesR combL.
Hypothesis HbR : cmovesL combR.
Hypothesis BcL : block_move G qadd ch canoL.
Hypothesis BcR : block_move G qadd ch canoR.
Hypothesis BbL : block_move G qadd ch combL.
Hypothesis BbR : block_move G qadd ch combR.
Variable q : G.
Definition in_blocks (ts : nat -> cten) : Prop := on_sites ts /\ exists bt, blocks bt q ts.
Lemma blocks_moved : forall f ts i, block_move G qadd ch f -> (cmovesR f \/ cmovesL f) -> i + 1 < N -> in_blocks ts -> in_blocks (set2 cten ts i (f (ts i) (ts (i + 1)))).
Proof.
  intros f ts i HF HM Hi [HO [bt HB]]. pose proof (link N ds ts i HO Hi) as E. split.
  - destruct HM as [HM|HM].
    + specialize (HM (ts i) (ts (i + 1)) E). destruct (f (ts i) (ts (i + 1))) as [a b]. destruct HM as [SP _]. exact (proj1 (set2_state N ds ts i (a, b) HO Hi SP)).
    + pose proof (moved_left cx c0 c1 cadd cmul csub copp cx_ring cconj cconj0 cconj_add cconj_mul f (ts i) (ts (i + 1)) HM E) as M. destruct (f (ts i) (ts (i + 1))) as [a b]. destruct M as [SP _]. exact (proj1 (set2_state N ds ts i (a, b) HO Hi SP)).
  - assert (B1 : d_lab3 G qadd ch (bt i) i (bt (i + 1)) (ts i)) by (apply HB; lia). assert (B2 : d_lab3 G qadd ch (bt (i + 1)) (i + 1) (bt (i + 2)) (ts (i + 1))) by (replace (i + 2) with (i + 1 + 1) by lia; apply HB; lia).
    destruct (HF _ _ _ _ _ _ E B1 B2) as [m' [A B]]. exists (fset bt (i + 1) m'). exact (d_blocks_set G qadd ch N bt q ts i _ _ m' Hi HB A B).
Qed.
Lemma blocks_center : forall c ts, c < N -> in_blocks ts -> in_blocks (center_to_0 cten canoR c ts).
Proof.
  induction c as [|c IH]; intros ts Hc HB; cbn [center_to_0]; [exact HB|]. apply IH; [lia|]. pose proof (blocks_moved canoR ts c BcR (or_intror HcR) ltac:(lia) HB) as P. replace (c + 1) with (Datatypes.S c) in P by lia. exact P.
Qed.
Lemma blocks_left : forall n i lb ts, i + n < N -> in_blocks ts -> in_blocks (snd (prep_left cten canoL bigL smallL combL n i lb ts)).
Proof.
  induction n as [|n IH]; intros i lb ts Hi HB; cbn [prep_left]; [exact HB|].
  pose proof (blocks_moved canoL ts i BcL (or_introl HcL) ltac:(lia) HB) as P. set (ts1 := set2 cten ts i (canoL (ts i) (ts (i + 1)))) in *. destruct (bigL (ts1 i)); [exact P|]. apply IH; [lia|].
  destruct (smallL (ts1 i)); [|exact P]. exact (blocks_moved combL ts1 i BbL (or_introl HbL) ltac:(lia) P).
Qed.
Lemma blocks_right : forall n i rb ts, n <= i -> i < N -> in_blocks ts -> in_blocks (snd (prep_right cten canoR bigR smallR combR n i rb ts)).
Proof.
  induction n as [|n IH]; intros i rb ts Hn Hi HB; cbn [prep_right]; [exact HB|]. assert (Ei : i - 1 + 1 = i) by lia.
  pose proof (blocks_moved canoR ts (i - 1) BcR (or_intror HcR) ltac:(lia) HB) as P. rewrite Ei in P. set (ts1 := set2 cten ts (i - 1) (canoR (ts (i - 1)) (ts i))) in *. destruct (bigR (ts1 i)); [exact P|]. apply IH; [lia|lia|].
  destruct (smallR (ts1 i)); [|exact P]. pose proof (blocks_moved combR ts1 (i - 1) BbR (or_intror HbR) ltac:(lia) P) as P2. rewrite Ei in P2. exact P2.
Qed.
Lemma blocks_prep : forall ts ts0 lb rb, 3 <= N -> prep cten canoL canoR bigL smallL bigR smallR combL combR N ts = (lb, rb, ts0) -> in_blocks ts -> in_blocks ts0.
Proof.
  intros ts ts0 lb rb H3 HP HB. destruct (half_bounds N H3) as [B1 [B2 [B3 B4]]]. unfold prep in HP. pose proof (blocks_left (half N) 0 0 ts ltac:(lia) HB) as A.
  destruct (prep_left cten canoL bigL smallL combL (half N) 0 0 ts) as [l t1]. cbn [snd] in A. pose proof (blocks_right (N - 1 - N / 2) (N - 1) 0 t1 ltac:(lia) ltac:(lia) A) as B.
  destruct (prep_right cten canoR bigR smallR combR (N - 1 - N / 2) (N - 1) 0 t1) as [r t2]. injection HP as _ _ ->. exact B.
Qed.
End Prep.

Section Run.
Variables (G : Type) (q0 : G) (qadd : G -> G -> G) (qopp : G -> G).
Hypothesis QG : q_group q0 qadd qopp.
Variable ch : nat -> nat -> G.
Variable N : nat.
Variable ws : nat -> cmpo.
Variable ds : list nat.
Variables (stev : list real -> list real -> list real * list real) (close : real -> real -> bool) (maxit : nat) (size : nat -> nat -> nat -> nat -> nat).
Variables (svd : nat -> nat -> nat -> nat -> cten4 -> cten * (nat -> nat -> cx) * cten) (err : nat -> nat -> nat -> nat -> cten4 -> real).
Hypothesis PM : proper_mpo N ws ds.
Hypothesis ET : trunc_svd err svd.
Hypothesis Hmax : 2 <= maxit.
Variables (canoL canoR : cten -> cten -> cten * cten) (bigL smallL bigR smallR : cten -> bool) (combL combR : cten -> cten -> cten * cten).
Hypothesis HcL : moves_right cx c0 c1 cadd cmul cconj canoL.
Hypothesis HcR : moves_left cx c0 c1 cadd cmul cconj canoR.
Hypothesis HbL : moves_right cx c0 c1 cadd cmul cconj combL.
Hypothesis HbR : moves_left cx c0 c1 cadd cmul cconj combR.
Hypothesis BcR : block_move G qadd ch canoR.
Variables (dT : cten) (dbg : bool).
Notation En := (res (real * real)).
Notation trivc := (fun s : side => (fun _ _ : nat => c1) : cop). Notation trivs := (fun s : side => triv_group cx c1).
Notation rows := (fun i => mrows (ws i)). Notation cols := (fun i => mcols (ws i)).
Notation upd := (d_update_e ws stev close maxit size svd err).
Notation execute := (execute cten cop En dT rows cols trivc (d_grow ws) upd canoL canoR bigL smallL bigR smallR combL combR dbg).
Notation ready := (ready cten cop En N cols trivc (d_grow ws) canoL canoR bigL smallL bigR smallR combL combR).
Notation opts := (opts cten (list cop) En trivs (d_grow ws) upd N).
Notation sweeps_spec := (sweeps_spec cten (list cop) En trivs (d_grow ws) upd N).
Notation on_sites := (on_sites N ds). Notation nonzero := (nonzero N). Notation centered := (centered N).
Notation truncated := (truncated N ws ds). Notation coef := (coef N).
Notation lapack_trunc := (lapack_trunc N ws stev close maxit size svd err).
Notation W := (Dmrg.W cten cop En). Notation eng := (Disk.eng cten unit En).
Notation complete := (complete cten cop En N). Notation no_emergency := (no_emergency cten cop En).
Notation stp := (Dmrg.stp cten cop En). Notation emg := (Dmrg.emg cten cop En). Notation clk := (Dmrg.clk cten cop En).
Notation sweep_start := (sweep_start cten cop En).
Notation blocks := (d_blocks G qadd ch N). Notation in_sector := (in_sector G q0 qadd ch ds). Notation conserving := (d_conserving G q0 qadd ch N ws ds).
Notation along := (d_along G qadd ch N ws svd stev close maxit size err).
Hypothesis HCons : conserving.
Lemma d_sector_run : forall arr n ts ts0 lb rb d bt q, ready ts ts0 lb rb d -> no_emergency arr d -> 1 <= n ->
  on_sites ts -> centered 0 ts -> nonzero ts -> lapack_trunc (all_bonds lb rb n) (ts0, None) -> blocks bt q ts0 -> along (all_bonds lb rb n) ts0 bt ->
  exists d' ts' e del ph, execute arr n d = Ok d' /\ complete ts' d' /\ eng (W d') = Some (Ok (e, del)) /\ centered 0 ts' /\ truncated ts' e del ph /\
    (exists bt', blocks bt' q ts') /\ in_sector q (coef ts') /\ in_sector q (coef ph).
Proof.
  intros arr n ts ts0 lb rb d bt q HR HE Hn HO HC HZ HLA HB HA. assert (H3 : 3 <= N) by apply HR. pose proof (trunc_range N ws ds maxit PM Hmax canoL canoR bigL smallL bigR smallR combL combR _ _ _ _ _ HR) as RG.
  destruct (no_emg_run cten cop En dT rows cols trivc (d_grow ws) upd canoL canoR bigL smallL bigR smallR combL combR dbg N (mpo_rows0 N ws ds PM ltac:(lia)) (mpo_colsN N ws ds PM ltac:(lia)) (wlink N ws ds PM)
    (fun i g t => grow_len_l ws i g t (pm_cols _ _ _ PM i)) (fun i g t => grow_len_r ws i g t (pm_rows _ _ _ PM i)) arr n ts ts0 lb rb d HR HE) as [m [d' [A1 [A2 [A3 [A4 [A5 _]]]]]]].
  specialize (A5 ltac:(lia)). specialize (A3 ltac:(lia)).
  destruct (prep_ok N ds canoL canoR bigL smallL bigR smallR combL combR HcL HcR HbL HbR ts ts0 lb rb H3 HO HC (proj1 (proj2 HR))) as [P1 [P2 P3]].
  rewrite (all_bonds_split maxit Hmax lb rb m n A4) in HLA, HA. apply trunc_app in HLA. destruct HLA as [LA _]. apply along_app in HA.
  assert (NZ0 : nonzero ts0) by (unfold DmrgVarSpec.nonzero in *; rewrite (same_norm2 cx c0 c1 cadd cmul cconj _ _ P2); exact HZ).
  destruct (d_opts G q0 qadd qopp QG ch N ws ds PM stev close maxit size svd err ET Hmax HCons _ lb lb ts0 None bt q (path_all N lb rb m ltac:(lia) ltac:(lia)) P1 (centered_mixed N maxit Hmax _ _ P3) NZ0 LA HB HA) as [Q1 [Q2 [Q3 [Q4 Q5]]]].
  destruct (Q5 (all_bonds_nil maxit Hmax lb rb m ltac:(lia) A5)) as [e [del [ph [E1 [E2 E3]]]]].
  rewrite <- sweeps_opts in Q1, Q2, Q3, Q4, E1, E2. set (s := sweeps_spec lb rb m (ts0, None)) in *.
  destruct (center_ok N ds canoR HcR (lb + 1) (fst s) ltac:(lia) Q1) as [C1 [C2 C3]]; [intros; apply Q2; lia|intros; apply Q2; lia|].
  destruct (blocks_center G qadd ch N ds canoR HcR BcR q (lb + 1) (fst s) ltac:(lia) (Logic.conj Q1 Q4)) as [B1 [bt' B2]].
  exists d', (center_to_0 cten canoR (lb + 1) (fst s)), e, del, ph. split; [exact A1|]. split; [exact A2|]. split; [rewrite A3; exact E1|]. split; [exact C3|].
  split; [exact (same_truncated N ws ds _ _ _ _ _ C2 C1 E2)|]. split; [eauto|]. split; [exact (d_blocks_sector G q0 qadd qopp QG ch N ds bt' q _ C1 B2)|exact E3].
Qed.
Lemma d_sector_emg : forall arr n ts ts0 lb rb d m j bt q, ready ts ts0 lb rb d -> stp d = false -> emg d = false -> m < n -> 1 <= j <= updates lb rb ->
  (forall u, clk d <= u < sweep_start lb rb d m + j - 1 -> arr u = (false, false)) -> snd (arr (sweep_start lb rb d m + j - 1)) = true ->
  on_sites ts -> centered 0 ts -> nonzero ts -> lapack_trunc (all_bonds lb rb n) (ts0, None) -> blocks bt q ts0 -> along (all_bonds lb rb n) ts0 bt ->
  exists d' ts' e del ph, execute arr n d = Ok d' /\ on_disk cten unit En N ts' (W d') /\ eng (W d') = Some (Ok (e, del)) /\ truncated ts' e del ph /\
    (exists bt', blocks bt' q ts') /\ in_sector q (coef ts') /\ in_sector q (coef ph).
Proof.
  intros arr n ts ts0 lb rb d m j bt q HR PS PE Hm Hj HQ HA HO HC HZ HLA HB HAL. assert (H3 : 3 <= N) by apply HR. pose proof (trunc_range N ws ds maxit PM Hmax canoL canoR bigL smallL bigR smallR combL combR _ _ _ _ _ HR) as RG.
  destruct (emergency_at cten cop En dT rows cols trivc (d_grow ws) upd canoL canoR bigL smallL bigR smallR combL combR dbg N (mpo_rows0 N ws ds PM ltac:(lia)) (mpo_colsN N ws ds PM ltac:(lia)) (wlink N ws ds PM)
    (fun i g t => grow_len_l ws i g t (pm_cols _ _ _ PM i)) (fun i g t => grow_len_r ws i g t (pm_rows _ _ _ PM i)) arr n ts ts0 lb rb d m j HR PS PE Hm Hj HQ HA) as [d' [A1 [_ [A2 A3]]]].
  destruct (prep_ok N ds canoL canoR bigL smallL bigR smallR combL combR HcL HcR HbL HbR ts ts0 lb rb H3 HO HC (proj1 (proj2 HR))) as [P1 [P2 P3]].
  assert (NZ0 : nonzero ts0) by (unfold DmrgVarSpec.nonzero in *; rewrite (same_norm2 cx c0 c1 cadd cmul cconj _ _ P2); exact HZ).
  set (bs := all_bonds lb rb m ++ firstn j (bonds lb rb)).
  assert (BS : all_bonds lb rb n = bs ++ skipn j (bonds lb rb) ++ all_bonds lb rb (n - m - 1)).
  { unfold bs. rewrite (all_bonds_split maxit Hmax lb rb m n ltac:(lia)), <- app_assoc. f_equal. rewrite app_assoc, firstn_skipn. assert (En : n - m = S (n - m - 1)) by lia. rewrite En at 1. reflexivity. }
  pose proof (path_all N lb rb n ltac:(lia) ltac:(lia)) as PA. rewrite BS in PA, HLA, HAL. destruct (path_split _ _ _ _ _ PA) as [l' [PA' _]]. apply trunc_app in HLA. destruct HLA as [LA _]. apply along_app in HAL.
  destruct (d_opts G q0 qadd qopp QG ch N ws ds PM stev close maxit size svd err ET Hmax HCons _ lb l' ts0 None bt q PA' P1 (centered_mixed N maxit Hmax _ _ P3) NZ0 LA HB HAL) as [Q1 [Q2 [Q3 [[bt' Q4] Q5]]]].
  assert (OB : opts bs (ts0, None) = opts (firstn j (bonds lb rb)) (sweeps_spec lb rb m (ts0, None))) by (rewrite sweeps_opts; unfold bs, SweepSpec.opts; apply fold_left_app).
  rewrite OB in *. destruct Q5 as [e [del [ph [E1 [E2 E3]]]]].
  { unfold bs. intros C. apply app_eq_nil in C. destruct C as [_ C]. apply (f_equal (@length _)) in C. rewrite firstn_length in C. unfold updates in Hj. cbn in C. lia. }
  exists d', (fst (opts (firstn j (bonds lb rb)) (sweeps_spec lb rb m (ts0, None)))), e, del, ph. split; [exact A1|]. split; [exact A2|]. split; [rewrite A3; exact E1|]. split; [exact E2|].
  split; [eauto|]. split; [exact (d_blocks_sector G q0 qadd qopp QG ch N ds bt' q _ Q1 Q4)|exact E3].
Qed.
End Run.
