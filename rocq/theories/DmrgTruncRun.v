(** Whole DMRG runs on disk with truncation; bond dimensions. *)
From Coq Require Import List Arith Bool Lia Reals Lra Ring_theory.
From Verif Require Import Base Disk SweepSpec NoiseSpec Dmrg DmrgSpec DmrgFacts DmrgMore VmpsInitFacts FiniteMps FmpsSpec FmpsFacts EffHam EffHamSpec EffHamFacts ChainSpec ChainFacts Lanczos LanczosSpec KrylovSpec Cx DmrgUpdate DmrgStep DmrgVarSpec DmrgVar DmrgVarRun DmrgTrunc DmrgTruncSpec DmrgTruncFacts.
Import ListNotations.
Local Open Scope nat_scope.

Lemma mpo_rows0 : forall N ws ds, proper_mpo N ws ds -> 1 <= N -> mrows (ws 0) = 1.
Proof. intros N ws ds PM H. pose proof (pm_fit _ _ _ PM) as F. destruct N; [lia|]. cbn in F. tauto. Qed.
Lemma mpo_colsN : forall N ws ds, proper_mpo N ws ds -> 1 <= N -> mcols (ws (N - 1)) = 1.
Proof.
  intros N ws ds PM H. pose proof (pm_fit _ _ _ PM) as F. unfold sites in F. replace N with (N - 1 + 1) in F by lia. rewrite seq_app, map_app in F. destruct (wfit_inv _ _ _ _ _ F) as [D [_ G]]. cbn in G. tauto.
Qed.
Lemma bonds_in : forall lb rb l, lb + 2 <= rb -> lb <= l < rb -> exists rt, In (rt, l) (bonds lb rb).
Proof.
  intros lb rb l H Hl. unfold bonds. destruct (Nat.eq_dec l (rb - 1)) as [->|NE].
  - exists false. apply in_or_app. right. apply in_map_iff. exists rb. split; [reflexivity|]. rewrite <- in_rev. apply in_seq. lia.
  - exists true. apply in_or_app. left. apply in_map_iff. exists l. split; [reflexivity|]. apply in_seq. lia.
Qed.
Lemma all_bonds_in : forall lb rb n l, lb + 2 <= rb -> 1 <= n -> lb <= l < rb -> exists rt, In (rt, l) (all_bonds lb rb n).
Proof. intros lb rb [|n] l H Hn Hl; [lia|]. destruct (bonds_in lb rb l H Hl) as [rt I]. exists rt. unfold all_bonds. cbn [repeat concat]. apply in_or_app. left. exact I. Qed.
Lemma bonds_range : forall lb rb rt l, In (rt, l) (bonds lb rb) -> lb <= l < rb.
Proof.
  intros lb rb rt l H. unfold bonds in H. apply in_app_or in H. destruct H as [H|H]; apply in_map_iff in H; destruct H as [i [E I]]; injection E as _ <-.
  - apply in_seq in I. lia.
  - rewrite <- in_rev in I. apply in_seq in I. lia.
Qed.

(** *** bond dimensions in the preparation and in the final move of the center *)
Section Bonds.
Variable N : nat.
Variable ds : list nat.
Variable Dmax : nat.
Notation on_sites := (on_sites N ds).
Notation cmovesR := (moves_right cx c0 c1 cadd cmul cconj). Notation cmovesL := (moves_left cx c0 c1 cadd cmul cconj).
Variables (canoL canoR combL combR : cten -> cten -> cten * cten).
Hypothesis HcL : cmovesR canoL.
Hypothesis HcR : cmovesL canoR.
Hypothesis HbL : cmovesR combL.
Hypothesis HbR : cmovesL combR.
Hypothesis TL : thin_right canoL.
Hypothesis TR : thin_left canoR.
Hypothesis FL : full_right combL.
Hypothesis FR : full_left combR.
Notation bigL := (big_l Dmax). Notation bigR := (big_r Dmax).
Lemma moved_r : forall f ts i, cmovesR f -> on_sites ts -> i + 1 < N -> let ts' := set2 cten ts i (f (ts i) (ts (i + 1))) in
  on_sites ts' /\ d0 (ts' i) = d0 (ts i) /\ d1 (ts' i) = d1 (ts i) /\ d2 (ts' i) = d2 (fst (f (ts i) (ts (i + 1)))).
Proof.
  intros f ts i HF HO Hi. cbv zeta. specialize (HF (ts i) (ts (i + 1)) (link N ds ts i HO Hi)). destruct (f (ts i) (ts (i + 1))) as [a b]. destruct HF as [SP _].
  split; [exact (proj1 (set2_state N ds ts i (a, b) HO Hi SP))|]. rewrite set2_0. cbn [fst]. split; [exact (fa_0 _ _ _ _ _ _ _ _ _ _ _ SP)|]. split; [exact (fa_1 _ _ _ _ _ _ _ _ _ _ _ SP)|reflexivity].
Qed.
Lemma moved_l : forall f ts i, cmovesL f -> on_sites ts -> i + 1 < N -> let ts' := set2 cten ts i (f (ts i) (ts (i + 1))) in
  on_sites ts' /\ d1 (ts' (i + 1)) = d1 (ts (i + 1)) /\ d2 (ts' (i + 1)) = d2 (ts (i + 1)) /\ d0 (ts' (i + 1)) = d0 (snd (f (ts i) (ts (i + 1)))) /\ d2 (ts' i) = d0 (ts' (i + 1)).
Proof.
  intros f ts i HF HO Hi. cbv zeta. pose proof (moved_left cx c0 c1 cadd cmul csub copp cx_ring cconj cconj0 cconj_add cconj_mul f (ts i) (ts (i + 1)) HF (link N ds ts i HO Hi)) as M.
  destruct (f (ts i) (ts (i + 1))) as [a b]. destruct M as [SP _].
  split; [exact (proj1 (set2_state N ds ts i (a, b) HO Hi SP))|]. rewrite set2_0, set2_1. cbn [fst snd]. split; [exact (fa_2 _ _ _ _ _ _ _ _ _ _ _ SP)|]. split; [exact (fa_3 _ _ _ _ _ _ _ _ _ _ _ SP)|]. split; [reflexivity|exact (fa_m _ _ _ _ _ _ _ _ _ _ _ SP)].
Qed.
Lemma prep_left_bonds : forall n i lb ts, i + n < N -> on_sites ts -> (forall j, j < i -> d2 (ts j) <= Dmax) -> (n = 0 -> lb + 1 = i) ->
  let r := prep_left cten canoL bigL small_l combL n i lb ts in on_sites (snd r) /\ (forall j, j < fst r -> d2 (snd r j) <= Dmax).
Proof.
  induction n as [|n IH]; intros i lb ts Hi HO HB H0; cbv zeta; cbn [prep_left].
  - cbn [fst snd]. split; [exact HO|]. intros j Hj. apply HB. specialize (H0 eq_refl). lia.
  - destruct (moved_r canoL ts i HcL HO ltac:(lia)) as [A1 [A2 [A3 A4]]]. pose proof (TL (ts i) (ts (i + 1))) as T. rewrite <- A4, <- A2, <- A3 in T.
    assert (OL : forall j, j < i -> d2 (set2 cten ts i (canoL (ts i) (ts (i + 1))) j) <= Dmax) by (intros j Hj; rewrite set2_o by lia; apply HB; exact Hj).
    set (ts1 := set2 cten ts i (canoL (ts i) (ts (i + 1)))) in *. clearbody ts1.
    destruct (bigL (ts1 i)) eqn:BG; [cbn [fst snd]; auto|]. unfold big_l in BG. apply Nat.ltb_ge in BG.
    assert (X : let ts2 := if small_l (ts1 i) then set2 cten ts1 i (combL (ts1 i) (ts1 (i + 1))) else ts1 in on_sites ts2 /\ (forall j, j < Datatypes.S i -> d2 (ts2 j) <= Dmax)).
    { cbv zeta. destruct (small_l (ts1 i)).
      - destruct (moved_r combL ts1 i HbL A1 ltac:(lia)) as [B1 [_ [_ B4]]]. split; [exact B1|]. intros j Hj. destruct (Nat.eq_dec j i) as [->|]; [rewrite B4, FL; exact BG|]. rewrite set2_o by lia. apply OL. lia.
      - split; [exact A1|]. intros j Hj. destruct (Nat.eq_dec j i) as [->|]; [lia|]. apply OL. lia. }
    cbv zeta in X. destruct X as [X1 X2]. apply (IH (Datatypes.S i)); auto; [lia|]. intros ->. cbn. lia.
Qed.
(** from the right: a bond is the first leg of the tensor on its right; sites left of [i - n] stay *)
Lemma prep_right_bonds : forall n i rb ts, n <= i -> i < N -> on_sites ts -> (forall j, i < j < N -> d0 (ts j) <= Dmax) -> (n = 0 -> rb = i + 1) ->
  let r := prep_right cten canoR bigR small_r combR n i rb ts in on_sites (snd r) /\ (forall j, fst r < j < N -> d0 (snd r j) <= Dmax) /\ (forall j, j < i - n -> snd r j = ts j).
Proof.
  induction n as [|n IH]; intros i rb ts Hn Hi HO HB H0; cbv zeta; cbn [prep_right].
  - cbn [fst snd]. split; [exact HO|]. split; [|auto]. intros j Hj. apply HB. specialize (H0 eq_refl). lia.
  - assert (Ei : i - 1 + 1 = i) by lia. destruct (moved_l canoR ts (i - 1) HcR HO ltac:(lia)) as [A1 [A2 [A3 [A4 _]]]]. rewrite Ei in *. pose proof (proj1 (TR (ts (i - 1)) (ts i))) as T. rewrite <- A4, <- A2, <- A3 in T.
    assert (OL : forall j, i < j < N -> d0 (set2 cten ts (i - 1) (canoR (ts (i - 1)) (ts i)) j) <= Dmax) by (intros j Hj; rewrite set2_o by lia; apply HB; exact Hj).
    assert (OS : forall j, j < i - 1 -> set2 cten ts (i - 1) (canoR (ts (i - 1)) (ts i)) j = ts j) by (intros j Hj; apply set2_o; lia).
    set (ts1 := set2 cten ts (i - 1) (canoR (ts (i - 1)) (ts i))) in *. clearbody ts1.
    destruct (bigR (ts1 i)) eqn:BG; [cbn [fst snd]; split; [exact A1|split; [exact OL|intros; apply OS; lia]]|]. unfold big_r in BG. apply Nat.ltb_ge in BG.
    assert (X : let ts2 := if small_r (ts1 i) then set2 cten ts1 (i - 1) (combR (ts1 (i - 1)) (ts1 i)) else ts1 in on_sites ts2 /\ (forall j, i - 1 < j < N -> d0 (ts2 j) <= Dmax) /\ (forall j, j < i - 1 -> ts2 j = ts j)).
    { cbv zeta. destruct (small_r (ts1 i)).
      - destruct (moved_l combR ts1 (i - 1) HbR A1 ltac:(lia)) as [B1 [_ [_ [B4 _]]]]. rewrite Ei in *. split; [exact B1|]. split.
        + intros j Hj. destruct (Nat.eq_dec j i) as [->|]; [rewrite B4, FR; exact BG|]. rewrite set2_o by lia. apply OL. lia.
        + intros j Hj. rewrite set2_o by lia. apply OS. exact Hj.
      - split; [exact A1|]. split; [|exact OS]. intros j Hj. destruct (Nat.eq_dec j i) as [->|]; [lia|]. apply OL. lia. }
    cbv zeta in X. destruct X as [X1 [X2 X3]]. destruct (IH (i - 1) (if n =? 0 then i else rb) _ ltac:(lia) ltac:(lia) X1 X2) as [C1 [C2 C3]]; [intros ->; cbn; lia|].
    split; [exact C1|]. split; [exact C2|]. intros j Hj. rewrite C3 by lia. apply X3. lia.
Qed.
(** the bonds that are not swept *)
Lemma prep_bonds : forall ts ts0 lb rb, 3 <= N -> on_sites ts -> prep cten canoL canoR bigL small_l bigR small_r combL combR N ts = (lb, rb, ts0) ->
  forall l, l + 1 < N -> l < lb \/ rb <= l -> d2 (ts0 l) <= Dmax.
Proof.
  intros ts ts0 lb rb H3 HO HP. destruct (prep_range cten canoL canoR bigL small_l bigR small_r combL combR N ts lb rb ts0 H3 HP) as [R1 R2]. destruct (half_bounds N H3) as [B1 [B2 [B3 B4]]].
  unfold prep in HP. destruct (prep_left_bonds (half N) 0 0 ts) as [A1 A2]; auto; [lia|intros; lia|lia|].
  destruct (prep_left cten canoL bigL small_l combL (half N) 0 0 ts) as [l t1]. cbn [fst snd] in *.
  destruct (prep_right_bonds (N - 1 - N / 2) (N - 1) 0 t1) as [C1 [C2 C3]]; auto; [lia|lia|intros; lia|lia|].
  destruct (prep_right cten canoR bigR small_r combR (N - 1 - N / 2) (N - 1) 0 t1) as [r t2]. injection HP as -> -> ->. cbn [fst snd] in *.
  intros q Hq [H|H].
  - rewrite C3 by lia. apply A2. exact H.
  - rewrite (link N ds ts0 q C1 Hq). apply C2. lia.
Qed.
Lemma center_bonds : forall c ts, c < N -> on_sites ts -> (forall l, l + 1 < N -> d2 (ts l) <= Dmax) -> let ts' := center_to_0 cten canoR c ts in forall l, l + 1 < N -> d2 (ts' l) <= Dmax.
Proof.
  induction c as [|c IH]; intros ts Hc HO HB; cbv zeta; cbn [center_to_0]; [exact HB|].
  destruct (moved_l canoR ts c HcR HO ltac:(lia)) as [A1 [_ [A3 [A4 A5]]]]. replace (c + 1) with (Datatypes.S c) in * by lia. apply IH; [lia|exact A1|].
  intros l Hl. destruct (Nat.eq_dec l c) as [->|]; [|destruct (Nat.eq_dec l (Datatypes.S c)) as [->|]].
  - rewrite A5, A4. pose proof (proj2 (TR (ts c) (ts (Datatypes.S c)))) as T. pose proof (link N ds ts c HO ltac:(lia)) as L. replace (c + 1) with (Datatypes.S c) in L by lia. pose proof (HB c ltac:(lia)). lia.
  - rewrite A3. apply HB. exact Hl.
  - rewrite set2_o by lia. apply HB. exact Hl.
Qed.
End Bonds.

Section Run.
Variable N : nat.
Variable ws : nat -> cmpo.
Variable ds : list nat.
Variables (stev : list real -> list real -> list real * list real) (close : real -> real -> bool) (maxit : nat) (size : nat -> nat -> nat -> nat -> nat).
Variables (svd : nat -> nat -> nat -> nat -> cten4 -> cten * (nat -> nat -> cx) * cten) (err : nat -> nat -> nat -> nat -> cten4 -> real).
Hypothesis PM : proper_mpo N ws ds.
Hypothesis ET : trunc_svd err svd.
Hypothesis Hmax : 2 <= maxit.
Variables (canoL canoR : cten -> cten -> cten * cten) (bigL smallL bigR smallR : cten -> bool) (combL combR : cten -> cten -> cten * cten).
Hypothesis HcL : moves_right cx c0 c1 cadd cmul cconj canoL.
Hypothesis HcR : moves_left cx c0 c1 cadd cmul cconj canoR.
Hypothesis HbL : moves_right cx c0 c1 cadd cmul cconj combL.
Hypothesis HbR : moves_left cx c0 c1 cadd cmul cconj combR.
Variables (dT : cten) (dbg : bool).
Notation En := (res (real * real)).
Notation trivc := (fun s : side => (fun _ _ : nat => c1) : cop).
Notation trivs := (fun s : side => triv_group cx c1).
Notation upd := (d_update_e ws stev close maxit size svd err).
Notation rows := (fun i => mrows (ws i)). Notation cols := (fun i => mcols (ws i)).
Notation execute := (execute cten cop En dT rows cols trivc (d_grow ws) upd canoL canoR bigL smallL bigR smallR combL combR dbg).
Notation ready := (ready cten cop En N cols trivc (d_grow ws) canoL canoR bigL smallL bigR smallR combL combR).
Notation opts := (opts cten (list cop) En trivs (d_grow ws) upd N).
Notation sweeps_spec := (sweeps_spec cten (list cop) En trivs (d_grow ws) upd N).
Notation on_sites := (on_sites N ds). Notation energy_of := (energy_of N ws). Notation nonzero := (nonzero N). Notation expect := (expect N ws). Notation centered := (centered N).
Notation truncated := (truncated N ws ds).
Notation lapack_trunc := (lapack_trunc N ws stev close maxit size svd err).
Notation W := (Dmrg.W cten cop En). Notation eng := (Disk.eng cten unit En).
Notation complete := (complete cten cop En N). Notation no_emergency := (no_emergency cten cop En).
Notation stp := (Dmrg.stp cten cop En). Notation emg := (Dmrg.emg cten cop En). Notation clk := (Dmrg.clk cten cop En).
Notation sweep_start := (sweep_start cten cop En).

Lemma same_truncated : forall ts ts' e d ph, csame (sites N ts) (sites N ts') -> on_sites ts' -> truncated ts e d ph -> truncated ts' e d ph.
Proof.
  intros ts ts' e d ph HS HO [O1 [Hd [N1 [O2 [E2 B]]]]]. split; [exact HO|]. split; [exact Hd|]. split; [rewrite (same_norm2 cx c0 c1 cadd cmul cconj _ _ HS); exact N1|]. split; [exact O2|]. split; [exact E2|].
  rewrite <- B. unfold braket, coef. apply (lsum_ext cx c0 cadd). intros c Ic. destruct HS as [_ HE]. rewrite HE; [reflexivity|]. rewrite (proj2 O1). exact Ic.
Qed.
Lemma trunc_range : forall ts ts0 lb rb d, ready ts ts0 lb rb d -> lb + 2 <= rb < N.
Proof.
  intros ts ts0 lb rb d HR. assert (3 <= N) by apply HR.
  exact (ready_range cten cop En rows cols trivc (d_grow ws) canoL canoR bigL smallL bigR smallR combL combR N (mpo_rows0 N ws ds PM ltac:(lia)) (mpo_colsN N ws ds PM ltac:(lia)) ts ts0 lb rb d HR).
Qed.
Lemma trunc_run_ok : forall arr n ts ts0 lb rb d, ready ts ts0 lb rb d -> no_emergency arr d -> 1 <= n ->
  on_sites ts -> centered 0 ts -> nonzero ts -> lapack_trunc (all_bonds lb rb n) (ts0, None) ->
  exists m d' e del ph, let ts' := center_to_0 cten canoR (lb + 1) (fst (sweeps_spec lb rb m (ts0, None))) in
    1 <= m <= n /\ execute arr n d = Ok d' /\ complete ts' d' /\ eng (W d') = Some (Ok (e, del)) /\ centered 0 ts' /\ truncated ts' e del ph.
Proof.
  intros arr n ts ts0 lb rb d HR HE Hn HO HC HZ HLA. assert (H3 : 3 <= N) by apply HR. pose proof (trunc_range _ _ _ _ _ HR) as RG.
  destruct (no_emg_run cten cop En dT rows cols trivc (d_grow ws) upd canoL canoR bigL smallL bigR smallR combL combR dbg N (mpo_rows0 N ws ds PM ltac:(lia)) (mpo_colsN N ws ds PM ltac:(lia)) (wlink N ws ds PM)
    (fun i g t => grow_len_l ws i g t (pm_cols _ _ _ PM i)) (fun i g t => grow_len_r ws i g t (pm_rows _ _ _ PM i)) arr n ts ts0 lb rb d HR HE) as [m [d' [A1 [A2 [A3 [A4 [A5 _]]]]]]].
  specialize (A5 ltac:(lia)). specialize (A3 ltac:(lia)).
  destruct (prep_ok N ds canoL canoR bigL smallL bigR smallR combL combR HcL HcR HbL HbR ts ts0 lb rb H3 HO HC (proj1 (proj2 HR))) as [P1 [P2 P3]].
  assert (LA : lapack_trunc (all_bonds lb rb m) (ts0, None)). { rewrite (all_bonds_split maxit Hmax lb rb m n A4) in HLA. apply trunc_app in HLA. tauto. }
  assert (NZ0 : nonzero ts0) by (unfold DmrgVarSpec.nonzero in *; rewrite (same_norm2 cx c0 c1 cadd cmul cconj _ _ P2); exact HZ).
  destruct (trunc_opts N ws ds stev close maxit size svd err PM ET Hmax _ lb lb ts0 None (path_all N lb rb m ltac:(lia) ltac:(lia)) P1 (centered_mixed N maxit Hmax _ _ P3) NZ0 LA) as [Q1 [Q2 [Q3 [Q4 _]]]].
  destruct (Q4 (all_bonds_nil maxit Hmax lb rb m ltac:(lia) A5)) as [e [del [ph [E1 E2]]]].
  rewrite <- sweeps_opts in Q1, Q2, Q3, E1, E2. set (s := sweeps_spec lb rb m (ts0, None)) in *.
  destruct (center_ok N ds canoR HcR (lb + 1) (fst s) ltac:(lia) Q1) as [C1 [C2 C3]]; [intros; apply Q2; lia|intros; apply Q2; lia|].
  exists m, d', e, del, ph. cbv zeta. split; [lia|]. split; [exact A1|]. split; [exact A2|]. split; [rewrite A3; exact E1|]. split; [exact C3|].
  exact (same_truncated _ _ _ _ _ C2 C1 E2).
Qed.
(** a run that an emergency request ends after update j of sweep m *)
Lemma trunc_run_emg : forall arr n ts ts0 lb rb d m j, ready ts ts0 lb rb d -> stp d = false -> emg d = false -> m < n -> 1 <= j <= updates lb rb ->
  (forall u, clk d <= u < sweep_start lb rb d m + j - 1 -> arr u = (false, false)) -> snd (arr (sweep_start lb rb d m + j - 1)) = true ->
  on_sites ts -> centered 0 ts -> nonzero ts -> lapack_trunc (all_bonds lb rb n) (ts0, None) ->
  exists d' ts' e del ph, execute arr n d = Ok d' /\ on_disk cten unit En N ts' (W d') /\ eng (W d') = Some (Ok (e, del)) /\ truncated ts' e del ph.
Proof.
  intros arr n ts ts0 lb rb d m j HR PS PE Hm Hj HQ HA HO HC HZ HLA. assert (H3 : 3 <= N) by apply HR. pose proof (trunc_range _ _ _ _ _ HR) as RG.
  destruct (emergency_at cten cop En dT rows cols trivc (d_grow ws) upd canoL canoR bigL smallL bigR smallR combL combR dbg N (mpo_rows0 N ws ds PM ltac:(lia)) (mpo_colsN N ws ds PM ltac:(lia)) (wlink N ws ds PM)
    (fun i g t => grow_len_l ws i g t (pm_cols _ _ _ PM i)) (fun i g t => grow_len_r ws i g t (pm_rows _ _ _ PM i)) arr n ts ts0 lb rb d m j HR PS PE Hm Hj HQ HA) as [d' [A1 [_ [A2 A3]]]].
  destruct (prep_ok N ds canoL canoR bigL smallL bigR smallR combL combR HcL HcR HbL HbR ts ts0 lb rb H3 HO HC (proj1 (proj2 HR))) as [P1 [P2 P3]].
  assert (NZ0 : nonzero ts0) by (unfold DmrgVarSpec.nonzero in *; rewrite (same_norm2 cx c0 c1 cadd cmul cconj _ _ P2); exact HZ).
  set (bs := all_bonds lb rb m ++ firstn j (bonds lb rb)).
  assert (BS : all_bonds lb rb n = bs ++ skipn j (bonds lb rb) ++ all_bonds lb rb (n - m - 1)).
  { unfold bs. rewrite (all_bonds_split maxit Hmax lb rb m n ltac:(lia)), <- app_assoc. f_equal. rewrite app_assoc, firstn_skipn. assert (En : n - m = S (n - m - 1)) by lia. rewrite En at 1. reflexivity. }
  pose proof (path_all N lb rb n ltac:(lia) ltac:(lia)) as PA. rewrite BS in PA, HLA. destruct (path_split _ _ _ _ _ PA) as [l' [PA' _]]. apply trunc_app in HLA. destruct HLA as [LA _].
  destruct (trunc_opts N ws ds stev close maxit size svd err PM ET Hmax _ lb l' ts0 None PA' P1 (centered_mixed N maxit Hmax _ _ P3) NZ0 LA) as [Q1 [Q2 [Q3 [Q4 _]]]].
  assert (OB : opts bs (ts0, None) = opts (firstn j (bonds lb rb)) (sweeps_spec lb rb m (ts0, None))) by (rewrite sweeps_opts; unfold bs, SweepSpec.opts; apply fold_left_app).
  rewrite OB in *. destruct Q4 as [e [del [ph [E1 E2]]]].
  { unfold bs. intros C. apply app_eq_nil in C. destruct C as [_ C]. apply (f_equal (@length _)) in C. rewrite firstn_length in C. unfold updates in Hj. cbn in C. lia. }
  exists d', (fst (opts (firstn j (bonds lb rb)) (sweeps_spec lb rb m (ts0, None)))), e, del, ph. split; [exact A1|]. split; [exact A2|]. split; [rewrite A3; exact E1|]. exact E2.
Qed.
End Run.

(** with the tests of the code: no bond is above Dmax after a run *)
Section Cap.
Variable N : nat.
Variable ws : nat -> cmpo.
Variable ds : list nat.
Variables (stev : list real -> list real -> list real * list real) (close : real -> real -> bool) (maxit : nat) (size : nat -> nat -> nat -> nat -> nat).
Variables (svd : nat -> nat -> nat -> nat -> cten4 -> cten * (nat -> nat -> cx) * cten) (err : nat -> nat -> nat -> nat -> cten4 -> real).
Variable Dmax : nat.
Hypothesis PM : proper_mpo N ws ds.
Hypothesis ET : trunc_svd err svd.
Hypothesis EC : capped_svd Dmax svd.
Hypothesis Hmax : 2 <= maxit.
Variables (canoL canoR : cten -> cten -> cten * cten) (combL combR : cten -> cten -> cten * cten).
Hypothesis HcL : moves_right cx c0 c1 cadd cmul cconj canoL.
Hypothesis HcR : moves_left cx c0 c1 cadd cmul cconj canoR.
Hypothesis HbL : moves_right cx c0 c1 cadd cmul cconj combL.
Hypothesis HbR : moves_left cx c0 c1 cadd cmul cconj combR.
Hypothesis TL : thin_right canoL.
Hypothesis TR : thin_left canoR.
Hypothesis FL : full_right combL.
Hypothesis FR : full_left combR.
Variables (dT : cten) (dbg : bool).
Notation En := (res (real * real)).
Notation trivc := (fun s : side => (fun _ _ : nat => c1) : cop).
Notation upd := (d_update_e ws stev close maxit size svd err).
Notation execute := (execute cten cop En dT (fun i => mrows (ws i)) (fun i => mcols (ws i)) trivc (d_grow ws) upd canoL canoR (big_l Dmax) small_l (big_r Dmax) small_r combL combR dbg).
Notation ready := (ready cten cop En N (fun i => mcols (ws i)) trivc (d_grow ws) canoL canoR (big_l Dmax) small_l (big_r Dmax) small_r combL combR).
Notation W := (Dmrg.W cten cop En). Notation eng := (Disk.eng cten unit En).
Lemma trunc_capped : forall arr n ts ts0 lb rb d, ready ts ts0 lb rb d -> no_emergency cten cop En arr d -> 1 <= n ->
  on_sites N ds ts -> centered N 0 ts -> nonzero N ts -> lapack_trunc N ws stev close maxit size svd err (all_bonds lb rb n) (ts0, None) ->
  exists d' ts' e del ph, execute arr n d = Ok d' /\ complete cten cop En N ts' d' /\ eng (W d') = Some (Ok (e, del)) /\ centered N 0 ts' /\ truncated N ws ds ts' e del ph /\
  (forall l, l + 1 < N -> d2 (ts' l) <= Dmax).
Proof.
  intros arr n ts ts0 lb rb d HR HE Hn HO HC HZ HLA. assert (H3 : 3 <= N) by apply HR.
  pose proof (trunc_range N ws ds maxit PM Hmax canoL canoR (big_l Dmax) small_l (big_r Dmax) small_r combL combR _ _ _ _ _ HR) as RG.
  destruct (trunc_run_ok N ws ds stev close maxit size svd err PM ET Hmax canoL canoR (big_l Dmax) small_l (big_r Dmax) small_r combL combR HcL HcR HbL HbR dT dbg arr n ts ts0 lb rb d HR HE Hn HO HC HZ HLA) as [m [d' [e [del [ph [A0 [A1 [A2 [A3 [A4 A5]]]]]]]]]].
  eexists. eexists. exists e, del, ph. split; [exact A1|]. split; [exact A2|]. split; [exact A3|]. split; [exact A4|]. split; [exact A5|].
  destruct (prep_ok N ds canoL canoR _ _ _ _ combL combR HcL HcR HbL HbR ts ts0 lb rb H3 HO HC (proj1 (proj2 HR))) as [P1 [P2 P3]].
  assert (LA : lapack_trunc N ws stev close maxit size svd err (all_bonds lb rb m) (ts0, None)). { rewrite (all_bonds_split maxit Hmax lb rb m n ltac:(lia)) in HLA. apply trunc_app in HLA. tauto. }
  assert (NZ0 : nonzero N ts0) by (unfold DmrgVarSpec.nonzero in *; rewrite (same_norm2 cx c0 c1 cadd cmul cconj _ _ P2); exact HZ).
  destruct (trunc_opts N ws ds stev close maxit size svd err PM ET Hmax _ lb lb ts0 None (path_all N lb rb m ltac:(lia) ltac:(lia)) P1 (centered_mixed N maxit Hmax _ _ P3) NZ0 LA) as [Q1 [_ [_ [_ Q5]]]].
  rewrite <- sweeps_opts in Q1, Q5. apply (center_bonds N ds Dmax canoR HcR TR (lb + 1) _ ltac:(lia) Q1). intros l Hl. apply (Q5 Dmax l EC).
  destruct (Nat.lt_ge_cases l lb) as [H|H]; [|destruct (Nat.lt_ge_cases l rb) as [H'|H']].
  - left. exact (prep_bonds N ds Dmax canoL canoR combL combR HcL HcR HbL HbR TL TR FL FR ts ts0 lb rb H3 HO (proj1 (proj2 HR)) l Hl (or_introl H)).
  - right. apply all_bonds_in; lia.
  - left. exact (prep_bonds N ds Dmax canoL canoR combL combR HcL HcR HbL HbR TL TR FL FR ts ts0 lb rb H3 HO (proj1 (proj2 HR)) l Hl (or_intror H')).
Qed.
End Cap.
