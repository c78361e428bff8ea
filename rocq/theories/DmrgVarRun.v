(** Whole DMRG runs on disk never raise the energy. *)
From Coq Require Import List Arith Bool Lia Reals Lra Ring_theory.
From Verif Require Import Base Disk SweepSpec NoiseSpec Dmrg DmrgSpec DmrgFacts DmrgMore VmpsInitFacts FiniteMps FmpsSpec FmpsFacts EffHam EffHamSpec EffHamFacts ChainSpec ChainFacts Lanczos LanczosSpec KrylovSpec Cx DmrgUpdate DmrgStep DmrgVarSpec DmrgVar.
Import ListNotations.
Local Open Scope nat_scope.

(** growing a block gives one operator per column or row *)
Lemma grow_len_l : forall ws i g t, cols_used cx (ws i) -> length g = mrows (ws i) -> length (d_grow ws L i g t) = mcols (ws i).
Proof.
  intros ws i g t HU HG. unfold d_grow, grow_left. rewrite HG, Nat.eqb_refl. cbn [negb].
  match goal with |- context [mapM ?f ?l] => destruct (mapM_ok _ _ f (fun _ _ => True) l) as [ys [E [EL _]]] end.
  - intros col Ic. apply in_seq in Ic. pose proof (left_terms_some cx g (ws i) col HG (HU col ltac:(lia))) as T. destruct (left_terms cx g (ws i) col) as [|p r]; [congruence|].
    destruct (acc_ok cx c0 c1 cadd cmul csub copp cx_ring (map (fun p => outer cx cmul (fst p) (snd p)) (p :: r)) ltac:(discriminate)) as [y [Y _]]. rewrite Y. cbn [usable bind]. eauto.
  - rewrite E. transitivity (length ys); [reflexivity|]. rewrite EL. apply seq_length.
Qed.
Lemma grow_len_r : forall ws i g t, rows_used cx (ws i) -> length g = mcols (ws i) -> length (d_grow ws Disk.R i g t) = mrows (ws i).
Proof.
  intros ws i g t HU HG. unfold d_grow, grow_right. rewrite HG, Nat.eqb_refl. cbn [negb].
  match goal with |- context [mapM ?f ?l] => destruct (mapM_ok _ _ f (fun _ _ => True) l) as [ys [E [EL _]]] end.
  - intros row Ic. apply in_seq in Ic. pose proof (right_terms_some cx g (ws i) row HG (HU row ltac:(lia))) as T. destruct (right_terms cx g (ws i) row) as [|p r]; [congruence|].
    destruct (acc_ok cx c0 c1 cadd cmul csub copp cx_ring (map (fun p => outer cx cmul (fst p) (snd p)) (p :: r)) ltac:(discriminate)) as [y [Y _]]. rewrite Y. cbn [usable bind]. eauto.
  - rewrite E. transitivity (length ys); [reflexivity|]. rewrite EL. apply seq_length.
Qed.

(** the two factors of an exact decomposition *)
Lemma svd_split : forall svd, exact_svd cx c0 c1 cadd cmul cconj svd -> exact_split cx c0 c1 cadd cmul cconj (d_split svd).
Proof.
  intros svd H rt D0 p1 p2 D3 g. specialize (H D0 p1 p2 D3 g). unfold d_split. destruct (svd D0 p1 p2 D3 g) as [[u s] vt]. destruct H as [E0 [E1 [E2 [E3 [CU [CV E]]]]]].
  destruct rt; (split; [|assumption]); split; auto; intros x s1 s2 y Hx H1 H2 Hy; unfold two_site; cbn [d2 el]; rewrite <- (E x s1 s2 y) by auto.
  - apply (FmpsFacts.sumn_ext cx c0 cadd). intros k _. rewrite (FmpsFacts.sumn_mul_l cx c0 c1 cadd cmul csub copp cx_ring). apply (FmpsFacts.sumn_ext cx c0 cadd). intros m _. ring.
  - rewrite (FmpsFacts.sumn_swap cx c0 c1 cadd cmul csub copp cx_ring (d2 u)). apply (FmpsFacts.sumn_ext cx c0 cadd). intros k _. apply (FmpsFacts.sumn_mul_r cx c0 c1 cadd cmul csub copp cx_ring).
Qed.

Section Prep.
Variable N : nat.
Variable ds : list nat.
Notation S ts := (sites N ts). Notation on_sites := (on_sites N ds). Notation centered := (centered N).
Notation cmovesR := (moves_right cx c0 c1 cadd cmul cconj). Notation cmovesL := (moves_left cx c0 c1 cadd cmul cconj).
Variables (canoL canoR : cten -> cten -> cten * cten) (bigL smallL bigR smallR : cten -> bool) (combL combR : cten -> cten -> cten * cten).
Hypothesis HcL : cmovesR canoL.
Hypothesis HcR : cmovesL canoR.
Hypothesis HbL : cmovesR combL.
Hypothesis HbR : cmovesL combR.

Lemma set2_state : forall ts i p, on_sites ts -> i + 1 < N -> csplits (d0 (ts i)) (d1 (ts i)) (d1 (ts (i + 1))) (d2 (ts (i + 1))) (ctwo (ts i) (ts (i + 1))) (fst p) (snd p) ->
  on_sites (set2 cten ts i p) /\ csame (S ts) (S (set2 cten ts i p)).
Proof.
  intros ts i p HO Hi HS. split; [exact (set_on N ds ts i (fst p) (snd p) _ HO Hi HS)|].
  rewrite (sites_set2 N _ _ _ _ Hi). rewrite (sites_mid N _ ts i Hi). destruct HO as [HF _]. rewrite (sites_mid N _ ts i Hi) in HF. apply fit_mid in HF. destruct HF as [F1 [F2 F3]].
  apply (splits_same cx c0 c1 cadd cmul csub copp cx_ring); auto.
Qed.
Lemma link : forall ts i, on_sites ts -> i + 1 < N -> d2 (ts i) = d0 (ts (i + 1)).
Proof. intros ts i [HF _] Hi. rewrite (sites_mid N _ ts i Hi) in HF. apply fit_mid in HF. tauto. Qed.
(** the center moves one site to the right *)
Lemma move_right : forall f ts i, cmovesR f -> on_sites ts -> i + 1 < N -> (forall j, j < i -> cleft (ts j)) -> (forall j, i + 1 < j < N -> cright (ts j)) ->
  let ts' := set2 cten ts i (f (ts i) (ts (i + 1))) in on_sites ts' /\ csame (S ts) (S ts') /\ centered (i + 1) ts'.
Proof.
  intros f ts i HF HO Hi HL HR. cbv zeta. specialize (HF (ts i) (ts (i + 1)) (link ts i HO Hi)). destruct (f (ts i) (ts (i + 1))) as [a b]. destruct HF as [SP CA].
  destruct (set2_state ts i (a, b) HO Hi SP) as [A B]. split; [exact A|]. split; [exact B|]. split; intros j Hj.
  - destruct (Nat.eq_dec j i) as [->|]; [rewrite set2_0; exact CA|]. rewrite set2_o by lia. apply HL. lia.
  - rewrite set2_o by lia. apply HR. lia.
Qed.
(** on the right of the center c *)
Lemma move_left : forall f ts c i, cmovesL f -> on_sites ts -> i + 1 < N -> centered c ts -> c <= i ->
  let ts' := set2 cten ts i (f (ts i) (ts (i + 1))) in on_sites ts' /\ csame (S ts) (S ts') /\ centered c ts'.
Proof.
  intros f ts c i HF HO Hi [HL HR] Hc. cbv zeta.
  pose proof (moved_left cx c0 c1 cadd cmul csub copp cx_ring cconj cconj0 cconj_add cconj_mul f (ts i) (ts (i + 1)) HF (link ts i HO Hi)) as M.
  destruct (f (ts i) (ts (i + 1))) as [a b]. destruct M as [SP [CB CA]].
  destruct (set2_state ts i (a, b) HO Hi SP) as [A B]. split; [exact A|]. split; [exact B|]. split; intros j Hj.
  - rewrite set2_o by lia. apply HL. lia.
  - destruct (Nat.eq_dec j i) as [->|]; [rewrite set2_0; apply CA; apply HR; lia|]. destruct (Nat.eq_dec j (i + 1)) as [->|]; [rewrite set2_1; exact CB|]. rewrite set2_o by lia. apply HR. lia.
Qed.
(** the center moves one site to the left *)
Lemma move_back : forall f ts i, cmovesL f -> on_sites ts -> i + 1 < N -> (forall j, j < i -> cleft (ts j)) -> (forall j, i + 1 < j < N -> cright (ts j)) ->
  let ts' := set2 cten ts i (f (ts i) (ts (i + 1))) in on_sites ts' /\ csame (S ts) (S ts') /\ centered i ts'.
Proof.
  intros f ts i HF HO Hi HL HR. cbv zeta.
  pose proof (moved_left cx c0 c1 cadd cmul csub copp cx_ring cconj cconj0 cconj_add cconj_mul f (ts i) (ts (i + 1)) HF (link ts i HO Hi)) as M.
  destruct (f (ts i) (ts (i + 1))) as [a b]. destruct M as [SP [CB _]].
  destruct (set2_state ts i (a, b) HO Hi SP) as [A B]. split; [exact A|]. split; [exact B|]. split; intros j Hj.
  - rewrite set2_o by lia. apply HL. lia.
  - destruct (Nat.eq_dec j (i + 1)) as [->|]; [rewrite set2_1; exact CB|]. rewrite set2_o by lia. apply HR. lia.
Qed.
Lemma trans : forall a b c : list cten, csame a b -> csame b c -> csame a c.
Proof. apply same_trans. Qed.

Lemma prep_left_ok : forall n i lb ts, i + n < N -> on_sites ts -> centered i ts -> (n = 0 -> i = lb + 1) ->
  let r := prep_left cten canoL bigL smallL combL n i lb ts in on_sites (snd r) /\ csame (S ts) (S (snd r)) /\ centered (fst r + 1) (snd r).
Proof.
  induction n as [|n IH]; intros i lb ts Hi HO [HL HR] H0; cbv zeta; cbn [prep_left].
  - cbn [fst snd]. rewrite (H0 eq_refl) in HL, HR. split; [auto|]. split; [apply same_refl|split; auto].
  - destruct (move_right canoL ts i HcL HO) as [A1 [A2 A3]]; [lia|auto|intros; apply HR; lia|].
    set (ts1 := set2 cten ts i (canoL (ts i) (ts (i + 1)))) in *.
    destruct (bigL (ts1 i)); [cbn [fst snd]; auto|].
    assert (X : let ts2 := if smallL (ts1 i) then set2 cten ts1 i (combL (ts1 i) (ts1 (i + 1))) else ts1 in on_sites ts2 /\ csame (S ts) (S ts2) /\ centered (i + 1) ts2).
    { cbv zeta. destruct (smallL (ts1 i)); [|auto]. destruct A3 as [A3 A4]. destruct (move_right combL ts1 i HbL A1) as [B1 [B2 B3]]; [lia|intros; apply A3; lia|intros; apply A4; lia|].
      split; [exact B1|]. split; [eapply trans; eauto|exact B3]. }
    cbv zeta in X. set (ts2 := if smallL (ts1 i) then _ else ts1) in *. destruct X as [X1 [X2 X3]]. replace (i + 1) with (Datatypes.S i) in X3 by lia.
    destruct (IH (Datatypes.S i) (if n =? 0 then i else lb) ts2) as [C1 [C2 C3]]; auto; [lia|intros ->; cbn; lia|].
    split; [exact C1|]. split; [eapply trans; eauto|exact C3].
Qed.
Lemma prep_right_ok : forall n i rb ts c, c + n <= i -> i < N -> on_sites ts -> centered c ts ->
  let r := prep_right cten canoR bigR smallR combR n i rb ts in on_sites (snd r) /\ csame (S ts) (S (snd r)) /\ centered c (snd r).
Proof.
  induction n as [|n IH]; intros i rb ts c Hc Hi HO HC; cbv zeta; cbn [prep_right].
  - cbn [snd]. split; [auto|]. split; [apply same_refl|auto].
  - assert (Ei : i = i - 1 + 1) by lia.
    destruct (move_left canoR ts c (i - 1) HcR HO) as [A1 [A2 A3]]; [lia|auto|lia|]. rewrite <- Ei in A1, A2, A3.
    set (ts1 := set2 cten ts (i - 1) (canoR (ts (i - 1)) (ts i))) in *.
    destruct (bigR (ts1 i)); [cbn [snd]; auto|].
    assert (X : let ts2 := if smallR (ts1 i) then set2 cten ts1 (i - 1) (combR (ts1 (i - 1)) (ts1 i)) else ts1 in on_sites ts2 /\ csame (S ts) (S ts2) /\ centered c ts2).
    { cbv zeta. destruct (smallR (ts1 i)); [|auto]. destruct (move_left combR ts1 c (i - 1) HbR A1) as [B1 [B2 B3]]; [lia|auto|lia|]. rewrite <- Ei in B1, B2, B3.
      split; [exact B1|]. split; [eapply trans; eauto|exact B3]. }
    cbv zeta in X. set (ts2 := if smallR (ts1 i) then _ else ts1) in *. destruct X as [X1 [X2 X3]].
    destruct (IH (i - 1) (if n =? 0 then i else rb) ts2 c) as [C1 [C2 C3]]; auto; [lia|lia|].
    split; [exact C1|]. split; [eapply trans; eauto|exact C3].
Qed.
(** the preparation only changes the gauge *)
Lemma prep_ok : forall ts ts0 lb rb, 3 <= N -> on_sites ts -> centered 0 ts -> prep cten canoL canoR bigL smallL bigR smallR combL combR N ts = (lb, rb, ts0) ->
  on_sites ts0 /\ csame (S ts) (S ts0) /\ centered (lb + 1) ts0.
Proof.
  intros ts ts0 lb rb H3 HO HC HP. destruct (prep_range cten canoL canoR bigL smallL bigR smallR combL combR N ts lb rb ts0 H3 HP) as [R1 R2]. destruct (half_bounds N H3) as [B1 [B2 [B3 B4]]].
  unfold prep in HP. destruct (prep_left_ok (half N) 0 0 ts) as [A1 [A2 A3]]; auto; [lia|lia|].
  destruct (prep_left cten canoL bigL smallL combL (half N) 0 0 ts) as [l t1]. cbn [fst snd] in *.
  destruct (prep_right_ok (N - 1 - N / 2) (N - 1) 0 t1 (l + 1)) as [C1 [C2 C3]]; auto; [|lia|].
  { destruct (prep_right cten canoR bigR smallR combR (N - 1 - N / 2) (N - 1) 0 t1) as [r t2]. injection HP as -> _ _. lia. }
  destruct (prep_right cten canoR bigR smallR combR (N - 1 - N / 2) (N - 1) 0 t1) as [r t2]. injection HP as -> _ ->. cbn [snd] in *.
  split; [exact C1|]. split; [eapply trans; eauto|exact C3].
Qed.
(** the center goes back to site 0 *)
Lemma center_ok : forall c ts, c < N -> on_sites ts -> (forall i, i + 1 < c -> cleft (ts i)) -> (forall i, c < i < N -> cright (ts i)) ->
  let ts' := center_to_0 cten canoR c ts in on_sites ts' /\ csame (S ts) (S ts') /\ centered 0 ts'.
Proof.
  induction c as [|c IH]; intros ts Hc HO HL HR; cbv zeta; cbn [center_to_0]; [split; [auto|]; split; [apply same_refl|split; [intros; lia|auto]]|].
  destruct (move_back canoR ts c HcR HO) as [A1 [A2 [A3 A4]]]; [lia|intros; apply HL; lia|intros; apply HR; lia|]. replace (c + 1) with (Datatypes.S c) in A1, A2, A3, A4 by lia.
  destruct (IH _ ltac:(lia) A1 ltac:(intros; apply A3; lia) A4) as [B1 [B2 B3]]. split; [exact B1|]. split; [eapply trans; eauto|exact B3].
Qed.
End Prep.

Section Run.
Variable N : nat.
Variable ws : nat -> cmpo.
Variable ds : list nat.
Variables (stev : list real -> list real -> list real * list real) (close : real -> real -> bool) (maxit : nat) (size : nat -> nat -> nat -> nat -> nat).
Variable split : bool -> nat -> nat -> nat -> nat -> cten4 -> cten * cten.
Hypothesis PM : proper_mpo N ws ds.
Hypothesis ES : exact_split cx c0 c1 cadd cmul cconj split.
Hypothesis Hmax : 2 <= maxit.
Variables (canoL canoR : cten -> cten -> cten * cten) (bigL smallL bigR smallR : cten -> bool) (combL combR : cten -> cten -> cten * cten).
Hypothesis HcL : moves_right cx c0 c1 cadd cmul cconj canoL.
Hypothesis HcR : moves_left cx c0 c1 cadd cmul cconj canoR.
Hypothesis HbL : moves_right cx c0 c1 cadd cmul cconj combL.
Hypothesis HbR : moves_left cx c0 c1 cadd cmul cconj combR.
Variables (dT : cten) (dbg : bool).
Notation trivc := (fun s : side => (fun _ _ : nat => c1) : cop).
Notation trivs := (fun s : side => triv_group cx c1).
Notation upd := (d_update ws stev close maxit size split).
Notation rows := (fun i => mrows (ws i)). Notation cols := (fun i => mcols (ws i)).
Notation execute := (execute cten cop (res real) dT rows cols trivc (d_grow ws) upd canoL canoR bigL smallL bigR smallR combL combR dbg).
Notation ready := (ready cten cop (res real) N cols trivc (d_grow ws) canoL canoR bigL smallL bigR smallR combL combR).
Notation opts := (opts cten (list cop) (res real) trivs (d_grow ws) upd N).
Notation sweeps_spec := (sweeps_spec cten (list cop) (res real) trivs (d_grow ws) upd N).
Notation on_sites := (on_sites N ds). Notation energy_of := (energy_of N ws). Notation nonzero := (nonzero N). Notation expect := (expect N ws). Notation centered := (centered N).
Notation lapack_along := (lapack_along N ws stev close maxit size split).
Notation W := (Dmrg.W cten cop (res real)). Notation eng := (Disk.eng cten unit (res real)).
Notation complete := (complete cten cop (res real) N). Notation no_emergency := (no_emergency cten cop (res real)).
Notation stp := (Dmrg.stp cten cop (res real)). Notation emg := (Dmrg.emg cten cop (res real)). Notation clk := (Dmrg.clk cten cop (res real)).
Notation sweep_start := (sweep_start cten cop (res real)).

Lemma rows0 : 1 <= N -> mrows (ws 0) = 1.
Proof. intros H. pose proof (pm_fit _ _ _ PM) as F. destruct N; [lia|]. cbn in F. tauto. Qed.
Lemma wlink : forall i, i + 1 < N -> mcols (ws i) = mrows (ws (i + 1)).
Proof. intros i H. pose proof (pm_fit _ _ _ PM) as F. rewrite (sites_mid N _ ws i H) in F. destruct (wfit_inv _ _ _ _ _ F) as [D [_ G]]. cbn [app wfit] in G. destruct G as [_ [G _]]. auto. Qed.
Lemma colsN : 1 <= N -> mcols (ws (N - 1)) = 1.
Proof.
  intros H. pose proof (pm_fit _ _ _ PM) as F. unfold sites in F. replace N with (N - 1 + 1) in F by lia. rewrite seq_app, map_app in F. destruct (wfit_inv _ _ _ _ _ F) as [D [_ G]]. cbn in G. tauto.
Qed.
Lemma state_expect : forall ts ts', csame (sites N ts) (sites N ts') -> expect ts' = expect ts /\ (nonzero ts -> nonzero ts') /\ (forall e, energy_of ts e -> energy_of ts' e).
Proof.
  intros ts ts' H. unfold DmrgVarSpec.expect, DmrgVarSpec.nonzero, DmrgVarSpec.energy_of, normalized.
  rewrite (same_norm2 cx c0 c1 cadd cmul cconj _ _ H), (same_energy cx c0 c1 cadd cmul cconj _ _ (sites N ws) H). auto.
Qed.
Lemma all_bonds_split : forall lb rb m n, m <= n -> all_bonds lb rb n = all_bonds lb rb m ++ all_bonds lb rb (n - m).
Proof. intros lb rb m n H. unfold all_bonds. rewrite <- concat_app, <- repeat_app. do 2 f_equal. lia. Qed.
Lemma all_bonds_nil : forall lb rb n, lb + 2 <= rb -> 1 <= n -> all_bonds lb rb n <> [].
Proof. intros lb rb [|n] H1 H2; [lia|]. unfold all_bonds, bonds. cbn [repeat concat]. destruct (rb - 1 - lb) eqn:E; [lia|]. cbn. discriminate. Qed.
Lemma centered_mixed : forall ts c, centered (c + 1) ts -> cmixed N ts c.
Proof. intros ts c [A B]. split; intros i Hi; [apply A; lia|apply B; lia]. Qed.
Lemma range : forall ts ts0 lb rb d, ready ts ts0 lb rb d -> lb + 2 <= rb < N.
Proof.
  intros ts ts0 lb rb d HR. assert (3 <= N) by apply HR.
  exact (ready_range cten cop (res real) rows cols trivc (d_grow ws) canoL canoR bigL smallL bigR smallR combL combR N (rows0 ltac:(lia)) (colsN ltac:(lia)) ts ts0 lb rb d HR).
Qed.

Lemma run_ok : forall arr n ts ts0 lb rb d, ready ts ts0 lb rb d -> no_emergency arr d -> 1 <= n ->
  on_sites ts -> centered 0 ts -> nonzero ts -> lapack_along (all_bonds lb rb n) (ts0, None) ->
  exists d' ts' e, execute arr n d = Ok d' /\ complete ts' d' /\ eng (W d') = Some (Ok e) /\
    on_sites ts' /\ centered 0 ts' /\ energy_of ts' e /\ (e <= expect ts)%R.
Proof.
  intros arr n ts ts0 lb rb d HR HE Hn HO HC HZ HLA. assert (H3 : 3 <= N) by apply HR. pose proof (range _ _ _ _ _ HR) as RG.
  destruct (no_emg_run cten cop (res real) dT rows cols trivc (d_grow ws) upd canoL canoR bigL smallL bigR smallR combL combR dbg N (rows0 ltac:(lia)) (colsN ltac:(lia)) wlink
    (fun i g t => grow_len_l ws i g t (pm_cols _ _ _ PM i)) (fun i g t => grow_len_r ws i g t (pm_rows _ _ _ PM i)) arr n ts ts0 lb rb d HR HE) as [m [d' [A1 [A2 [A3 [A4 [A5 _]]]]]]].
  specialize (A5 ltac:(lia)). specialize (A3 ltac:(lia)).
  destruct (prep_ok N ds canoL canoR bigL smallL bigR smallR combL combR HcL HcR HbL HbR ts ts0 lb rb H3 HO HC (proj1 (proj2 HR))) as [P1 [P2 P3]].
  destruct (state_expect _ _ P2) as [X1 [X2 _]].
  assert (LA : lapack_along (all_bonds lb rb m) (ts0, None)). { rewrite (all_bonds_split lb rb m n A4) in HLA. apply lapack_app in HLA. tauto. }
  destruct (opts_ok N ws ds stev close maxit size split PM ES Hmax _ lb lb ts0 None (path_all N lb rb m ltac:(lia) ltac:(lia)) P1 (centered_mixed _ _ P3) (X2 HZ) LA) as [Q1 [Q2 [Q3 [Q4 Q5]]]].
  destruct (Q4 (all_bonds_nil lb rb m ltac:(lia) A5)) as [e [E1 E2]].
  rewrite <- sweeps_all in *. set (s := sweeps_spec lb rb m (ts0, None)) in *.
  destruct (center_ok N ds canoR HcR (lb + 1) (fst s) ltac:(lia) Q1) as [C1 [C2 C3]]; [intros; apply Q2; lia|intros; apply Q2; lia|].
  destruct (state_expect _ _ C2) as [_ [_ Y]].
  exists d', (center_to_0 cten canoR (lb + 1) (fst s)), e. split; [exact A1|]. split; [exact A2|]. split; [rewrite A3; exact E1|]. split; [exact C1|]. split; [exact C3|]. split; [apply Y; exact E2|].
  rewrite <- X1, <- (energy_expect N ws _ e E2). exact Q5.
Qed.
(** a run that an emergency request ends after update j of sweep m *)
Lemma run_emg : forall arr n ts ts0 lb rb d m j, ready ts ts0 lb rb d -> stp d = false -> emg d = false -> m < n -> 1 <= j <= updates lb rb ->
  (forall u, clk d <= u < sweep_start lb rb d m + j - 1 -> arr u = (false, false)) -> snd (arr (sweep_start lb rb d m + j - 1)) = true ->
  on_sites ts -> centered 0 ts -> nonzero ts -> lapack_along (all_bonds lb rb n) (ts0, None) ->
  exists d' ts' e, execute arr n d = Ok d' /\ on_disk cten unit (res real) N ts' (W d') /\ eng (W d') = Some (Ok e) /\
    on_sites ts' /\ energy_of ts' e /\ (e <= expect ts)%R.
Proof.
  intros arr n ts ts0 lb rb d m j HR PS PE Hm Hj HQ HA HO HC HZ HLA. assert (H3 : 3 <= N) by apply HR. pose proof (range _ _ _ _ _ HR) as RG.
  destruct (emergency_at cten cop (res real) dT rows cols trivc (d_grow ws) upd canoL canoR bigL smallL bigR smallR combL combR dbg N (rows0 ltac:(lia)) (colsN ltac:(lia)) wlink
    (fun i g t => grow_len_l ws i g t (pm_cols _ _ _ PM i)) (fun i g t => grow_len_r ws i g t (pm_rows _ _ _ PM i)) arr n ts ts0 lb rb d m j HR PS PE Hm Hj HQ HA) as [d' [A1 [_ [A2 A3]]]].
  destruct (prep_ok N ds canoL canoR bigL smallL bigR smallR combL combR HcL HcR HbL HbR ts ts0 lb rb H3 HO HC (proj1 (proj2 HR))) as [P1 [P2 P3]].
  destruct (state_expect _ _ P2) as [X1 [X2 _]].
  set (bs := all_bonds lb rb m ++ firstn j (bonds lb rb)).
  assert (BS : all_bonds lb rb n = bs ++ skipn j (bonds lb rb) ++ all_bonds lb rb (n - m - 1)).
  { unfold bs. rewrite (all_bonds_split lb rb m n ltac:(lia)), <- app_assoc. f_equal. rewrite app_assoc, firstn_skipn. assert (En : n - m = S (n - m - 1)) by lia. rewrite En at 1. reflexivity. }
  pose proof (path_all N lb rb n ltac:(lia) ltac:(lia)) as PA. rewrite BS in PA, HLA. destruct (path_split _ _ _ _ _ PA) as [l' [PA' _]]. apply lapack_app in HLA. destruct HLA as [LA _].
  destruct (opts_ok N ws ds stev close maxit size split PM ES Hmax _ lb l' ts0 None PA' P1 (centered_mixed _ _ P3) (X2 HZ) LA) as [Q1 [Q2 [Q3 [Q4 Q5]]]].
  assert (OB : opts bs (ts0, None) = opts (firstn j (bonds lb rb)) (sweeps_spec lb rb m (ts0, None))) by (rewrite sweeps_all; unfold bs, SweepSpec.opts; apply fold_left_app).
  rewrite OB in *. destruct Q4 as [e [E1 E2]].
  { unfold bs. intros C. apply app_eq_nil in C. destruct C as [_ C]. apply (f_equal (@length _)) in C. rewrite firstn_length in C. unfold updates in Hj. cbn in C. lia. }
  exists d', (fst (opts (firstn j (bonds lb rb)) (sweeps_spec lb rb m (ts0, None)))), e. split; [exact A1|]. split; [exact A2|]. split; [rewrite A3; exact E1|]. split; [exact Q1|]. split; [exact E2|].
  rewrite <- X1, <- (energy_expect N ws _ e E2). exact Q5.
Qed.
End Run.
