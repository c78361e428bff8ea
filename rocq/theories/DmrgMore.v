(** Consequences of DmrgFacts.execute_ok. *)
From Coq Require Import List Arith Lia Bool.
From Verif Require Import Base Disk SweepSpec DiskFacts TwoSite VmpsInit NoiseSpec VmpsInitFacts Dmrg DmrgSpec DmrgFacts.
Import ListNotations.

Section More.
Variables T C En : Type.
Variables (dT : T) (rows cols : nat -> nat) (trivc : side -> C) (growc : side -> nat -> list C -> T -> list C).
Variable solve : bool -> nat -> list C -> T -> T -> list C -> T * T * En.
Variables (canoL canoR : T -> T -> T * T) (bigL smallL bigR smallR : T -> bool) (combL combR : T -> T -> T * T).
Variable dbg : bool.
Variable N : nat.
Hypothesis shape0 : rows 0 = 1.
Hypothesis shapeN : cols (N - 1) = 1.
Hypothesis shapeS : forall i, i + 1 < N -> cols i = rows (i + 1).
Hypothesis lenL : forall i g t, length g = rows i -> length (growc L i g t) = cols i.
Hypothesis lenR : forall i g t, length g = cols i -> length (growc R i g t) = rows i.
Notation execute := (execute T C En dT rows cols trivc growc solve canoL canoR bigL smallL bigR smallR combL combR dbg).
Notation sweeps_spec := (sweeps_spec T (list C) En (fun s => [trivc s]) growc solve N).
Notation opts := (opts T (list C) En (fun s => [trivc s]) growc solve N).
Notation right_env := (right_env T (list C) (fun s => [trivc s]) growc N).
Notation W := (W T C En). Notation op := (op T C En). Notation stp := (stp T C En). Notation emg := (emg T C En). Notation clk := (clk T C En).
Notation dm := (dm T unit En). Notation mm := (mm T unit En). Notation nm := (nm T unit En). Notation eng := (eng T unit En).
Notation on_disk := (on_disk T unit En N). Notation mem_empty := (mem_empty T unit En N).
Notation ready := (ready T C En N cols trivc growc canoL canoR bigL smallL bigR smallR combL combR).
Notation complete := (complete T C En N). Notation sees_stop := (sees_stop T C En). Notation sees_emg := (sees_emg T C En).
Notation no_emergency := (no_emergency T C En). Notation sweep_start := (sweep_start T C En).
Notation executor := (executor T C En).

Lemma ready_range : forall ts ts0 lb rb d, ready ts ts0 lb rb d -> lb + 2 <= rb /\ rb < N.
Proof.
  intros ts ts0 lb rb d [H3 [HP _]]. pose proof (prep_range _ _ _ _ _ _ _ _ _ N _ _ _ _ H3 HP).
  pose proof (half_bounds N H3) as [B1 [B2 [B3 B4]]]. unfold half in *. destruct (Nat.even N); lia.
Qed.
Lemma updates_blen : forall lb rb, lb + 2 <= rb -> updates lb rb = blen lb rb.
Proof. intros lb rb H. unfold updates, blen, bonds. rewrite app_length, !map_length, rev_length, !seq_length. lia. Qed.

Definition outcome (arr : nat -> bool * bool) (lb rb n : nat) (ts0 : nat -> T) (d d' : dst T C En) : Prop :=
  let U := updates lb rb in let st := sweep_start lb rb d in
  (exists m, let s := sweeps_spec lb rb m (ts0, None) in
     complete (center_to_0 T canoR (lb + 1) (fst s)) d' /\ (m <> 0 -> eng (W d') = snd s) /\
     m <= n /\ (n <> 0 -> 1 <= m) /\ (forall q, q + 1 < m -> ~ sees_stop arr d (st q + U)) /\ (m = n \/ 1 <= m /\ sees_stop arr d (st (m - 1) + U)) /\
     (forall t, (m = 0 /\ t <= st 0 \/ 1 <= m /\ t <= st (m - 1) + U + 1) -> ~ sees_emg arr d t) /\ finished T C En trivc growc solve canoR N lb rb ts0 m d') \/
  (exists m j, let s := opts (firstn j (bonds lb rb)) (sweeps_spec lb rb m (ts0, None)) in
     on_disk (fst s) (W d') /\ mem_empty (W d') /\ eng (W d') = snd s /\
     m < n /\ 1 <= j <= U /\ sees_emg arr d (st m + j - 1) /\ (forall t, t < st m + j - 1 -> ~ sees_emg arr d t \/ m = 0 /\ t < st 0) /\ (forall q, q < m -> ~ sees_stop arr d (st q + U)) /\ stopped T C En cols trivc growc solve N lb rb ts0 m j d') \/
  (exists m, let s := sweeps_spec lb rb m (ts0, None) in
     (forall j, j < N -> j <> lb + 1 -> dm (W d') j = Some (fst s j)) /\ (forall j, j < N -> mm (W d') j = if j =? lb + 1 then Some (fst s j) else None) /\
     m <= n /\ (n <> 0 -> 1 <= m) /\ (forall t, t + 2 < st m -> 1 <= m -> ~ sees_emg arr d t) /\ sees_emg arr d (st m) /\ (m = n \/ 1 <= m /\ (sees_stop arr d (st (m - 1) + U) \/ sees_emg arr d (st (m - 1) + U + 1))) /\ lost T C En trivc growc solve N lb rb ts0 m d').

Lemma vis_le : forall a c p t t', t <= t' -> visible a c p t -> visible a c p t'.
Proof. intros a c p t t' H [V|[u [V1 V2]]]; [left; auto|right; exists u; split; auto; lia]. Qed.

Lemma run_outcome : forall arr n ts ts0 lb rb d, ready ts ts0 lb rb d ->
  exists d', execute arr n d = Ok d' /\ tmp T unit En (W d') = true /\ outcome arr lb rb n ts0 d d' /\
   flags_ok T C En arr (clk d) (stp d) (emg d) d'.
Proof.
  intros arr n ts ts0 lb rb d R. destruct (ready_range _ _ _ _ _ R) as [Hlr HrN]. destruct R as [H3 [HP [H1 [HM [HD HF]]]]].
  destruct (execute_ok T C En dT rows cols trivc growc solve canoL canoR bigL smallL bigR smallR combL combR dbg arr N shape0 shapeN shapeS lenL lenR lb rb Hlr HrN (clk d) (stp d) (emg d) n ts ts0 d H3 HP H1 HM HD HF eq_refl eq_refl eq_refl) as [d' [A1 [A2 [A3 A4]]]].
  assert (EU : updates lb rb = blen lb rb) by (apply updates_blen; auto).
  assert (ES : forall q, sweep_start lb rb d q = tm lb rb (clk d) q) by (intros q; unfold DmrgSpec.sweep_start, tm; rewrite EU; auto).
  assert (STEP : forall q, tm lb rb (clk d) (S q) = tm lb rb (clk d) q + blen lb rb + 2) by (intros; unfold tm; lia).
  assert (MONO : forall p q, p <= q -> tm lb rb (clk d) p <= tm lb rb (clk d) q) by (intros; unfold tm; apply Nat.add_le_mono_l; apply Nat.mul_le_mono_r; auto).
  exists d'. split; [auto|]. split; [auto|]. split; [|auto].
  unfold outcome. rewrite EU. destruct A4 as [[m [F [B1 [B2 [B3 [B4 B5]]]]]]|[[m [j [F [B1 [B2 [B3 [B4 B5]]]]]]]|[m [F [B1 [B2 [B3 [B4 [B5 B6]]]]]]]]].
  - left. exists m. pose proof F as F0. destruct F as [F1 [F2 [F3 [F4 F5]]]]. split.
    { split; [exact F2|]. intros j Hj. rewrite F3 by auto. destruct (j <=? lb + 1); auto. }
    split; [auto|]. split; [auto|]. split; [auto|]. split; [intros q Hq; rewrite ES; apply B3; auto|].
    split; [rewrite ES; auto|]. split; [|exact F0]. intros t Ht V. apply B5. revert V. rewrite !ES in Ht. apply vis_le.
    destruct (Nat.eqb_spec m n), (Nat.eqb_spec m 0); subst; try lia.
  - right. left. exists m, j. pose proof F as F0. destruct F as [[F1 [F2 [F3 F4]]] F5]. split; [auto|]. split; [auto|]. split; [auto|]. split; [auto|]. split; [auto|]. rewrite ES. split; [auto|].
    split; [|split; [intros q Hq; rewrite ES; apply B5; auto|exact F0]].
    intros t Ht. destruct (le_lt_dec (tm lb rb (clk d) m) t) as [Hl|Hl]; [left; apply B4; lia|].
    destruct m as [|m]; [right; split; auto; rewrite ES; auto|]. left. intros V. destruct (B5 m ltac:(lia)) as [_ NV]. apply NV. revert V. apply vis_le. rewrite STEP in Hl. lia.
  - right. right. exists m. pose proof F as F0. destruct F as [F1 [F2 [F3 F4]]]. split; [auto|]. split; [auto|]. split; [auto|]. split; [auto|]. rewrite ES. split; [|split; [auto|split; [rewrite ES; exact B6|exact F0]]].
    intros t Ht Hm V. destruct m as [|m]; [lia|]. rewrite STEP in Ht.
    destruct (Nat.eq_dec (blen lb rb) 0) as [Z|Z]; [unfold blen in Z; lia|].
    apply (B3 m (tm lb rb (clk d) m + blen lb rb - 1)); [lia|lia|]. revert V. apply vis_le. lia.
Qed.
Lemma no_emg : forall arr d t, no_emergency arr d -> ~ sees_emg arr d t.
Proof. intros arr d t [E1 E2] [V|[u [V1 V2]]]; [congruence|]. rewrite E2 in V2 by lia. discriminate. Qed.
Lemma no_emg_run : forall arr n ts ts0 lb rb d, ready ts ts0 lb rb d -> no_emergency arr d ->
  exists m d', execute arr n d = Ok d' /\
    complete (center_to_0 T canoR (lb + 1) (fst (sweeps_spec lb rb m (ts0, None)))) d' /\ (m <> 0 -> eng (W d') = snd (sweeps_spec lb rb m (ts0, None))) /\
    m <= n /\ (n <> 0 -> 1 <= m) /\ (forall q, q + 1 < m -> ~ sees_stop arr d (sweep_start lb rb d q + updates lb rb)) /\
    (m = n \/ 1 <= m /\ sees_stop arr d (sweep_start lb rb d (m - 1) + updates lb rb)).
Proof.
  intros arr n ts ts0 lb rb d R E. destruct (run_outcome arr n ts ts0 lb rb d R) as [d' [A1 [A2 [A3 _]]]].
  destruct A3 as [[m [B1 [B2 [B3 [B4 [B5 [B6 [B7 _]]]]]]]]|[[m [j [B1 [B2 [B3 [B4 [B5 [B6 _]]]]]]]]|[m [B1 [B2 [B3 [B4 [B5 [B6 _]]]]]]]]].
  - exists m, d'. repeat (split; [assumption|]). assumption.
  - elim (no_emg arr d _ E B6).
  - elim (no_emg arr d _ E B6).
Qed.
Lemma pending_stop : forall arr n ts ts0 lb rb d, ready ts ts0 lb rb d -> no_emergency arr d -> stp d = true -> 1 <= n ->
  exists d', execute arr n d = Ok d' /\ complete (center_to_0 T canoR (lb + 1) (fst (sweeps_spec lb rb 1 (ts0, None)))) d' /\ eng (W d') = snd (sweeps_spec lb rb 1 (ts0, None)).
Proof.
  intros arr n ts ts0 lb rb d R E P Hn. destruct (no_emg_run arr n ts ts0 lb rb d R E) as [m [d' [A1 [A2 [A3 [A4 [A5 [A6 A7]]]]]]]].
  exists d'. assert (M : m = 1). { specialize (A5 ltac:(lia)). destruct (Nat.eq_dec m 1); auto. exfalso. apply (A6 0); [lia|]. left. auto. }
  subst m. auto.
Qed.
Lemma pending_emergency : forall arr n ts ts0 lb rb d, ready ts ts0 lb rb d -> emg d = true -> 1 <= n ->
  exists d', execute arr n d = Ok d' /\ on_disk (fst (opts (firstn 1 (bonds lb rb)) (ts0, None))) (W d') /\ mem_empty (W d').
Proof.
  intros arr n ts ts0 lb rb d R P Hn. destruct (ready_range _ _ _ _ _ R) as [Hlr HrN]. destruct (run_outcome arr n ts ts0 lb rb d R) as [d' [A1 [A2 [A3 _]]]].
  exists d'. split; [auto|].
  assert (V : forall t, sees_emg arr d t) by (intros t; left; auto).
  destruct A3 as [[m [B1 [B2 [B3 [B4 [B5 [B6 [B7 _]]]]]]]]|[[m [j [B1 [B2 [B3 [B4 [B5 [B6 [B7 _]]]]]]]]]|[m [B1 [B2 [B3 [B4 [B5 [B6 _]]]]]]]]].
  - exfalso. apply (B7 (sweep_start lb rb d 0)); [|apply V]. right. split; [apply B4; lia|]. unfold DmrgSpec.sweep_start. lia.
  - assert (E : m = 0 /\ j = 1).
    { destruct (le_lt_dec (sweep_start lb rb d m + j - 1) (sweep_start lb rb d 0)) as [Hl|Hl].
      - unfold DmrgSpec.sweep_start in Hl. destruct m; cbn in Hl; [lia|]. lia.
      - destruct (B7 _ Hl) as [B|B]; [elim B; apply V|lia]. }
    destruct E as [-> ->]. exact (conj B1 B2).
  - exfalso. specialize (B4 ltac:(lia)). apply (B5 (sweep_start lb rb d 0)); [|auto|apply V]. unfold DmrgSpec.sweep_start. destruct m; [lia|]. 
    assert (1 <= updates lb rb) by (rewrite updates_blen by auto; unfold blen; lia). cbn. lia.
Qed.

(** *** a later run in the same directory *)
Lemma stopped_ready : forall m j ts0 lb rb ts1 d' arr n d ts, ready ts ts0 lb rb d -> execute arr n d = Ok d' ->
  stopped T C En cols trivc growc solve N lb rb ts0 m j d' ->
  prep T canoL canoR bigL smallL bigR smallR combL combR N (fst (opts (firstn j (bonds lb rb)) (sweeps_spec lb rb m (ts0, None)))) = (lb, rb, ts1) ->
  (forall n, N - rb < n <= N - 2 - lb -> right_env ts1 n = right_env (fst (opts (firstn j (bonds lb rb)) (sweeps_spec lb rb m (ts0, None)))) n) -> 0 < cols (lb + 1) ->
  ready (fst (opts (firstn j (bonds lb rb)) (sweeps_spec lb rb m (ts0, None)))) ts1 lb rb (executor N d').
Proof.
  intros m j ts0 lb rb ts1 d' arr n d ts R X [[F1 [F2 [F3 F4]]] F5] HP HG HC. destruct (ready_range _ _ _ _ _ R) as [Hlr HrN].
  split; [apply R|]. split; [auto|]. split; [reflexivity|]. split; [intros i _; reflexivity|]. split; [exact F2|].
  intros _ HA k Hk. cbn [Dmrg.op Dmrg.executor] in *. destruct F4 as [F4|F4].
  - rewrite HG by auto. apply F4. lia.
  - exfalso. apply (HA (N - 2 - lb) 0); [lia| |apply F4; auto]. replace (N - 1 - (N - 2 - lb)) with (lb + 1) by lia. auto.
Qed.
Lemma finished_ready : forall m ts0 lb rb ts1 d' d ts, ready ts ts0 lb rb d ->
  finished T C En trivc growc solve canoR N lb rb ts0 m d' ->
  prep T canoL canoR bigL smallL bigR smallR combL combR N (center_to_0 T canoR (lb + 1) (fst (sweeps_spec lb rb m (ts0, None)))) = (lb, rb, ts1) ->
  (forall n, N - rb < n <= N - 2 - lb -> right_env ts1 n = right_env (center_to_0 T canoR (lb + 1) (fst (sweeps_spec lb rb m (ts0, None)))) n) ->
  ready (center_to_0 T canoR (lb + 1) (fst (sweeps_spec lb rb m (ts0, None)))) ts1 lb rb (executor N d').
Proof.
  intros m ts0 lb rb ts1 d' d ts R [F1 [F2 [F3 [F4 F5]]]] HP HG. destruct (ready_range _ _ _ _ _ R) as [Hlr HrN].
  split; [apply R|]. split; [auto|]. split; [reflexivity|]. split; [intros i _; reflexivity|]. split; [exact F2|].
  intros _ HA k Hk. cbn [Dmrg.op Dmrg.executor] in *. rewrite HG by auto. apply F5. lia.
Qed.
(** unless an emergency signal was seen, the files that a run leaves are a valid start of another one with the same boundaries; with
    one, unless the center tensor was lost *)
Lemma rerun : forall arr n ts ts0 lb rb d, ready ts ts0 lb rb d -> 0 < cols (lb + 1) ->
  exists d', execute arr n d = Ok d' /\
    ((exists ts', complete ts' d' /\ forall ts1, prep T canoL canoR bigL smallL bigR smallR combL combR N ts' = (lb, rb, ts1) ->
        (forall k, N - rb < k <= N - 2 - lb -> right_env ts1 k = right_env ts' k) -> ready ts' ts1 lb rb (executor N d')) \/
     (exists m, m <= n /\ (forall t, t + 2 < sweep_start lb rb d m -> 1 <= m -> ~ sees_emg arr d t) /\ sees_emg arr d (sweep_start lb rb d m))).
Proof.
  intros arr n ts ts0 lb rb d R HC. destruct (run_outcome arr n ts ts0 lb rb d R) as [d' [A1 [A2 [A3 _]]]]. exists d'. split; [auto|].
  destruct A3 as [[m [B1 [B2 [B3 [B4 [B5 [B6 [B7 F]]]]]]]]|[[m [j [B1 [B2 [B3 [B4 [B5 [B6 [B7 [B8 F]]]]]]]]]]|[m [B1 [B2 [B3 [B4 [B5 [B6 [_ F]]]]]]]]]].
  - left. exists (center_to_0 T canoR (lb + 1) (fst (sweeps_spec lb rb m (ts0, None)))). split; [auto|].
    intros ts1 HP HG. apply (finished_ready _ _ _ _ _ _ _ _ R F HP HG).
  - left. eexists. split; [|intros ts1 HP HG; apply (stopped_ready _ _ _ _ _ _ _ _ _ _ _ R A1 F HP HG HC)].
    split; [exact B1|]. intros i Hi. left. apply B2. auto.
  - right. exists m. auto.
Qed.

Lemma emergency_at : forall arr n ts ts0 lb rb d m j, ready ts ts0 lb rb d -> stp d = false -> emg d = false ->
  m < n -> 1 <= j <= updates lb rb ->
  (forall u, clk d <= u < sweep_start lb rb d m + j - 1 -> arr u = (false, false)) -> snd (arr (sweep_start lb rb d m + j - 1)) = true ->
  exists d', execute arr n d = Ok d' /\ mem_empty (W d') /\
    on_disk (fst (opts (firstn j (bonds lb rb)) (sweeps_spec lb rb m (ts0, None)))) (W d') /\ eng (W d') = snd (opts (firstn j (bonds lb rb)) (sweeps_spec lb rb m (ts0, None))).
Proof.
  intros arr n ts ts0 lb rb d m j R PS PE Hm Hj HQ HA. destruct (run_outcome arr n ts ts0 lb rb d R) as [d' [A1 [A2 [A3 _]]]].
  set (U := updates lb rb) in *. set (t0 := sweep_start lb rb d m + j - 1) in *.
  assert (ST : forall q, sweep_start lb rb d q = clk d + q * (U + 2)) by reflexivity.
  assert (NE : forall t, t < t0 -> ~ sees_emg arr d t).
  { intros t Ht [V|[u [V1 V2]]]; [congruence|]. rewrite HQ in V2 by lia. discriminate. }
  assert (NS : forall t, t < t0 -> ~ sees_stop arr d t).
  { intros t Ht [V|[u [V1 V2]]]; [congruence|]. rewrite HQ in V2 by lia. discriminate. }
  assert (YE : forall t, t0 <= t -> sees_emg arr d t).
  { intros t Ht. right. exists t0. split; [split; [|auto]|auto]. unfold t0. rewrite ST. destruct m; cbn; lia. }
  assert (MUL : forall p q, p <= q -> p * (U + 2) <= q * (U + 2)) by (intros; apply Nat.mul_le_mono_r; auto).
  exists d'. split; [auto|].
  assert (ME : forall m' j', 1 <= j' <= U -> sees_emg arr d (sweep_start lb rb d m' + j' - 1) -> (forall t, t < sweep_start lb rb d m' + j' - 1 -> ~ sees_emg arr d t \/ m' = 0 /\ t < sweep_start lb rb d 0) -> m' = m /\ j' = j).
  { intros m' j' Hj' V1 V2.
    assert (LE : t0 <= sweep_start lb rb d m' + j' - 1) by (destruct (le_lt_dec t0 (sweep_start lb rb d m' + j' - 1)); auto; elim (NE _ l); auto).
    assert (EQ : t0 = sweep_start lb rb d m' + j' - 1).
    { destruct (Nat.eq_dec t0 (sweep_start lb rb d m' + j' - 1)); auto. destruct (V2 t0 ltac:(lia)) as [V|[_ V]]; [elim V; apply YE; auto|]. unfold t0 in V. rewrite !ST in V. pose proof (MUL 0 m ltac:(lia)). lia. }
    unfold t0 in EQ. rewrite !ST in EQ. destruct (lt_eq_lt_dec m m') as [[L|L]|L].
    - pose proof (MUL (S m) m' ltac:(lia)) as X. cbn [Nat.mul] in X. lia.
    - subst m'. lia.
    - pose proof (MUL (S m') m ltac:(lia)) as X. cbn [Nat.mul] in X. lia. }
  destruct A3 as [[m' [B1 [B2 [B3 [B4 [B5 [B6 [B7 F]]]]]]]]|[[m' [j' [B1 [B2 [B3 [B4 [B5 [B6 [B7 [B8 F]]]]]]]]]]|[m' [B1 [B2 [B3 [B4 [B5 [B6 [B7 F]]]]]]]]]].
  - exfalso. specialize (B4 ltac:(lia)). destruct (le_lt_dec m' m) as [L|L].
    + destruct B6 as [B6|[_ B6]]; [lia|]. revert B6. apply NS. unfold t0. rewrite !ST. pose proof (MUL m' m L) as X. destruct m' as [|m']; [lia|]. cbn [Nat.mul] in X. replace (S m' - 1) with m' by lia. fold U. lia.
    + apply (B7 t0); [|apply YE; auto]. right. split; [auto|]. unfold t0. rewrite !ST. pose proof (MUL m (m' - 1) ltac:(lia)). fold U. lia.
  - destruct (ME m' j' B5 B6 B7) as [-> ->]. auto.
  - exfalso. specialize (B4 ltac:(lia)). destruct (le_lt_dec m' m) as [L|L].
    + destruct m' as [|m']; [lia|]. replace (S m' - 1) with m' in B7 by lia. pose proof (MUL (S m') m L) as X. cbn [Nat.mul] in X.
      destruct B7 as [B7|[_ [B7|B7]]]; [lia| |]; revert B7; [apply NS|apply NE]; unfold t0; rewrite !ST; fold U; lia.
    + apply (B5 t0); [|lia|apply YE; auto]. unfold t0. rewrite !ST. pose proof (MUL (S m) m' ltac:(lia)) as X. cbn [Nat.mul] in X. lia.
Qed.
Lemma flags_stay : forall arr n ts ts0 lb rb d d', ready ts ts0 lb rb d -> execute arr n d = Ok d' ->
  stp (executor N d') = stp d' /\ emg (executor N d') = emg d' /\
  (forall u, clk d <= u < clk d' -> (fst (arr u) || snd (arr u) = true -> stp d' = true) /\ (snd (arr u) = true -> emg d' = true)).
Proof.
  intros arr n ts ts0 lb rb d d' R X. split; [reflexivity|]. split; [reflexivity|].
  destruct (run_outcome arr n ts ts0 lb rb d R) as [d2 [A1 [_ [_ [F1 [F2 F3]]]]]]. rewrite X in A1. inversion A1; subst d2.
  intros u Hu. split; intros HA; [apply F3|apply F2]; right; exists u; auto.
Qed.
Lemma quiet_sweeps : forall lb rb n ts d, lb + 2 <= rb -> rb < N -> Disk.nm T unit En (W d) = N ->
  on_disk_but T C En N (lb + 1) ts d -> ops_on_file T C En N trivc growc lb rb ts d ->
  stp d = false -> emg d = false ->
  exists d', sweeps T C En dT rows cols growc solve canoL canoR dbg (fun _ => (false, false)) lb rb n d = Ok d' /\
    on_disk_but T C En N (lb + 1) (fst (sweeps_spec lb rb n (ts, eng (W d)))) d' /\ ops_on_file T C En N trivc growc lb rb (fst (sweeps_spec lb rb n (ts, eng (W d)))) d' /\
    eng (W d') = snd (sweeps_spec lb rb n (ts, eng (W d))).
Proof.
  intros lb rb n ts d Hlr HrN HN [D1 D2] [O1 O2] PS PE.
  destruct (sweeps_ok T C En dT rows cols trivc growc solve canoL canoR dbg (fun _ => (false, false)) N shape0 shapeN shapeS lenL lenR lb rb Hlr HrN (clk d) false false n 0 ts (eng (W d)) d)
    as [[m [d' [C1 [C2 [C3 [C4 [C5 [C6 [C7 [C8 [C9 C10]]]]]]]]]]]|[m [j [d' [C1 [C2 [C3 _]]]]]]].
  - split; [|split; intros; lia]. rewrite Nat.eqb_refl. constructor; auto. intros k Hk. replace k with lb by lia. auto.
  - split; [auto|]. split; (split; [intros E; congruence|intros [E|[u [_ E]]]; discriminate]).
  - auto.
  - unfold tm. lia.
  - exists d'. assert (M : m = n).
    { destruct C10 as [[M _]|[[_ [[V|[u [_ V]]] _]]|[_ [_ [[V|[u [_ V]]] _]]]]]; [auto| | | |]; discriminate. }
    subst m. destruct C4 as [[P1 P2 P3 P4 P5] _]. rewrite Nat.eqb_refl in *.
    split; [auto|]. split; [split; auto|]. split; [split; auto|auto].
  - destruct C3 as [V|[u [_ V]]]; discriminate.
Qed.
Lemma init_ready : forall ts ts0 lb rb d, ready ts ts0 lb rb d ->
  exists d', dmrg_init T C En dT rows cols trivc growc solve canoL canoR bigL smallL bigR smallR combL combR dbg d = Ok (lb, rb, d') /\
    on_disk ts0 (W d') /\ mem_empty (W d') /\ ops_on_file T C En N trivc growc lb rb ts0 d'.
Proof.
  intros ts ts0 lb rb d R. destruct (ready_range _ _ _ _ _ R) as [Hlr HrN]. destruct R as [H3 [HP [H1 [HM [HD HF]]]]].
  destruct (dmrg_init_ok T C En dT rows cols trivc growc solve canoL canoR bigL smallL bigR smallR combL combR dbg N shape0 shapeN shapeS lenL lenR lb rb Hlr HrN ts ts0 d H3 HP H1 HM HD HF) as [d' [A1 [A2 [A3 [A4 [_ [_ [A5 A6]]]]]]]].
  exists d'. split; [auto|]. split; [auto|]. split; [auto|split; auto].
Qed.
End More.
