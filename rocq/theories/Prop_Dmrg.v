(** Properties C28 - C30: DMRG runs, signals, block operator files. *)
From Coq Require Import List Arith Lia Bool ZArith.
From Verif Require Import Base Disk SweepSpec DiskFacts TwoSite VmpsInit NoiseSpec VmpsInitFacts NoiseInst Dmrg DmrgSpec DmrgFacts DmrgMore DmrgInst.
Import ListNotations.
Local Open Scope nat_scope.

Section Runs.
Variables T C En : Type.                                     (* tensors, block operators, energies *)
Variables (dT : T) (rows cols : nat -> nat) (trivc : side -> C) (growc : side -> nat -> list C -> T -> list C).
Variable solve : bool -> nat -> list C -> T -> T -> list C -> T * T * En.                    (* any update *)
Variables (canoL canoR : T -> T -> T * T) (bigL smallL bigR smallR : T -> bool) (combL combR : T -> T -> T * T).
Variable dbg : bool.                                         (* with or without assertions *)
Variable N : nat.
(** the matrices of operators fit together; growing a block gives one operator per column or row *)
Hypothesis shape0 : rows 0 = 1.
Hypothesis shapeN : cols (N - 1) = 1.
Hypothesis shapeS : forall i, i + 1 < N -> cols i = rows (i + 1).
Hypothesis lenL : forall i g t, length g = rows i -> length (growc L i g t) = cols i.
Hypothesis lenR : forall i g t, length g = cols i -> length (growc R i g t) = rows i.
Notation execute := (execute T C En dT rows cols trivc growc solve canoL canoR bigL smallL bigR smallR combL combR dbg).
Notation sweeps_spec := (sweeps_spec T (list C) En (fun s => [trivc s]) growc solve N).
Notation opts := (opts T (list C) En (fun s => [trivc s]) growc solve N).
Notation right_env := (right_env T (list C) (fun s => [trivc s]) growc N).
Notation W := (W T C En). Notation op := (op T C En). Notation stp := (stp T C En). Notation emg := (emg T C En). Notation clk := (clk T C En).
Notation dm := (dm T unit En). Notation mm := (mm T unit En). Notation eng := (eng T unit En).
Notation on_disk := (on_disk T unit En N). Notation mem_empty := (mem_empty T unit En N).
Notation ready := (ready T C En N cols trivc growc canoL canoR bigL smallL bigR smallR combL combR).
Notation complete := (complete T C En N). Notation sees_stop := (sees_stop T C En). Notation sees_emg := (sees_emg T C En).
Notation no_emergency := (no_emergency T C En). Notation sweep_start := (sweep_start T C En). Notation executor := (executor T C En).

(** ** C28 *)
(** without emergency signals: whatever the arrival times of the others, every tensor is on disk, as after some number of sweeps *)
Theorem C28_graceful : forall arr n ts ts0 lb rb d, ready ts ts0 lb rb d -> no_emergency arr d ->
  exists m d', m <= n /\ execute arr n d = Ok d' /\ complete (center_to_0 T canoR (lb + 1) (fst (sweeps_spec lb rb m (ts0, None)))) d' /\
    (m <> 0 -> eng (W d') = snd (sweeps_spec lb rb m (ts0, None))).
Proof.
  intros arr n ts ts0 lb rb d R E.
  destruct (no_emg_run T C En dT rows cols trivc growc solve canoL canoR bigL smallL bigR smallR combL combR dbg N shape0 shapeN shapeS lenL lenR arr n ts ts0 lb rb d R E) as [m [d' [A1 [A2 [A3 [A4 _]]]]]].
  exists m, d'. auto.
Qed.
(** every schedule: the run returns; its files are complete, or an emergency signal was seen between the last update of the last sweep
    and the post-processing; then the file of exactly one site, lb + 1, may be old and its tensor is only in memory *)
Theorem C28_any_schedule : forall arr n ts ts0 lb rb d, ready ts ts0 lb rb d ->
  exists d', execute arr n d = Ok d' /\
    ((exists m, complete (center_to_0 T canoR (lb + 1) (fst (sweeps_spec lb rb m (ts0, None)))) d') \/
     (exists m j, on_disk (fst (opts (firstn j (bonds lb rb)) (sweeps_spec lb rb m (ts0, None)))) (W d') /\ mem_empty (W d')) \/
     (exists m, m <= n /\ (n <> 0 -> 1 <= m) /\ (1 <= m -> forall t, t + 2 < sweep_start lb rb d m -> ~ sees_emg arr d t) /\ sees_emg arr d (sweep_start lb rb d m) /\
        let ts1 := fst (sweeps_spec lb rb m (ts0, None)) in
        (forall j, j < N -> j <> lb + 1 -> dm (W d') j = Some (ts1 j)) /\ mm (W d') (lb + 1) = Some (ts1 (lb + 1)))).
Proof.
  intros arr n ts ts0 lb rb d R.
  destruct (run_outcome T C En dT rows cols trivc growc solve canoL canoR bigL smallL bigR smallR combL combR dbg N shape0 shapeN shapeS lenL lenR arr n ts ts0 lb rb d R) as [d' [A1 [_ [A3 _]]]].
  exists d'. split; [exact A1|]. destruct A3 as [[m [B _]]|[[m [j [B1 [B2 _]]]]|[m [B1 [B2 [B3 [B4 [B5 [B6 _]]]]]]]]].
  - left. exists m. exact B.
  - right. left. exists m, j. auto.
  - right. right. exists m. split; [exact B3|]. split; [exact B4|]. split; [intros Hm t Ht; apply B5; auto|]. split; [exact B6|]. split; [exact B1|].
    destruct (ready_range T C En rows cols trivc growc canoL canoR bigL smallL bigR smallR combL combR N shape0 shapeN _ _ _ _ _ R). rewrite B2 by lia. rewrite Nat.eqb_refl. reflexivity.
Qed.

(** ** C29 *)
(** a graceful request ends the run at the end of the sweep during which it arrives, and not earlier.  The end of sweep q is load
    [sweep_start q + updates] of a flag *)
Theorem C29_graceful_stop : forall arr n ts ts0 lb rb d, ready ts ts0 lb rb d -> no_emergency arr d -> 1 <= n ->
  exists m d', execute arr n d = Ok d' /\ 1 <= m <= n /\ complete (center_to_0 T canoR (lb + 1) (fst (sweeps_spec lb rb m (ts0, None)))) d' /\
    (forall q, q + 1 < m -> ~ sees_stop arr d (sweep_start lb rb d q + updates lb rb)) /\
    (m < n -> sees_stop arr d (sweep_start lb rb d (m - 1) + updates lb rb)).
Proof.
  intros arr n ts ts0 lb rb d R E Hn.
  destruct (no_emg_run T C En dT rows cols trivc growc solve canoL canoR bigL smallL bigR smallR combL combR dbg N shape0 shapeN shapeS lenL lenR arr n ts ts0 lb rb d R E) as [m [d' [A1 [A2 [_ [A4 [A5 [A6 A7]]]]]]]].
  exists m, d'. split; [exact A1|]. split; [split; [apply A5; lia|exact A4]|]. split; [exact A2|]. split; [exact A6|]. intros Hm. destruct A7 as [A7|[_ A7]]; [lia|exact A7].
Qed.
(** an emergency request ends the run after the update during which it arrives, if it arrives during a sweep: after m sweeps and j updates *)
Theorem C29_emergency_stop : forall arr n ts ts0 lb rb d m j, ready ts ts0 lb rb d -> stp d = false -> emg d = false ->
  m < n -> 1 <= j <= updates lb rb ->
  (forall u, clk d <= u < sweep_start lb rb d m + j - 1 -> arr u = (false, false)) -> snd (arr (sweep_start lb rb d m + j - 1)) = true ->
  exists d', execute arr n d = Ok d' /\ mem_empty (W d') /\
    on_disk (fst (opts (firstn j (bonds lb rb)) (sweeps_spec lb rb m (ts0, None)))) (W d') /\ eng (W d') = snd (opts (firstn j (bonds lb rb)) (sweeps_spec lb rb m (ts0, None))).
Proof. exact (emergency_at T C En dT rows cols trivc growc solve canoL canoR bigL smallL bigR smallR combL combR dbg N shape0 shapeN shapeS lenL lenR). Qed.
(** finding: the flags are static and never cleared.  After a run that saw a request, a run of a new executor in the same process
    does a single sweep, or a single update, whatever the number of sweeps asked for, although no signal arrives *)
Theorem C29_flags_stay : forall arr n ts ts0 lb rb d d', ready ts ts0 lb rb d -> execute arr n d = Ok d' ->
  stp (executor N d') = stp d' /\ emg (executor N d') = emg d' /\
  (forall u, clk d <= u < clk d' -> (fst (arr u) || snd (arr u) = true -> stp d' = true) /\ (snd (arr u) = true -> emg d' = true)).
Proof. exact (flags_stay T C En dT rows cols trivc growc solve canoL canoR bigL smallL bigR smallR combL combR dbg N shape0 shapeN shapeS lenL lenR). Qed.
Theorem C29_later_run_refuted : forall arr n ts ts0 lb rb d, ready ts ts0 lb rb d -> no_emergency arr d -> stp d = true -> 1 <= n ->
  exists d', execute arr n d = Ok d' /\ complete (center_to_0 T canoR (lb + 1) (fst (sweeps_spec lb rb 1 (ts0, None)))) d' /\ eng (W d') = snd (sweeps_spec lb rb 1 (ts0, None)).
Proof. exact (pending_stop T C En dT rows cols trivc growc solve canoL canoR bigL smallL bigR smallR combL combR dbg N shape0 shapeN shapeS lenL lenR). Qed.
Theorem C29_later_run_emergency_refuted : forall arr n ts ts0 lb rb d, ready ts ts0 lb rb d -> emg d = true -> 1 <= n ->
  exists d', execute arr n d = Ok d' /\ on_disk (fst (opts (firstn 1 (bonds lb rb)) (ts0, None))) (W d') /\ mem_empty (W d').
Proof. exact (pending_emergency T C En dT rows cols trivc growc solve canoL canoR bigL smallL bigR smallR combL combR dbg N shape0 shapeN shapeS lenL lenR). Qed.

(** ** C30 *)
(** in a sweep between the boundaries every update finds its operators, and they are those of the current tensors: the sweep computes
    what it computes when all operators are rebuilt from the tensors at every step ([opts]), in memory, and never reads a missing file.
    [all_ops_on_file] holds before and after every sweep *)
Theorem C30_sweeps : forall lb rb n ts d, lb + 2 <= rb -> rb < N -> Disk.nm T unit En (W d) = N ->
  on_disk_but T C En N (lb + 1) ts d -> ops_on_file T C En N trivc growc lb rb ts d ->
  stp d = false -> emg d = false ->
  exists d', sweeps T C En dT rows cols growc solve canoL canoR dbg (fun _ => (false, false)) lb rb n d = Ok d' /\
    on_disk_but T C En N (lb + 1) (fst (sweeps_spec lb rb n (ts, eng (W d)))) d' /\ ops_on_file T C En N trivc growc lb rb (fst (sweeps_spec lb rb n (ts, eng (W d)))) d' /\
    eng (W d') = snd (sweeps_spec lb rb n (ts, eng (W d))).
Proof. exact (quiet_sweeps T C En dT rows cols trivc growc solve canoL canoR dbg N shape0 shapeN shapeS lenL lenR). Qed.
(** the preparation writes the operators that the first sweep needs *)
Theorem C30_preparation : forall ts ts0 lb rb d, ready ts ts0 lb rb d ->
  exists d', dmrg_init T C En dT rows cols trivc growc solve canoL canoR bigL smallL bigR smallR combL combR dbg d = Ok (lb, rb, d') /\
    on_disk ts0 (W d') /\ mem_empty (W d') /\ ops_on_file T C En N trivc growc lb rb ts0 d'.
Proof. exact (init_ready T C En dT rows cols trivc growc solve canoL canoR bigL smallL bigR smallR combL combR dbg N shape0 shapeN shapeS lenL lenR). Qed.
(** a later run in the same directory, with the same boundaries, after a finished, gracefully stopped or emergency stopped run finds
    files it can use, if the preparation only changes the gauge of bonds inside the blocks; see C31_gauge *)
Theorem C30_rerun : forall arr n ts ts0 lb rb d, ready ts ts0 lb rb d -> 0 < cols (lb + 1) ->
  exists d', execute arr n d = Ok d' /\
    ((exists ts', complete ts' d' /\ forall ts1, prep T canoL canoR bigL smallL bigR smallR combL combR N ts' = (lb, rb, ts1) ->
        (forall k, N - rb < k <= N - 2 - lb -> right_env ts1 k = right_env ts' k) -> ready ts' ts1 lb rb (executor N d')) \/
     (exists m, m <= n /\ (forall t, t + 2 < sweep_start lb rb d m -> 1 <= m -> ~ sees_emg arr d t) /\ sees_emg arr d (sweep_start lb rb d m))).
Proof. exact (rerun T C En dT rows cols trivc growc solve canoL canoR bigL smallL bigR smallR combL combR dbg N shape0 shapeN shapeS lenL lenR). Qed.
End Runs.

(** concrete runs: five sites, boundaries 1 and 4, MPO matrices of sizes 1x2, 2x3, 3x2, 2x2, 2x1 *)
Example C28_case : forall stp emg, exists ts0, ready nat nat (list nat) 5 m_cols (fun _ => 1) m_grow n_cano n_cano m_big m_small (fun _ => true) m_small n_cano n_cano (fun i => i + 3) ts0 1 4 (m_d stp emg).
Proof. exact m_ready. Qed.
Example C28_case_shapes : m_rows 0 = 1 /\ m_cols (5 - 1) = 1 /\ (forall i, i + 1 < 5 -> m_cols i = m_rows (i + 1)) /\
  (forall i g t, length g = m_rows i -> length (m_grow L i g t) = m_cols i) /\ (forall i g t, length g = m_cols i -> length (m_grow R i g t) = m_rows i).
Proof. exact m_shapes. Qed.
Example C28_case_runs :
  (exists d, m_run quiet 3 (m_d false false) = Ok d /\ files d = map (fun i => Some (center_to_0 nat n_cano 2 (fst (m_sweeps 3 m_ts0)) i)) (seq 0 5) /\ firstn 3 (memory d) = firstn 3 (files d)) /\
  (exists d, m_run (usr_at 2) 3 (m_d false false) = Ok d /\ files d = map (fun i => Some (center_to_0 nat n_cano 2 (fst (m_sweeps 1 m_ts0)) i)) (seq 0 5)) /\
  (exists d, m_run (int_at 1) 3 (m_d false false) = Ok d /\ memory d = repeat None 5).
Proof. exact m_runs. Qed.
(** finding: an emergency signal after the last update of a sweep; the updated tensor of site 2 is not on disk *)
Theorem C28_emergency_window_refuted : exists d, m_run (int_at 4) 3 (m_d false false) = Ok d /\
  nth 2 (files d) None <> nth 2 (memory d) None /\ nth 2 (memory d) None = Some (fst (m_sweeps 1 m_ts0) 2).
Proof. exact m_lost. Qed.
(** a stop request sent to the first run: a second run of 5 sweeps is a run of 1 sweep *)
Example C29_case : exists d1 d2, m_run (usr_at 2) 3 (m_d false false) = Ok d1 /\ stp _ _ _ d1 = true /\
  m_run quiet 1 (executor nat nat (list nat) 5 d1) = Ok d2 /\ m_run quiet 5 (executor nat nat (list nat) 5 d1) = Ok d2.
Proof. exact m_sticky. Qed.
(** finding: runs in one directory with maximal bond dimensions 2, 8, 2, which move the right boundary.  The third uses operators of
    tensors that the second has replaced; an update sees a sign that no consistent chain has (and marks its tensors), although
    the same run in a new directory does not *)
Theorem C30_reused_directory_refuted : exists d1 d2 d3, gd_run 2 gd_0 = Ok d1 /\ gd_run 8 (gd_next d1) = Ok d2 /\ gd_run 2 (gd_next d2) = Ok d3 /\
  gd_marked d1 = false /\ gd_marked d2 = false /\ gd_marked d3 = true /\
  exists d4, gd_run 2 (gd_forget (gd_next d2)) = Ok d4 /\ gd_marked d4 = false.
Proof. exact gd_stale. Qed.

Print Assumptions C28_graceful.
Print Assumptions C28_any_schedule.
Print Assumptions C28_emergency_window_refuted.
Print Assumptions C29_graceful_stop.
Print Assumptions C29_emergency_stop.
Print Assumptions C29_flags_stay.
Print Assumptions C29_later_run_refuted.
Print Assumptions C29_later_run_emergency_refuted.
Print Assumptions C30_sweeps.
Print Assumptions C30_preparation.
Print Assumptions C30_rerun.
Print Assumptions C30_reused_directory_refuted.
