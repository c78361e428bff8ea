(** Property C91: a noised two-site run that dies, and the run that is started after it.
    [spoint3 N lb rb ts w]: between two sweeps with boundaries lb and rb the chain is [ts]; the tensors lb and lb+1 are in memory, all others and
    the environments are in files.  [crash w]: memory is lost, files stay.
    [prep], [sweeps3]: preparation and noised sweeps of a chain in memory, every environment rebuilt at each step (NoiseSpec.v).
    [RmE R n], [DumpE R n]: the right environment of n sites is removed from, written to its file; [DumpM i _]: tensor i is written. *)
From Coq Require Import List Arith Lia Bool.
From Verif Require Import Base Disk SweepSpec DiskFacts TwoSite TwoSiteFacts VmpsInit NoiseSpec VmpsInitFacts Noise NoiseFacts NoiseInst NoiseCrashFacts.
Import ListNotations.

Section Crash.
Variables T E St : Type.                 (* tensors, environments, noise and energy *)
Variables (dT : T) (dE : E) (triv : side -> E) (grow : side -> nat -> E -> T -> E).
Variables (canoL canoR : T -> T -> T * T).
Variables (bigL smallL bigR smallR : T -> bool) (combL combR : T -> T -> T * T).   (* the maximal bond dimension of the second run *)
Variable solve3 : bool -> nat -> E -> T -> T -> E -> T -> St -> T * T * T * St.
Variable preset : nat -> option St.
Variable carry : St -> St.
Variable solve2 : bool -> nat -> E -> T -> T -> E -> T * T * St.
Variable dbg : bool.
Variable N : nat.
Notation exec := (exec T E St dT dE triv grow solve2 canoL canoR dbg).
Notation nexec := (nexec T E St dT dE triv grow canoL canoR solve3 preset carry solve2 dbg).
Notation nm := (nm T E St). Notation dm := (dm T E St). Notation dl := (dl T E St). Notation dr := (dr T E St). Notation eng := (eng T E St).
Notation crash := (crash T E St).
Notation run_noise := (run_noise T E St dT dE triv grow canoL canoR bigL smallL bigR smallR combL combR solve3 preset carry solve2 dbg).
Notation boundary := (boundary T E St dT dE triv grow solve2 canoL canoR bigL smallL bigR smallR combL combR dbg).
Notation prep := (prep T canoL canoR bigL smallL bigR smallR combL combR N).
Notation sweeps3 := (sweeps3 T E St triv grow solve3 N preset carry).
Notation opts3 := (opts3 T E St triv grow solve3 N).
Notation point := (spoint3 T E St triv grow N).
Notation right_env := (right_env T E triv grow N). Notation left_env := (left_env T E triv grow).
Notation on_disk := (on_disk T E St N). Notation mem_empty := (mem_empty T E St N).

(** inside a sweep, from the removal of the first right environment until it is written again: unlike the run without noise (C23), the next run
    completes.  It does what the specification does with the chain [cs] found in the files: no environment of before is used.
    [lb' <= lb]: the left boundary of the second run is not further in than that of the first; otherwise it may not look at the missing file (C26).
    Tensors are abstract: whether the bond dimensions of neighbours in [cs] fit is not part of this *)
Theorem C91_death_inside_a_sweep : forall lb rb k j ts w p q, 3 <= N -> lb + 2 <= rb -> rb < N -> 2 * lb + 3 <= N ->
  point lb rb ts w -> (forall i, i < N -> dm w i <> None) -> (preset k <> None \/ eng w <> None) ->
  sweep3 N lb rb (k + j) = p ++ q -> In (B (RmE R (N - 2 - lb))) p -> ~ In (B (DumpE R (N - 2 - lb))) p ->
  exists w' cs, nexec (flat_map (sweep3 N lb rb) (seq k j) ++ p) w = Ok w' /\ on_disk cs (crash w') /\
    forall sweeps lb' rb' cs1, preset 0 <> None -> prep cs = (lb', rb', cs1) -> lb' <= lb ->
    exists ts2 s w2, sweeps3 lb' rb' (S sweeps) 0 (cs1, None) = (ts2, Some s) /\ run_noise false (S sweeps) (crash w') = Ok (s, w2) /\
      nm w2 = N /\ mem_empty w2 /\ on_disk (set2 T ts2 lb' (canoL (ts2 lb') (ts2 (lb' + 1)))) w2.
Proof. exact (dies_in_sweep T E St dT dE triv grow canoL canoR bigL smallL bigR smallR combL combR solve3 preset carry solve2 dbg N). Qed.

(** which chain that is.  On the way to the right, after m updates: the two tensors in memory are in their files as they were before the sweep,
    next to tensors of this sweep (finding: the bond between lb+m-1 and lb+m joins two chains) *)
Theorem C91_files_on_the_way_right : forall lb rb k ts x w m p q, lb + 2 <= rb -> rb < N -> lb + m < rb - 1 ->
  point lb rb ts w -> start St preset carry k (eng w) = Some x ->
  step_right3 N lb (lb + m) = p ++ q -> (forall i r, ~ In (B (DumpM i r)) p) ->
  exists w', nexec ([Start k; B (NewEnvs N)] ++ flat_map (step_right3 N lb) (seq lb m) ++ p) w = Ok w' /\
    forall j, j < N -> dm (crash w') j = if (j =? lb + m) || (j =? lb + m + 1) then dm w j else Some (fst (opts3 (map (fun i => (true, i)) (seq lb m)) (ts, x)) j).
Proof. exact (dies_moving_right T E St dT dE triv grow canoL canoR solve3 preset carry solve2 dbg N). Qed.
(** on the way back: all tensors but the two in memory are current *)
Theorem C91_files_on_the_way_back : forall lb rb k ts x w m p q, lb + 2 <= rb -> rb < N -> lb + 1 + m < rb ->
  point lb rb ts w -> start St preset carry k (eng w) = Some x ->
  step_left3 N rb (rb - m) = p ++ q -> (forall i r, ~ In (B (DumpM i r)) p) ->
  let bs := map (fun i => (true, i)) (seq lb (rb - 1 - lb)) ++ map (fun i => (false, i - 1)) (rev (seq (rb + 1 - m) m)) in
  exists w', nexec ([Start k; B (NewEnvs N)] ++ flat_map (step_right3 N lb) (seq lb (rb - 1 - lb)) ++ flat_map (step_left3 N rb) (rev (seq (rb + 1 - m) m)) ++ p) w = Ok w' /\
    forall j, j < N -> j <> rb - m - 1 -> j <> rb - m -> dm (crash w') j = Some (fst (opts3 bs (ts, x)) j).
Proof. exact (dies_moving_left T E St dT dE triv grow canoL canoR solve3 preset carry solve2 dbg N). Qed.

(** between two sweeps: the environments in the files are current, and so are all tensors but lb and lb+1 *)
Theorem C91_death_between_sweeps : forall lb rb k j ts w, lb + 2 <= rb -> rb < N -> point lb rb ts w -> (forall i, i < N -> dm w i <> None) ->
  (preset k <> None \/ eng w <> None) ->
  exists w' a b, nexec (flat_map (sweep3 N lb rb) (seq k j)) w = Ok w' /\
    let ts' := fst (sweeps3 lb rb j k (ts, eng w)) in on_disk (set2 T ts' lb (a, b)) (crash w') /\
    (forall n, N - 1 - rb <= n <= N - 2 - lb -> dr (crash w') n = Some (right_env ts' n)) /\ dl (crash w') lb = Some (left_env ts' lb).
Proof. exact (dies_between T E St dT dE triv grow canoL canoR solve3 preset carry solve2 dbg N). Qed.

(** while the first environments are being written: the directory exists, but the next run sees that environments are missing and writes them all.
    It starts from the prepared chain, which is complete *)
Theorem C91_death_during_preparation : forall ts w lb rb ts1 p q, 3 <= N -> nm w = N -> mem_empty w -> on_disk ts w -> prep ts = (lb, rb, ts1) ->
  dr w (N - 2 - lb) = None -> Mkdir :: init_envs N (lb + 2) = p ++ q -> ~ In (WriteAcc R (N - 2 - lb)) p ->
  exists w1 w', boundary w = Ok (lb, rb, w1) /\ exec p w1 = Ok w' /\ on_disk ts1 (crash w') /\
    forall sweeps lb' rb' cs1, preset 0 <> None -> prep ts1 = (lb', rb', cs1) -> lb' <= lb ->
    exists ts2 s w2, sweeps3 lb' rb' (S sweeps) 0 (cs1, None) = (ts2, Some s) /\ run_noise false (S sweeps) (crash w') = Ok (s, w2) /\
      nm w2 = N /\ mem_empty w2 /\ on_disk (set2 T ts2 lb' (canoL (ts2 lb') (ts2 (lb' + 1)))) w2.
Proof. exact (dies_preparing T E St dT dE triv grow canoL canoR bigL smallL bigR smallR combL combR solve3 preset carry solve2 dbg N). Qed.
End Crash.

(** concrete cases: five sites, boundaries 1 and 4 *)
Definition c_init := vmps_init nat (list nat) (list (list nat)) 0 [] (fun _ => []) (fun _ _ e t => t :: e) (fun _ _ _ a b _ => (a, b, [])) n_cano n_cano
  (fun a => 5 <? a) (fun a => a <? 3) (fun _ => true) (fun a => a <? 3) n_cano n_cano true.
Definition c_nexec := nexec nat (list nat) (list (list nat)) 0 [] (fun _ => []) (fun _ _ e t => t :: e) n_cano n_cano n_solve3 n_preset (fun s => s) (fun _ _ _ a b _ => (a, b, [])) true.
Definition c_start : res (world nat (list nat) (list (list nat))) :=
  let! (_, w) := c_init (nw 5) in c_nexec [B (LoadM 1); B (LoadM 2)] (set_eng _ _ _ None w).
Definition c_ts : nat -> nat := snd (n_prep (fun i => i + 3)).
Theorem C91_case : exists w, c_start = Ok w /\ spoint3 nat (list nat) (list (list nat)) (fun _ => []) (fun _ _ e t => t :: e) 5 1 4 c_ts w /\
  (forall i, i < 5 -> dm _ _ _ w i <> None) /\ n_preset 0 <> None /\ 2 * 1 + 3 <= 5.
Proof.
  eexists. split; [vm_compute; reflexivity|]. split; [constructor|split; [|split; [discriminate|lia]]].
  - reflexivity.
  - intros j Hj. do 5 (destruct j as [|j]; [vm_compute; reflexivity|]). lia.
  - intros j Hj H1 H2. do 5 (destruct j as [|j]; [try lia; vm_compute; reflexivity|]). lia.
  - intros n Hn. do 3 (destruct n as [|n]; [vm_compute; reflexivity|]). lia.
  - vm_compute. reflexivity.
  - intros j Hj. do 5 (destruct j as [|j]; [vm_compute; discriminate|]). lia.
Qed.
(** every preparation of a chain of five sites has a left boundary of at most 1 *)
Theorem C91_case_boundary : forall cs lb' rb' cs1, n_prep cs = (lb', rb', cs1) -> lb' <= 1.
Proof. intros cs lb' rb' cs1 H. apply prep_range in H; [|lia]. cbn in H. lia. Qed.
Theorem C91_case_points : (exists p q, sweep3 5 1 4 0 = p ++ q /\ In (B (RmE R 2)) p /\ ~ In (B (DumpE R 2)) p /\ length p = 30) /\
  (exists p q, Mkdir :: init_envs 5 3 = p ++ q /\ ~ In (WriteAcc R 2) p /\ length p = 8).
Proof.
  split.
  - exists (firstn 30 (sweep3 5 1 4 0)), (skipn 30 (sweep3 5 1 4 0)). split; [symmetry; apply firstn_skipn|]. split; [cbn; tauto|]. split; [|reflexivity]. cbn. intuition discriminate.
  - exists (firstn 8 (Mkdir :: init_envs 5 3)), (skipn 8 (Mkdir :: init_envs 5 3)). split; [symmetry; apply firstn_skipn|]. split; [|reflexivity]. cbn. intuition discriminate.
Qed.
(** the files after one update on the way to the right: sites 2 and 3 are those of before the sweep, sites 0, 1 and 4 the current ones *)
Theorem C91_mixed_chain : exists w w', c_start = Ok w /\ c_nexec ([Start 0; B (NewEnvs 5)] ++ step_right3 5 1 1) w = Ok w' /\
  let now := fst (opts3 nat (list nat) (list (list nat)) (fun _ => []) (fun _ _ e t => t :: e) n_solve3 5 [(true, 1)] (c_ts, [])) in
  map (dm _ _ _ w') [0; 1; 2; 3; 4] = map Some [now 0; now 1; c_ts 2; c_ts 3; now 4] /\ now 2 <> c_ts 2 /\ now 3 <> c_ts 3.
Proof. eexists. eexists. split; [vm_compute; reflexivity|]. split; [vm_compute; reflexivity|]. vm_compute. repeat split; discriminate. Qed.

Print Assumptions C91_death_inside_a_sweep.
Print Assumptions C91_files_on_the_way_right.
Print Assumptions C91_files_on_the_way_back.
Print Assumptions C91_death_between_sweeps.
Print Assumptions C91_death_during_preparation.
