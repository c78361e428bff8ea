(** Property C92: a DMRG run that dies during an update, and the run of a new process after it.
    [ready ts ts0 lb rb d]: the files hold the chain [ts]; the preparation makes [ts0] of it and the boundaries lb, rb (DmrgSpec.v).
    [sweeps_spec], [opts]: sweeps and updates of a chain in memory, every block operator rebuilt at each update (SweepSpec.v).
    [complete ts d]: every tensor of [ts] is on disk. *)
From Coq Require Import List Arith Lia Bool.
From Verif Require Import Base Disk SweepSpec DiskFacts TwoSite VmpsInit NoiseSpec VmpsInitFacts NoiseInst Dmrg DmrgSpec DmrgFacts DmrgMore DmrgInst DmrgCrashFacts.
Import ListNotations.
Local Open Scope nat_scope.

Section Crash.
Variables T C En : Type.                                     (* tensors, block operators, energies *)
Variables (dT : T) (rows cols : nat -> nat) (trivc : side -> C) (growc : side -> nat -> list C -> T -> list C).
Variable solve : bool -> nat -> list C -> T -> T -> list C -> T * T * En.                    (* any update *)
Variables (canoL canoR : T -> T -> T * T) (bigL smallL bigR smallR : T -> bool) (combL combR : T -> T -> T * T).
Variables (bigL2 smallL2 bigR2 smallR2 : T -> bool) (combL2 combR2 : T -> T -> T * T).      (* the bond dimensions of the second run may be others *)
Variable dbg : bool.
Variable N : nat.
Hypothesis shape0 : rows 0 = 1.
Hypothesis shapeN : cols (N - 1) = 1.
Hypothesis shapeS : forall i, i + 1 < N -> cols i = rows (i + 1).
Hypothesis lenL : forall i g t, length g = rows i -> length (growc L i g t) = cols i.
Hypothesis lenR : forall i g t, length g = cols i -> length (growc R i g t) = rows i.
Notation execute2 := (execute T C En dT rows cols trivc growc solve canoL canoR bigL2 smallL2 bigR2 smallR2 combL2 combR2 dbg).
Notation dmrg_init := (dmrg_init T C En dT rows cols trivc growc solve canoL canoR bigL smallL bigR smallR combL combR dbg).
Notation run := (run T C En dT solve canoL canoR dbg).
Notation sweeps := (sweeps T C En dT rows cols growc solve canoL canoR dbg quiet).
Notation sweep_from := (sweep_from T C En dT rows cols growc solve canoL canoR dbg quiet).
Notation load_step := (load_step T C En dT rows cols solve canoL canoR dbg).
Notation sweeps_spec := (sweeps_spec T (list C) En (fun s => [trivc s]) growc solve N).
Notation opts := (opts T (list C) En (fun s => [trivc s]) growc solve N).
Notation prep2 := (prep T canoL canoR bigL2 smallL2 bigR2 smallR2 combL2 combR2 N).
Notation W := (W T C En). Notation stp := (stp T C En). Notation emg := (emg T C En).
Notation ready := (ready T C En N cols trivc growc canoL canoR bigL smallL bigR smallR combL combR).
Notation ready2 := (DmrgSpec.ready T C En N cols trivc growc canoL canoR bigL2 smallL2 bigR2 smallR2 combL2 combR2).
Notation right_env := (right_env T (list C) (fun s => [trivc s]) growc N).
Notation update_step := (update_step T C En rows cols growc solve dbg). Notation dump_tensor := (dump_tensor T C En dT solve canoL canoR dbg).
Notation complete := (complete T C En N). Notation on_disk := (on_disk T unit En N). Notation new_process := (new_process T C En N).

(** the process dies after k sweeps and the updates [bs] of the next one, while update [b] runs: its data are loaded, nothing is written yet.
    The chain on disk is the current one but for the tensor [b] found in memory, whose file is older; on the way to the right, from the
    second site after the boundary on, it is that of before the sweep (finding: tensors of two chains next to each other).  A new process whose
    left boundary is not further in does all its sweeps: it uses no block operator of before, whatever the chain *)
Theorem C92_death_during_an_update : forall k ts ts0 lb rb d bs b rest, ready ts ts0 lb rb d -> stp d = false -> emg d = false -> 0 < cols (lb + 1) ->
  bonds lb rb = bs ++ b :: rest ->
  exists d0 d1 d2 d3 d4 t, dmrg_init d = Ok (lb, rb, d0) /\ run [LoadM (lb + 1)] d0 = Ok d1 /\ sweeps lb rb k d1 = Ok d2 /\
    sweep_from lb rb bs d2 = Ok d3 /\ load_step lb rb (fst b) (snd b) d3 = Ok d4 /\
    (fst b = true -> lb + 1 < snd b -> t = fst (sweeps_spec lb rb k (ts0, None)) (snd b)) /\
    let cs := fset (fst (opts bs (sweeps_spec lb rb k (ts0, None)))) (inmem lb rb b) t in
    on_disk cs (W (new_process d4)) /\
    forall lb' rb' cs1, prep2 cs = (lb', rb', cs1) -> lb' <= lb -> ready2 cs cs1 lb' rb' (new_process d4) /\
    forall n, exists d5, execute2 quiet n (new_process d4) = Ok d5 /\ complete (center_to_0 T canoR (lb' + 1) (fst (sweeps_spec lb' rb' n (cs1, None)))) d5.
Proof. exact (dies_updating T C En dT rows cols trivc growc solve canoL canoR bigL smallL bigR smallR combL combR bigL2 smallL2 bigR2 smallR2 combL2 combR2 dbg N shape0 shapeN shapeS lenL lenR). Qed.
(** which site that is, said without the boundaries: the one shared with the update before *)
Theorem C92_the_site_in_memory : forall lb rb bs c b rest, lb + 2 <= rb -> bonds lb rb = bs ++ c :: b :: rest ->
  inmem lb rb b = (if fst c then snd c + 1 else snd c) /\ (inmem lb rb b = snd b \/ inmem lb rb b = snd b + 1).
Proof. exact inmem_shared. Qed.
(** the boundaries of the new process may also be further in: then it may find all operators that it looks for; they belong to the chain on disk, and
    must still belong to it after its preparation.  [rb' <= rb]: the blocks it needs are among those of the dead run *)
Theorem C92_any_boundaries : forall k ts ts0 lb rb d bs b rest, ready ts ts0 lb rb d -> stp d = false -> emg d = false -> (forall i, i < N -> 0 < cols i) ->
  bonds lb rb = bs ++ b :: rest ->
  exists d0 d1 d2 d3 d4 t, dmrg_init d = Ok (lb, rb, d0) /\ run [LoadM (lb + 1)] d0 = Ok d1 /\ sweeps lb rb k d1 = Ok d2 /\
    sweep_from lb rb bs d2 = Ok d3 /\ load_step lb rb (fst b) (snd b) d3 = Ok d4 /\
    let cs := fset (fst (opts bs (sweeps_spec lb rb k (ts0, None)))) (inmem lb rb b) t in
    on_disk cs (W (new_process d4)) /\
    forall lb' rb' cs1, prep2 cs = (lb', rb', cs1) -> rb' <= rb -> (forall n, N - rb' < n <= N - 2 - lb' -> right_env cs1 n = right_env cs n) ->
    ready2 cs cs1 lb' rb' (new_process d4) /\
    forall n, exists d5, execute2 quiet n (new_process d4) = Ok d5 /\ complete (center_to_0 T canoR (lb' + 1) (fst (sweeps_spec lb' rb' n (cs1, None)))) d5.
Proof. exact (dies_any_boundaries T C En dT rows cols trivc growc solve canoL canoR bigL smallL bigR smallR combL combR bigL2 smallL2 bigR2 smallR2 combL2 combR2 dbg N shape0 shapeN shapeS lenL lenR). Qed.
(** the process dies while update [b] reads and removes operators: the first m of them are gone.  [b = (true, lb) -> _]: in the first update of a
    sweep at least one; before that the files are those between two sweeps *)
Theorem C92_death_while_loading : forall k ts ts0 lb rb d bs b rest m, ready ts ts0 lb rb d -> stp d = false -> emg d = false -> 0 < cols (lb + 1) ->
  bonds lb rb = bs ++ b :: rest -> (b = (true, lb) -> 0 < m) ->
  exists d0 d1 d2 d3 t, dmrg_init d = Ok (lb, rb, d0) /\ run [LoadM (lb + 1)] d0 = Ok d1 /\ sweeps lb rb k d1 = Ok d2 /\ sweep_from lb rb bs d2 = Ok d3 /\
    let d4 := part_removed T C En N b m d3 in
    let cs := fset (fst (opts bs (sweeps_spec lb rb k (ts0, None)))) (inmem lb rb b) t in
    on_disk cs (W (new_process d4)) /\
    forall lb' rb' cs1, prep2 cs = (lb', rb', cs1) -> lb' <= lb -> ready2 cs cs1 lb' rb' (new_process d4) /\
    forall n, exists d5, execute2 quiet n (new_process d4) = Ok d5 /\ complete (center_to_0 T canoR (lb' + 1) (fst (sweeps_spec lb' rb' n (cs1, None)))) d5.
Proof. exact (dies_loading T C En dT rows cols trivc growc solve canoL canoR bigL smallL bigR smallR combL combR bigL2 smallL2 bigR2 smallR2 combL2 combR2 dbg N shape0 shapeN shapeS lenL lenR). Qed.
(** the process dies while update [b] writes: its tensor is in its file, and the first m operators of the block it has grown, of whatever content.
    [rest = [] -> _]: after the last update of a sweep not all of them.  All tensors on disk are current but the one kept in memory for the next update *)
Theorem C92_death_while_writing : forall k ts ts0 lb rb d bs b rest m g, ready ts ts0 lb rb d -> stp d = false -> emg d = false -> 0 < cols (lb + 1) ->
  bonds lb rb = bs ++ b :: rest -> (rest = [] -> m < cols (lb + 1)) ->
  exists d0 d1 d2 d3 d4 d5 d6 t, dmrg_init d = Ok (lb, rb, d0) /\ run [LoadM (lb + 1)] d0 = Ok d1 /\ sweeps lb rb k d1 = Ok d2 /\
    sweep_from lb rb bs d2 = Ok d3 /\ load_step lb rb (fst b) (snd b) d3 = Ok d4 /\ update_step (fst b) (snd b) d4 = Ok d5 /\ dump_tensor (fst b) (snd b) d5 = Ok d6 /\
    let d7 := part_written T C En N b m g d6 in
    let cs := fset (fst (opts (bs ++ [b]) (sweeps_spec lb rb k (ts0, None)))) (if fst b then snd b + 1 else snd b) t in
    on_disk cs (W (new_process d7)) /\
    forall lb' rb' cs1, prep2 cs = (lb', rb', cs1) -> lb' <= lb -> ready2 cs cs1 lb' rb' (new_process d7) /\
    forall n, exists d8, execute2 quiet n (new_process d7) = Ok d8 /\ complete (center_to_0 T canoR (lb' + 1) (fst (sweeps_spec lb' rb' n (cs1, None)))) d8.
Proof. exact (dies_writing T C En dT rows cols trivc growc solve canoL canoR bigL smallL bigR smallR combL combR bigL2 smallL2 bigR2 smallR2 combL2 combR2 dbg N shape0 shapeN shapeS lenL lenR). Qed.
(** the process dies between two sweeps: the operators of before are complete and the next process uses them.  They belong to the chain on disk;
    they must still belong to it after the preparation of the next process (the finding of C30: nothing checks this) *)
Theorem C92_death_between_sweeps : forall k ts ts0 lb rb d, ready ts ts0 lb rb d -> stp d = false -> emg d = false ->
  exists d0 d1 d2 t, dmrg_init d = Ok (lb, rb, d0) /\ run [LoadM (lb + 1)] d0 = Ok d1 /\ sweeps lb rb k d1 = Ok d2 /\
    let cs := fset (fst (sweeps_spec lb rb k (ts0, None))) (lb + 1) t in
    on_disk cs (W (new_process d2)) /\ (k = 0 -> t = ts0 (lb + 1)) /\
    forall cs1, prep2 cs = (lb, rb, cs1) -> (forall n, N - rb < n <= N - 2 - lb -> right_env cs1 n = right_env cs n) -> ready2 cs cs1 lb rb (new_process d2) /\
    forall n, exists d3, execute2 quiet n (new_process d2) = Ok d3 /\ complete (center_to_0 T canoR (lb + 1) (fst (sweeps_spec lb rb n (cs1, None)))) d3.
Proof. exact (dies_between_sweeps T C En dT rows cols trivc growc solve canoL canoR bigL smallL bigR smallR combL combR bigL2 smallL2 bigR2 smallR2 combL2 combR2 dbg N shape0 shapeN shapeS lenL lenR). Qed.
Notation boundary := (boundary T unit En dT tt (fun _ => tt) (fun _ _ _ _ => tt) (fun rt l _ a b _ => solve rt l [] a b []) canoL canoR bigL smallL bigR smallR combL combR dbg).
Notation init_ops := (init_ops T C En dT rows cols trivc growc solve canoL canoR dbg).
(** the process dies while the first operators are written: those of up to m sites are there, the largest block is missing (before the run, too).
    The loop has come as far as it goes for the left boundary N - 2 - m.  The files hold the prepared chain, and the new process writes all operators again *)
Theorem C92_death_during_preparation : forall m ts ts0 lb rb d c0, ready ts ts0 lb rb d -> c0 < cols (lb + 1) -> op T C En d R (N - 2 - lb) c0 = None -> 1 <= m < N - 2 - lb ->
  exists w d1 d2, boundary (W d) = Ok (lb, rb, w) /\ (if tmp T unit En w then Ok (setW T C En w d) else run [Mkdir] (setW T C En w d)) = Ok d1 /\ init_ops (N - 2 - m) d1 = Ok d2 /\
    on_disk ts0 (W (new_process d2)) /\
    forall lb' rb' cs1, prep2 ts0 = (lb', rb', cs1) -> lb' <= lb -> ready2 ts0 cs1 lb' rb' (new_process d2) /\
    forall n, exists d5, execute2 quiet n (new_process d2) = Ok d5 /\ complete (center_to_0 T canoR (lb' + 1) (fst (sweeps_spec lb' rb' n (cs1, None)))) d5.
Proof. exact (dies_preparing T C En dT rows cols trivc growc solve canoL canoR bigL smallL bigR smallR combL combR bigL2 smallL2 bigR2 smallR2 combL2 combR2 dbg N shape0 shapeN shapeS lenL lenR). Qed.
End Crash.

(** concrete case: five sites, boundaries 1 and 4; every preparation of such a chain has a left boundary of at most 1 *)
Theorem C92_case : exists ts0, ready nat nat (list nat) 5 m_cols (fun _ => 1) m_grow n_cano n_cano m_big m_small (fun _ => true) m_small n_cano n_cano (fun i => i + 3) ts0 1 4 (m_d false false) /\
  0 < m_cols (1 + 1) /\ bonds 1 4 = [(true, 1)] ++ (true, 2) :: [(false, 3); (false, 2)] /\ (forall cs lb' rb' cs1, m_prep cs = (lb', rb', cs1) -> lb' <= 1).
Proof.
  destruct (m_ready false false) as [ts0 R]. exists ts0. split; [exact R|]. split; [cbn; lia|]. split; [reflexivity|].
  intros cs lb' rb' cs1 H. apply prep_range in H; [|lia]. cbn in H. lia.
Qed.
(** the process dies in the second update of the first sweep: site 2 is on disk as before the sweep, site 1 as after its update; the next process
    completes a sweep, and its result differs from that of a run that did not die *)
Definition c_step bs b (d : dst nat nat (list nat)) :=
  let! d := sweep_from nat nat (list nat) 0 m_rows m_cols m_grow m_solve n_cano n_cano true quiet 1 4 bs d in
  load_step nat nat (list nat) 0 m_rows m_cols m_solve n_cano n_cano true 1 4 (fst b) (snd b) d.
Definition c_died : res (dst nat nat (list nat)) :=
  let! (_, _, d) := dmrg_init nat nat (list nat) 0 m_rows m_cols (fun _ => 1) m_grow m_solve n_cano n_cano m_big m_small (fun _ => true) m_small n_cano n_cano true (m_d false false) in
  let! d := run nat nat (list nat) 0 m_solve n_cano n_cano true [LoadM 2] d in c_step [(true, 1)] (true, 2) d.
Theorem C92_mixed_chain : exists d d5 d6, c_died = Ok d /\
  (let now := fst (opts nat (list nat) (list nat) (fun _ => [1]) m_grow m_solve 5 [(true, 1)] (m_ts0, None)) in
   files d = map Some [now 0; now 1; m_ts0 2; now 3; now 4] /\ now 1 <> m_ts0 1 /\ now 2 <> m_ts0 2) /\
  m_run quiet 1 (new_process nat nat (list nat) 5 d) = Ok d5 /\ m_run quiet 1 (m_d false false) = Ok d6 /\ files d5 <> files d6.
Proof.
  eexists. eexists. eexists. split; [vm_compute; reflexivity|]. split; [vm_compute; repeat split; discriminate|].
  split; [vm_compute; reflexivity|]. split; [vm_compute; reflexivity|]. vm_compute. discriminate.
Qed.
(** between sweeps, with a preparation that leaves every chain as it is: boundaries 0 and 4 *)
Definition i_cano (a b : nat) : nat * nat := (a, b).
Definition i_prep := prep nat i_cano i_cano (fun _ => true) m_small (fun _ => true) m_small i_cano i_cano 5.
Theorem C92_case_between : (exists ts0, ready nat nat (list nat) 5 m_cols (fun _ => 1) m_grow i_cano i_cano (fun _ => true) m_small (fun _ => true) m_small i_cano i_cano (fun i => i + 3) ts0 0 4 (m_d false false)) /\
  (forall i, i < 5 -> 0 < m_cols i) /\ forall cs, exists cs1, i_prep cs = (0, 4, cs1) /\ forall n, 5 - 4 < n <= 5 - 2 - 0 -> right_env nat (list nat) (fun _ => [1]) m_grow 5 cs1 n = right_env nat (list nat) (fun _ => [1]) m_grow 5 cs n.
Proof.
  split.
  - exists (snd (i_prep (fun i => i + 3))). split; [lia|]. split; [reflexivity|]. split; [reflexivity|]. split; [intros i _; reflexivity|]. split; [intros i _; reflexivity|]. intros H. discriminate.
  - split; [intros i Hi; do 5 (destruct i as [|i]; [cbn; lia|]); lia|]. intros cs. exists (snd (i_prep cs)). split; [reflexivity|]. intros n Hn. apply right_env_ext; [lia|]. intros i Hi. do 5 (destruct i as [|i]; [try lia; reflexivity|]). lia.
Qed.
(** during the preparation of the same run, with the operators of one or two sites written; the new process has the same boundaries *)
Theorem C92_case_preparing : op _ _ _ (m_d false false) R (5 - 2 - 0) 0 = None /\ 0 < m_cols (0 + 1) /\ 1 <= 1 < 5 - 2 - 0 /\ 1 <= 2 < 5 - 2 - 0 /\
  exists w d2, boundary nat unit (list nat) 0 tt (fun _ => tt) (fun _ _ _ _ => tt) (fun rt l _ a b _ => m_solve rt l [] a b []) i_cano i_cano (fun _ => true) m_small (fun _ => true) m_small i_cano i_cano true (W _ _ _ (m_d false false)) = Ok (0, 4, w) /\
    (let! d1 := run nat nat (list nat) 0 m_solve i_cano i_cano true [Mkdir] (setW _ _ _ w (m_d false false)) in
     init_ops nat nat (list nat) 0 m_rows m_cols (fun _ => 1) m_grow m_solve i_cano i_cano true (5 - 2 - 2) d1) = Ok d2 /\
    op _ _ _ d2 R 2 0 <> None /\ op _ _ _ d2 R 3 0 = None.
Proof.
  split; [reflexivity|]. split; [cbn; lia|]. split; [lia|]. split; [lia|]. eexists; eexists. split; [vm_compute; reflexivity|]. split; [vm_compute; reflexivity|]. split; [vm_compute; discriminate|vm_compute; reflexivity].
Qed.
(** a second run whose left boundary is further in, 1 instead of 0.  After a death in the first update it finds all operators that it looks for:
    the file that is missing is not among them *)
Definition i_prep2 := prep nat i_cano i_cano (fun _ => false) (fun _ => false) (fun _ => true) (fun _ => false) i_cano i_cano 5.
Definition i_died : res (dst nat nat (list nat)) :=
  let! (_, _, d) := dmrg_init nat nat (list nat) 0 m_rows m_cols (fun _ => 1) m_grow m_solve i_cano i_cano (fun _ => true) m_small (fun _ => true) m_small i_cano i_cano true (m_d false false) in
  let! d := run nat nat (list nat) 0 m_solve i_cano i_cano true [LoadM 1] d in load_step nat nat (list nat) 0 m_rows m_cols m_solve i_cano i_cano true 0 4 true 0 d.
Theorem C92_case_further_in : (forall cs, exists cs1, i_prep2 cs = (1, 4, cs1) /\ forall n, 5 - 4 < n <= 5 - 2 - 1 -> right_env nat (list nat) (fun _ => [1]) m_grow 5 cs1 n = right_env nat (list nat) (fun _ => [1]) m_grow 5 cs n) /\
  bonds 0 4 = [] ++ (true, 0) :: [(true, 1); (true, 2); (false, 3); (false, 2); (false, 1)] /\
  exists d, i_died = Ok d /\ op _ _ _ d R 3 0 = None /\ ops_missing nat nat (list nat) m_cols 1 4 d = false /\ ops_missing nat nat (list nat) m_cols 0 4 d = true.
Proof.
  split; [|split; [reflexivity|]].
  - intros cs. exists (snd (i_prep2 cs)). split; [reflexivity|]. intros n Hn. apply right_env_ext; [lia|]. intros i Hi. do 5 (destruct i as [|i]; [try lia; reflexivity|]). lia.
  - eexists. split; [vm_compute; reflexivity|]. split; [vm_compute; reflexivity|]. split; vm_compute; reflexivity.
Qed.

Print Assumptions C92_any_boundaries.
Print Assumptions C92_death_while_loading.
Print Assumptions C92_death_while_writing.
Print Assumptions C92_death_between_sweeps.
Print Assumptions C92_death_during_preparation.
Print Assumptions C92_death_during_an_update.
Print Assumptions C92_the_site_in_memory.
