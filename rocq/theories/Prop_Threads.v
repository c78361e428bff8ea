(** Property C36: the distributed noised sweep, with a loading and a dumping thread next to the update. *)
From Coq Require Import List Arith Lia Bool.
From Verif Require Import Base Disk SweepSpec DiskFacts TwoSite TwoSiteFacts VmpsInit NoiseSpec VmpsInitFacts Noise NoiseFacts NoiseInst Threads ThreadsFacts ThreadsSweep ThreadsRun.
Import ListNotations.

Section Threaded.
Variables T E St : Type.                 (* tensors, environments, noise and energy *)
Variables (dT : T) (dE : E) (triv : side -> E) (grow : side -> nat -> E -> T -> E).
Variables (canoL canoR : T -> T -> T * T).
Variable solve3 : bool -> nat -> E -> T -> T -> E -> T -> St -> T * T * T * St.   (* any update of two sites and the next one *)
Variable preset : nat -> option St.
Variable carry : St -> St.
Variable solve2 : bool -> nat -> E -> T -> T -> E -> T * T * St.
Variable dbg : bool.
Variable N : nat.
Notation world := (world T E St).
Notation nexec1 := (nexec1 T E St dT dE triv grow canoL canoR solve3 preset carry solve2 dbg).
Notation nexec := (nexec T E St dT dE triv grow canoL canoR solve3 preset carry solve2 dbg).
Notation steps := (steps ninstr world nexec1). Notation step := (step ninstr world nexec1). Notation bad := (bad ninstr world nexec1).
Notation begin lb rb k m w := (mkC ninstr world (flat_map (thr_sweep N lb rb) (seq k m)) [] w).
Notation serial lb rb k m := (flat_map (sweep3e (N - 1) N lb rb) (seq k m)).
Notation sweeps3 := (sweeps3 T E St triv grow solve3 N preset carry).
Notation point := (spoint3 T E St triv grow N).
Notation main := (c_main ninstr world). Notation ths := (c_ths ninstr world). Notation mem := (c_w ninstr world).

(** every number of sweeps between every pair of boundaries, under every schedule: whatever has been run so far, nothing has gone
    wrong, and either the program has ended, with the memory, files, noise and energy of the serial program, or it can go on *)
Theorem C36_any_schedule : forall lb rb k m w wf cf, lb + 2 <= rb -> rb < N -> nm _ _ _ w = N ->
  nexec (serial lb rb k m) w = Ok wf -> steps (begin lb rb k m w) cf ->
  ~ bad cf /\ ((main cf = [] /\ ths cf = [] /\ same T E St (mem cf) wf) \/ exists cf', step cf cf').
Proof. intros lb rb k m w wf cf H1 H2 H3. exact (thr_ok T E St dT dE triv grow canoL canoR solve3 preset carry solve2 dbg N lb rb H1 H2 k m w wf cf H3). Qed.
(** no schedule is infinite *)
Theorem C36_ends : forall cf, Acc (fun b a => step a b) cf.
Proof. exact (step_acc ninstr world nexec1). Qed.
(** two instructions that may run at the same time never touch the same slot or file, unless both only read it *)
Theorem C36_no_data_race : forall lb rb k m w wf cf p q c d, lb + 2 <= rb -> rb < N -> nm _ _ _ w = N ->
  nexec (serial lb rb k m) w = Ok wf -> steps (begin lb rb k m w) cf ->
  ready ninstr world cf p c -> ready ninstr world cf q d -> p <> q -> ~ races ninstr loc (rd N) (wr N) c d.
Proof.
  intros lb rb k m w wf cf p q c d H1 H2 H3 H4 H5 H6 H7 H8.
  destruct (reach_inv T E St dT dE triv grow canoL canoR solve3 preset carry solve2 dbg N lb rb H1 H2 k m w wf cf H3 H4 H5) as (vf & HI2).
  exact (inv_ready ninstr world nexec1 loc (rd N) (wr N) _ _ _ vf cf p q c d (i_nd _ _ _ _ _ _ _ _ _ _ HI2) HI2 H6 H7 H8).
Qed.
(** from the state that the preparation leaves, the serial program does succeed; so every schedule computes the sweeps of C26 *)
Theorem C36_computes_the_sweeps : forall lb rb k m ts w, lb + 2 <= rb -> rb < N -> point lb rb ts w -> (preset k <> None \/ eng _ _ _ w <> None) ->
  forall cf, steps (begin lb rb k m w) cf -> ~ bad cf /\
    ((exists cf', step cf cf') \/ (main cf = [] /\ ths cf = [] /\
       point lb rb (fst (sweeps3 lb rb m k (ts, eng _ _ _ w))) (mem cf) /\ eng _ _ _ (mem cf) = snd (sweeps3 lb rb m k (ts, eng _ _ _ w)))).
Proof.
  intros lb rb k m ts w H1 H2 H3 H4 cf HS.
  destruct (ser_ok T E St dT dE triv grow canoL canoR solve3 preset carry solve2 dbg N lb rb H1 H2 m k ts w H3 H4) as (wf & A1 & [P1 P2 P3 P4 P5] & A3).
  destruct (C36_any_schedule lb rb k m w wf cf H1 H2 (s3_nm _ _ _ _ _ _ _ _ _ _ H3) A1 HS) as (B1 & [(B2 & B3 & [S1 S2 S3 S4 S5 S6 S7])|B2]); split; auto.
  right. split; auto. split; auto. split; [|congruence].
  assert (S7L := S7 L). assert (S7R := S7 R). cbn [de_] in S7L, S7R. constructor; intros; rewrite ?S1, ?S4, ?S5, ?S7L, ?S7R; auto.
Qed.
(** after the sweeps the center moves to site 0; the files are those of the moved chain *)
Theorem C36_end_of_run : forall lb rb ts w, lb + 2 <= rb -> rb < N -> nm _ _ _ w = N -> mem_empty T E St N w -> on_disk T E St N ts w ->
  exists w', exec T E St dT dE triv grow solve2 canoL canoR dbg (post_prog lb) w = Ok w' /\ on_disk T E St N (to_zero T canoR (lb + 1) ts) w'.
Proof.
  intros lb rb ts w H1 H2 H3 H4 H5. destruct (post_ok T E St dT dE triv grow canoL canoR solve2 dbg N lb rb H1 H2 ts w H3 H4 H5) as (w' & A & _ & B & _). exists w'. auto.
Qed.
(** finding: unlike every other run, this one leaves the tensors 0 .. lb+1 in memory, so that the preparation of another run with
    the same object stops at its first assertion *)
Theorem C36_memory_left_refuted : forall bigL smallL bigR smallR combL combR lb rb ts w, lb + 2 <= rb -> rb < N -> nm _ _ _ w = N -> mem_empty T E St N w -> on_disk T E St N ts w ->
  exists w', exec T E St dT dE triv grow solve2 canoL canoR dbg (post_prog lb) w = Ok w' /\ mm _ _ _ w' 0 <> None /\
    boundary T E St dT dE triv grow solve2 canoL canoR bigL smallL bigR smallR combL combR true w' = Abort.
Proof.
  intros bigL smallL bigR smallR combL combR lb rb ts w H1 H2 H3 H4 H5. destruct (post_ok T E St dT dE triv grow canoL canoR solve2 dbg N lb rb H1 H2 ts w H3 H4 H5) as (w' & A & B & C & D). exists w'. split; auto.
  assert (E0 : mm _ _ _ w' 0 <> None) by (rewrite D by lia; discriminate). split; auto. unfold boundary. cbn [exec exec1 negb orb].
  replace (forallb (fun i => isnull (mm T E St w' i)) (seq 0 (nm T E St w'))) with false; [reflexivity|].
  symmetry. apply not_true_is_false. intros HF. rewrite forallb_forall in HF. specialize (HF 0). destruct (mm T E St w' 0); [|congruence]. discriminate HF. apply in_seq. lia.
Qed.
End Threaded.
Print Assumptions C36_any_schedule.
Print Assumptions C36_ends.
Print Assumptions C36_no_data_race.
Print Assumptions C36_computes_the_sweeps.
Print Assumptions C36_end_of_run.
Print Assumptions C36_memory_left_refuted.

(** a chain of six tensors between the boundaries 0 and 5: the hypotheses hold, and the serial program computes something *)
Definition t_ts (i : nat) : nat := i + 3.
Definition t_w : world nat (list nat) (list (list nat)) :=
  mkW _ _ _ 6 (fun j => if (j =? 0) || (j =? 1) then Some (t_ts j) else None) 0 fnone fnone None None (fun i => Some (t_ts i))
    (fun n => Some (left_env nat (list nat) (fun _ => []) (fun _ _ e t => t :: e) t_ts n))
    (fun n => Some (right_env nat (list nat) (fun _ => []) (fun _ _ e t => t :: e) 6 t_ts n)) true.
Example C36_case : 0 + 2 <= 5 /\ 5 < 6 /\ nm _ _ _ t_w = 6 /\ spoint3 nat (list nat) (list (list nat)) (fun _ => []) (fun _ _ e t => t :: e) 6 0 5 t_ts t_w /\ n_preset 0 <> None.
Proof. split; [lia|]. split; [lia|]. split; [reflexivity|]. split; [|discriminate]. constructor; intros; reflexivity. Qed.
Example C36_case_result : exists wf, nexec nat (list nat) (list (list nat)) 0 [] (fun _ => []) (fun _ _ e t => t :: e) n_cano n_cano n_solve3 n_preset (fun s => s) (fun _ _ _ a b _ => (a, b, [])) true
    (flat_map (sweep3e 5 6 0 5) (seq 0 2)) t_w = Ok wf /\ option_map (@length _) (eng _ _ _ wf) = Some 16.
Proof. eexists. split; vm_compute; reflexivity. Qed.
