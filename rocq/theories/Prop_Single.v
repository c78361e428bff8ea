(** Properties C60, C61: the disk-based single-site run (SingleSiteFiniteVMPS).
    [startable1 N ts w]: the tensors [ts] are in the MPS files, no tensor is in memory, and either there is no temporary directory
    or it holds the right environments of [ts] for up to N-1 sites and the trivial left environment.
    [sweeps1]: the same optimisation without files, every environment rebuilt from the tensors at each step. *)
From Coq Require Import List Arith Lia Bool.
From Verif Require Import Base Disk SweepSpec TwoSite SingleSite SingleSpec SingleFacts SingleCrash SingleInst.
Import ListNotations.

Section Single.
Variables T E St : Type.                                  (* tensors, environments, (noise, energies) *)
Variables (dT : T) (dE : E) (triv : side -> E) (grow : side -> nat -> E -> T -> E).
Variables canoL canoR : T -> T -> T * T.
Variable solve1 : bool -> nat -> E -> T -> E -> T -> St -> T * T * St.   (* any local solver and noise rule *)
Variable noises : list St.
Variable zero : St.
Variable carry : St -> St.
Variable solve2 : bool -> nat -> E -> T -> T -> E -> T * T * St.
Variable dbg : bool.                                      (* with or without assertions *)
Variable N : nat.
Notation world := (world T E St).
Notation run := (run_single T E St dT dE triv grow canoL canoR solve1 noises zero carry solve2 dbg).
Notation exec := (sexec T E St dT dE triv grow canoL canoR solve1 noises zero carry solve2 dbg).
Notation startable1 := (startable1 T E St triv grow N).
Notation spec := (sweeps1 T E St triv grow solve1 N (fun k => nth_error (match noises with [] => [zero] | _ => noises end) k) carry).
Notation dm := (dm T E St). Notation mm := (mm T E St). Notation tmp := (tmp T E St). Notation nm := (nm T E St).

(** C60: the run completes with the result of the optimisation in memory; everything is on disk, nothing in memory, and the
    temporary directory fits the new chain *)
Theorem C60_single_site_run : forall ts k w, 2 <= N -> startable1 ts w -> exists s w', run (S k) w = Ok (s, w') /\
  snd (spec (S k) 0 (ts, None)) = Some s /\ (forall i, i < N -> mm w' i = None /\ dm w' i = Some (fst (spec (S k) 0 (ts, None)) i)) /\
  startable1 (fst (spec (S k) 0 (ts, None))) w'.
Proof.
  intros ts k w HN HS. destruct (run_single_ok T E St dT dE triv grow canoL canoR solve1 noises zero carry solve2 dbg N ts k w HN HS) as [s [w' [H [HE [H1 _]]]]].
  exists s, w'. split; [exact H|]. split; [exact HE|]. split; [|exact H1]. destruct H1 as [_ [A [B _]]]. intros i Hi. split; [apply A|apply B]; exact Hi.
Qed.
Theorem C60_memory_bound : forall k p q (w w' : world), 2 <= N -> single_site N k (tmp w) = p ++ q -> (forall i, mm w i = None) -> exec p w = Ok w' ->
  exists a b, forall i t, mm w' i = Some t -> i = a \/ i = b.
Proof. exact (fun k p q w w' HN => peak1_ok T E St dT dE triv grow canoL canoR solve1 noises zero carry solve2 dbg N k (tmp w) p q w w' HN). Qed.
Theorem C60_runs_in_sequence : forall ks ts w, 2 <= N -> startable1 ts w -> exists ss w',
  runs_single T E St dT dE triv grow canoL canoR solve1 noises zero carry solve2 dbg ks w = Ok (ss, w') /\
  map Some ss = fst (runs_spec1 T E St triv grow solve1 noises zero carry N ks ts) /\ startable1 (snd (runs_spec1 T E St triv grow solve1 noises zero carry N ks ts)) w'.
Proof. exact (runs_single_ok T E St dT dE triv grow canoL canoR solve1 noises zero carry solve2 dbg N). Qed.
(** without sweeps the energy returned is uninitialised *)
Theorem C60_no_sweeps_refuted : forall w r, run 0 w <> Ok r.
Proof. exact (no_sweeps1 T E St dT dE triv grow canoL canoR solve1 noises zero carry solve2 dbg). Qed.
(** one site: no update is made, the tensor stays and the value returned is the initial one whatever the Hamiltonian is *)
Theorem C60_one_site_refuted : forall t k w, nm w = 1 -> mm w 0 = None -> dm w 0 = Some t -> exists s w', run (S k) w = Ok (s, w') /\
  idle St noises zero carry (S k) 0 None = Some s /\ dm w' 0 = Some t.
Proof. exact (one_site1 T E St dT dE triv grow canoL canoR solve1 noises zero carry solve2 dbg). Qed.

(** C61: after [j] complete sweeps the process dies.
    From the first removal of an environment file to the end of the sweep: the next run always throws. *)
Theorem C61_crash_inside_a_sweep : forall ts w j p q k, 2 <= N -> startable1 ts w -> sweep1 N j = p ++ q -> 5 <= length p -> q <> [] ->
  exists w', exec ((map B1 (prelude1 N (tmp w)) ++ flat_map (sweep1 N) (seq 0 j)) ++ p) (set_eng T E St None w) = Ok w' /\ run (S k) (crash T E St w') = Abort.
Proof. exact (crash_in_sweep1 T E St dT dE triv grow canoL canoR solve1 noises zero carry solve2 dbg N). Qed.
(** Between sweeps: the next run starts, but from a chain whose site 0 is whatever was on disk before *)
Theorem C61_crash_between_sweeps : forall ts w j p q, 2 <= N -> startable1 ts w -> sweep1 N j = p ++ q -> length p < 5 ->
  exists w' t0, exec ((map B1 (prelude1 N (tmp w)) ++ flat_map (sweep1 N) (seq 0 j)) ++ p) (set_eng T E St None w) = Ok w' /\
    dm w' 0 = Some t0 /\ startable1 (fset (fst (spec j 0 (ts, None))) 0 t0) (crash T E St w').
Proof. exact (crash_between_sweeps1 T E St dT dE triv grow canoL canoR solve1 noises zero carry solve2 dbg N). Qed.
(** While the first environments are being written: the directory exists, so the next run does not write them and throws *)
Theorem C61_crash_during_preparation : forall ts w p q k, 2 <= N -> startable1 ts w -> tmp w = false -> dl T E St w 0 = None ->
  Mkdir :: init_envs N 1 = p ++ q -> 1 <= length p -> 3 <= length q ->
  exists w', exec (map B1 p) (set_eng T E St None w) = Ok w' /\ run (S k) (crash T E St w') = Abort.
Proof. exact (crash_in_init1 T E St dT dE triv grow canoL canoR solve1 noises zero carry solve2 dbg N). Qed.
End Single.

(** concrete cases: a chain of four sites, two preset noises, three sweeps *)
Example C60_case : startable1 nat (list nat) es_st es_triv es_grow 4 es_ts (es_w 4) /\ 2 <= 4.
Proof. split; [exact es_startable|lia]. Qed.
Example C60_case_result : match es_run 3 (es_w 4) with Ok (s, w) => Some s = snd (es_spec 3) /\ fst (fst s) = 15 /\ map (dm _ _ _ w) [0; 1; 2; 3] = map (fun i => Some (fst (es_spec 3) i)) [0; 1; 2; 3] | _ => False end.
Proof. vm_compute. repeat split; reflexivity. Qed.
Example C61_stale_tensor : exists w', sexec _ _ _ 0 [] es_triv es_grow es_c es_c es_solve es_noises (0, [], []) es_carry es_two true (map B1 (prelude1 4 false) ++ flat_map (sweep1 4) (seq 0 1)) (es_w 4) = Ok w' /\
  dm _ _ _ w' 0 = Some 6 /\ fst (es_spec 1) 0 = 14.
Proof. eexists. split; [vm_compute; reflexivity|]. split; reflexivity. Qed.
Example C61_cases : (exists p q, sweep1 4 2 = p ++ q /\ 5 <= length p /\ q <> []) /\ (exists p q, Mkdir :: init_envs 4 1 = p ++ q /\ 1 <= length p /\ 3 <= length q).
Proof.
  split.
  - exists (firstn 9 (sweep1 4 2)), (skipn 9 (sweep1 4 2)). split; [symmetry; apply firstn_skipn|]. split; [simpl; lia|discriminate].
  - exists (firstn 6 (Mkdir :: init_envs 4 1)), (skipn 6 (Mkdir :: init_envs 4 1)). split; [symmetry; apply firstn_skipn|]. simpl. lia.
Qed.

Print Assumptions C60_single_site_run.
Print Assumptions C60_memory_bound.
Print Assumptions C60_runs_in_sequence.
Print Assumptions C60_no_sweeps_refuted.
Print Assumptions C60_one_site_refuted.
Print Assumptions C61_crash_inside_a_sweep.
Print Assumptions C61_crash_between_sweeps.
Print Assumptions C61_crash_during_preparation.
