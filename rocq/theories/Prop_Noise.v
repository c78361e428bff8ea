(** Properties C24 - C27: the preparation of noised and DMRG runs, noised two-site sweeps, the adaptive noise. *)
From Coq Require Import List Arith Lia Bool ZArith QArith Qminmax Qabs Ring.
From Verif Require Import Base Disk SweepSpec DiskFacts TwoSite TwoSiteFacts FiniteMps FmpsSpec FmpsFacts FmpsInst VmpsInit NoiseSpec VmpsInitFacts Noise NoiseFacts NoiseRule NoiseMore VmpsTen NoiseInst.
Import ListNotations.
Local Open Scope nat_scope.

(** ** C24: the boundaries, over any commutative ring with conjugation and any exact QR decomposition.
    [chain N ts]: the tensors 0 .. N-1; [same_state]: the same number of tensors and the same amplitude for every configuration. *)
Section Bounds.
Variables (R : Type) (r0 r1 : R) (radd rmul rsub : R -> R -> R) (ropp : R -> R).
Variable Rth : ring_theory r0 r1 radd rmul rsub ropp (@eq R).
Variable conj : R -> R.
Hypothesis conj0 : conj r0 = r0.
Hypothesis conj1 : conj r1 = r1.
Hypothesis conj_add : forall x y, conj (radd x y) = radd (conj x) (conj y).
Hypothesis conj_mul : forall x y, conj (rmul x y) = rmul (conj x) (conj y).
Variable qr : ten R -> ten R * mat2 R.
Hypothesis QR : qr_exact R r0 r1 radd rmul conj qr.
Variables E En : Type.
Variables (dT : ten R) (dE : E) (triv : side -> E) (grow : side -> nat -> E -> ten R -> E) (solve : bool -> nat -> E -> ten R -> ten R -> E -> ten R * ten R * En).
Variable dbg : bool.
Variables N D : nat.        (* sites, maximal bond dimension *)
Notation boundary := (boundary (ten R) E En dT dE triv grow solve (tcanoL R r0 radd rmul qr) (tcanoR R r0 radd rmul qr)
  (tbigL R D) (tsmallL R) (tbigR R D) (tsmallR R) (tcombL R r0 r1 radd rmul) (tcombR R r0 r1 radd rmul) dbg).
Notation LC := (left_canonical R r0 r1 radd rmul conj).
Notation RC := (right_canonical R r0 r1 radd rmul conj).

Theorem C24_boundaries : forall ts w, 3 <= N -> nm _ _ _ w = N -> mem_empty _ _ _ N w -> on_disk _ _ _ N ts w -> linked R 1 (chain R N ts) 1 ->
  exists lb rb ts' w', boundary w = Ok (lb, rb, w') /\
    lb + 2 <= rb /\ 2 * lb + 3 <= N /\ N + 1 <= 2 * rb /\ rb < N /\
    mem_empty _ _ _ N w' /\ on_disk _ _ _ N ts' w' /\
    same_state R r0 r1 radd rmul 1 1 (chain R N ts) (chain R N ts') /\
    (forall j, j <= lb -> LC (ts' j)) /\ (forall j, rb <= j < N -> RC (ts' j)) /\
    (* if the center was at site 0 or 1, it is at lb + 1 now *)
    ((forall j, lb + 2 <= j < N -> RC (ts j)) -> forall j, lb + 2 <= j < N -> RC (ts' j)) /\
    (* outside the boundaries the bonds are as large as they can be; the boundaries are as far in as D and the middle allow *)
    (forall j, j < lb -> d0 (ts' j) * d1 (ts' j) <= d2 (ts' j)) /\ (forall j, rb < j < N -> d1 (ts' j) * d2 (ts' j) <= d0 (ts' j)) /\
    (D < d0 (ts' lb) * d1 (ts' lb) \/ N <= 2 * lb + 4) /\ (D < d1 (ts' rb) * d2 (ts' rb) \/ 2 * rb <= N + 2).
Proof.
  intros ts w HN W1 W2 W3 HL.
  destruct (boundary_ok (ten R) E En dT dE triv grow solve (tcanoL R r0 radd rmul qr) (tcanoR R r0 radd rmul qr)
    (tbigL R D) (tsmallL R) (tbigR R D) (tsmallR R) (tcombL R r0 r1 radd rmul) (tcombR R r0 r1 radd rmul) dbg N ts w HN W1 W2 W3) as [lb [rb [ts' [w' [P1 [P2 [_ [P4 P5]]]]]]]].
  destruct (prep_gauge R r0 r1 radd rmul rsub ropp Rth conj conj0 conj1 conj_add conj_mul qr QR N D ts lb rb ts' HN HL P1) as [G1 [G2 [G3 [G4 [G5 [G6 [G7 [G8 [G9 G10]]]]]]]]].
  destruct (prep_stop R r0 r1 radd rmul rsub ropp Rth conj conj0 conj1 conj_add conj_mul qr QR N D ts lb rb ts' HN HL P1) as [S1 S2].
  exists lb, rb, ts', w'. repeat (split; [assumption|]). assumption.
Qed.
End Bounds.
(** five integer tensors: boundaries 0, 4 for D = 1 and 1, 3 for D = 3 *)
Example C24_case : linked Z 1 (chain Z 5 z5) 1 /\ mem_empty _ _ _ 5 z5_w /\ on_disk _ _ _ 5 z5 z5_w /\ qr_exact Z 0%Z 1%Z Z.add Z.mul zconj zqr.
Proof. split; [exact z5_linked|]. split; [intros i _; reflexivity|]. split; [intros i _; reflexivity|exact zqr_exact]. Qed.
Example C24_case_bounds : bounds_of (z_boundary 1 z5_w) = Some (0, 4) /\ bounds_of (z_boundary 3 z5_w) = Some (1, 3).
Proof. exact z5_bounds. Qed.

(** ** C25: two sites *)
Section Two.
Variables T E En : Type.
Variables (dT : T) (dE : E) (triv : side -> E) (grow : side -> nat -> E -> T -> E) (solve : bool -> nat -> E -> T -> T -> E -> T * T * En).
Variables (canoL canoR : T -> T -> T * T) (bigL smallL bigR smallR : T -> bool) (combL combR : T -> T -> T * T).
(** without assertions the preparation succeeds, reports boundaries 0, 0, and the file of site 1 holds the default tensor [dT];
    with assertions it aborts, after having written that file *)
Theorem C25_two_sites_lose_a_tensor : forall ts w, nm T E En w = 2 -> mem_empty T E En 2 w -> on_disk T E En 2 ts w ->
  (exists w', boundary T E En dT dE triv grow solve canoL canoR bigL smallL bigR smallR combL combR false w = Ok (0, 0, w') /\
     dm T E En w' 0 = Some (ts 0) /\ dm T E En w' 1 = Some dT /\ mm T E En w' 1 = Some dT) /\
  boundary T E En dT dE triv grow solve canoL canoR bigL smallL bigR smallR combL combR true w = Abort /\
  (exists w', exec T E En dT dE triv grow solve canoL canoR true ([EmptyM; LoadM 0] ++ dumps [0; 1]) w = Ok w' /\ dm T E En w' 1 = Some dT).
Proof. exact (two_sites T E En dT dE triv grow solve canoL canoR bigL smallL bigR smallR combL combR). Qed.
End Two.
Example C25_case : nm _ _ _ (nw 2) = 2 /\ mem_empty _ _ _ 2 (nw 2) /\ on_disk _ _ _ 2 (fun i => i + 3) (nw 2).
Proof. split; [reflexivity|]. split; intros i _; reflexivity. Qed.

(** ** C26: noised sweeps *)
Section Noised.
Variables T E St : Type.                 (* tensors, environments, noise and energy *)
Variables (dT : T) (dE : E) (triv : side -> E) (grow : side -> nat -> E -> T -> E).
Variables (canoL canoR : T -> T -> T * T) (bigL smallL bigR smallR : T -> bool) (combL combR : T -> T -> T * T).
Variable solve3 : bool -> nat -> E -> T -> T -> E -> T -> St -> T * T * T * St.   (* any update of two sites and the next one *)
Variable preset : nat -> option St.
Variable carry : St -> St.
Variable solve2 : bool -> nat -> E -> T -> T -> E -> T * T * St.
Variable dbg : bool.
Variable N : nat.
Notation nexec := (nexec T E St dT dE triv grow canoL canoR solve3 preset carry solve2 dbg).
Notation run_noise := (run_noise T E St dT dE triv grow canoL canoR bigL smallL bigR smallR combL combR solve3 preset carry solve2 dbg).
Notation prep := (prep T canoL canoR bigL smallL bigR smallR combL combR N).
Notation sweeps3 := (sweeps3 T E St triv grow solve3 N preset carry).
Notation point := (spoint3 T E St triv grow N).
(** between the boundaries: memory holds exactly the tensors lb and lb+1, before and after any number of sweeps, which compute
    what sweeps with environments rebuilt at each step compute *)
Theorem C26_sweeps : forall lb rb n k ts w, lb + 2 <= rb -> rb < N -> point lb rb ts w -> (preset k <> None \/ eng _ _ _ w <> None) ->
  exists w', nexec (flat_map (sweep3 N lb rb) (seq k n)) w = Ok w' /\
    point lb rb (fst (sweeps3 lb rb n k (ts, eng _ _ _ w))) w' /\ eng _ _ _ w' = snd (sweeps3 lb rb n k (ts, eng _ _ _ w)).
Proof.
  intros lb rb n k ts w H1 H2 H3 H4.
  destruct (sweeps3_ok T E St dT dE triv grow canoL canoR solve3 preset carry solve2 dbg N lb rb H1 H2 n k ts w [] H3 H4) as [w' [A [B [C _]]]].
  exists w'. rewrite app_nil_r in A. auto.
Qed.
(** the whole run: preparation, sweeps, final dump.  [envs_fresh]: the environment files that the run finds and does not rewrite
    belong to the prepared tensors; in particular when there is no temporary directory *)
Theorem C26_run : forall sweeps ts w lb rb ts1, 3 <= N -> nm _ _ _ w = N -> mem_empty T E St N w -> on_disk T E St N ts w -> preset 0 <> None ->
  prep ts = (lb, rb, ts1) -> envs_fresh T E St triv grow N ts1 lb rb w ->
  exists ts2 s w', sweeps3 lb rb (S sweeps) 0 (ts1, None) = (ts2, Some s) /\ run_noise false (S sweeps) w = Ok (s, w') /\
    nm _ _ _ w' = N /\ mem_empty T E St N w' /\ on_disk T E St N (set2 T ts2 lb (canoL (ts2 lb) (ts2 (lb + 1)))) w'.
Proof. exact (run_noise_ok T E St dT dE triv grow canoL canoR bigL smallL bigR smallR combL combR solve3 preset carry solve2 dbg N). Qed.
(** findings: an empty list of noises, or no sweep at all, never gives a result *)
Theorem C26_no_noises_refuted : forall sweeps w r,
  Noise.run_noise T E St dT dE triv grow canoL canoR bigL smallL bigR smallR combL combR solve3 (fun _ => None) carry solve2 dbg true sweeps w <> Ok r.
Proof. exact (no_noise_never_returns T E St dT dE triv grow canoL canoR bigL smallL bigR smallR combL combR solve3 carry solve2 dbg). Qed.
Theorem C26_no_sweeps_refuted : forall w r, run_noise false 0 w <> Ok r.
Proof. exact (no_sweep_never_returns T E St dT dE triv grow canoL canoR bigL smallL bigR smallR combL combR solve3 carry solve2 dbg preset). Qed.
End Noised.
Example C26_case : 3 <= 5 /\ nm _ _ _ (nw 5) = 5 /\ mem_empty _ _ _ 5 (nw 5) /\ on_disk _ _ _ 5 (fun i => i + 3) (nw 5) /\ n_preset 0 <> None /\
  forall lb rb ts1, envs_fresh nat (list nat) (list (list nat)) (fun _ => []) (fun _ _ e t => t :: e) 5 ts1 lb rb (nw 5).
Proof. split; [lia|]. split; [reflexivity|]. split; [intros i _; reflexivity|]. split; [intros i _; reflexivity|]. split; [discriminate|]. intros lb rb ts1 H. discriminate. Qed.
Example C26_case_result : exists s w', n_run false 2 (nw 5) = Ok (s, w') /\ length s = 8 /\
  (let '(lb, rb, ts) := n_prep (fun i => i + 3) in lb = 1 /\ rb = 4 /\ snd (n_spec lb rb 2 ts) = Some s).
Proof. exact n_run_agrees. Qed.
(** finding: three runs in one temporary directory with a small, a large and again a small maximal bond dimension.  The third
    one uses right environments of tensors that the second one has replaced: an update sees a sign that no gauge-consistent
    chain gives (-1), although the same run in a new directory sees only 1 *)
Theorem C26_reused_directory_refuted : exists l, g_three = Ok l /\ existsb (fun s => existsb (Z.eqb (-1)) s) l = true /\
  exists l', g_fresh = Ok l' /\ forallb (fun s => forallb (Z.eqb 1) s) l' = true.
Proof. exact stale_environments. Qed.

(** ** C27: the noise.  [rnd]: rounding of the products, monotone and idempotent; [within M x]: 0 <= x <= M and x is a double *)
Section Rule.
Local Open Scope Q_scope.
Variable rnd : Q -> Q.
Hypothesis rnd_mono : forall x y, x <= y -> rnd x <= rnd y.
Hypothesis rnd_0 : rnd 0 == 0.
Variables alpha dec inc mx : Q.
Hypothesis Hdec : 0 <= dec <= 1.
Hypothesis Hinc : 1 <= inc.
Hypothesis Hmx : 0 <= mx.
Hypothesis rnd_repr : forall x, rnd (rnd x) == rnd x.
Hypothesis mx_repr : rnd mx == mx.
Theorem C27_one_step : forall M s a, mx <= M -> within rnd M (nz s) -> within rnd M (rule rnd alpha dec inc mx s a).
Proof. exact (rule_within rnd rnd_mono rnd_0 alpha dec inc mx Hdec Hinc Hmx rnd_repr mx_repr). Qed.
(** for every sequence of energies, starting anew from the current noise at each step *)
Theorem C27_every_history : forall M l n, mx <= M -> within rnd M n ->
  within rnd M (fold_left (fun n e => let '(e0, la, a) := e in rule rnd alpha dec inc mx (mkN n e0 la) a) l n).
Proof.
  intros M l. induction l as [|[[e0 la] a] l IH]; intros n HM H; [exact H|]. cbn [fold_left]. apply IH; [exact HM|]. apply C27_one_step; [exact HM|exact H].
Qed.
(** in a run: whatever the update does, it is only ever given noises in the range, where M is at least the maximal noise and all
    noises of the list; two update functions that agree on the range give the same run *)
Section Run.
Variables T E : Type.
Variables (dT : T) (dE : E) (triv : side -> E) (grow : side -> nat -> E -> T -> E).
Variables (canoL canoR : T -> T -> T * T) (bigL smallL bigR smallR : T -> bool) (combL combR : T -> T -> T * T).
Variable ept : bool -> nat -> E -> T -> T -> E -> Q.
Variable solve2 : bool -> nat -> E -> T -> T -> E -> T * T * nst.
Variable dbg : bool.
Variable noises : list Q.
Variable M : Q.
Hypothesis HM : mx <= M.
Hypothesis Hn : Forall (within rnd M) noises.
Notation run u := (run_noise T E nst dT dE triv grow canoL canoR bigL smallL bigR smallR combL combR (nsolve rnd alpha dec inc mx T E ept u) (npreset noises) ncarry solve2 dbg).
Theorem C27_runs_end_in_range : forall u sweeps w s w', run u false sweeps w = Ok (s, w') -> within rnd M (nz s).
Proof. exact (run_within rnd rnd_mono rnd_0 alpha dec inc mx Hdec Hinc Hmx rnd_repr mx_repr T E dT dE triv grow canoL canoR bigL smallL bigR smallR combL combR ept solve2 dbg noises M HM Hn). Qed.
Theorem C27_runs_use_noises_in_range : forall u u' sweeps w,
  (forall rt l el a b er c n, within rnd M n -> u rt l el a b er c n = u' rt l el a b er c n) -> run u false sweeps w = run u' false sweeps w.
Proof. exact (run_same rnd rnd_mono rnd_0 alpha dec inc mx Hdec Hinc Hmx rnd_repr mx_repr T E dT dE triv grow canoL canoR bigL smallL bigR smallR combL combR ept solve2 dbg noises M HM Hn). Qed.
End Run.
End Rule.
(** rounding down to multiples of 1/8; a history in which the noise goes down, up, is cut at the maximum, and stays *)
Example C27_case : (forall x y, x <= y -> rnd8 x <= rnd8 y)%Q /\ (rnd8 0 == 0)%Q /\ (forall x, rnd8 (rnd8 x) == rnd8 x)%Q /\ (rnd8 (3 # 2) == 3 # 2)%Q /\ within rnd8 (3 # 2) 1.
Proof. split; [exact rnd8_mono|]. split; [reflexivity|]. split; [exact rnd8_repr|]. split; [reflexivity|]. repeat split; discriminate. Qed.
Example C27_case_moves : forallb (fun p => Qeq_bool (fst p) (snd p)) (combine n_trace [(1 # 2); 1; (3 # 2); (3 # 2)]%Q) = true.
Proof. exact n_trace_moves. Qed.

Print Assumptions C24_boundaries.
Print Assumptions C25_two_sites_lose_a_tensor.
Print Assumptions C26_sweeps.
Print Assumptions C26_run.
Print Assumptions C26_no_noises_refuted.
Print Assumptions C26_no_sweeps_refuted.
Print Assumptions C26_reused_directory_refuted.
Print Assumptions C27_one_step.
Print Assumptions C27_every_history.
Print Assumptions C27_runs_end_in_range.
Print Assumptions C27_runs_use_noises_in_range.
