(** Property C87: FiniteDMRG, without truncation, on an eigenstate of the Hamiltonian.
    [coef N ts c]: amplitude of the chain [ts]; [d_eigenstate N ws ds psi E]: H psi = E psi for the operator of the MPO [ws];
    [d_unit ts' ts]: ts' is ts divided by its norm.  There is no hypothesis about LAPACK: the solver stops before it is called. *)
From Coq Require Import List Arith Bool Lia Reals.
From Verif Require Import Base Disk SweepSpec NoiseSpec Dmrg DmrgSpec FiniteMps FmpsSpec EffHam EffHamSpec ChainSpec Cx DmrgUpdate DmrgVarSpec DmrgVar DmrgVarRun DmrgVarInst DmrgTruncSpec DmrgEigenSpec DmrgEigenFacts DmrgEigenInst.
Import ListNotations.
Local Open Scope nat_scope.

Section Eigen.
Variable N : nat.
Variable ws : nat -> DmrgUpdate.cmpo.                        (* the MPO *)
Variable ds : list nat.                                      (* physical dimensions *)
Variables (stev : list real -> list real -> list real * list real) (close : real -> real -> bool) (maxit : nat) (size : nat -> nat -> nat -> nat -> nat).
Variable svd : nat -> nat -> nat -> nat -> cten4 -> cten * (nat -> nat -> cx) * cten.
Variables (canoL canoR : cten -> cten -> cten * cten) (bigL smallL bigR smallR : cten -> bool) (combL combR : cten -> cten -> cten * cten).
Variables (dT : cten) (dbg : bool).
(** Hermitian MPO; SVD, QR and combiners are exact; max_iterations of the solver is at least 2 *)
Hypothesis PM : proper_mpo N ws ds.
Hypothesis ES : exact_svd cx c0 c1 cadd cmul cconj svd.
Hypothesis Hmax : 2 <= maxit.
Hypothesis HcL : moves_right cx c0 c1 cadd cmul cconj canoL.
Hypothesis HcR : moves_left cx c0 c1 cadd cmul cconj canoR.
Hypothesis HbL : moves_right cx c0 c1 cadd cmul cconj combL.
Hypothesis HbR : moves_left cx c0 c1 cadd cmul cconj combR.
Notation triv := (fun s : side => (fun _ _ : nat => c1) : cop).
Notation upd := (d_update ws stev close maxit size (d_split svd)).
Notation opts := (opts cten (list cop) (res real) (fun _ => [(fun _ _ => c1) : cop]) (d_grow ws) upd N).
Notation execute := (execute cten cop (res real) dT (fun i => mrows (ws i)) (fun i => mcols (ws i)) triv (d_grow ws) upd canoL canoR bigL smallL bigR smallR combL combR dbg).
Notation ready := (ready cten cop (res real) N (fun i => mcols (ws i)) triv (d_grow ws) canoL canoR bigL smallL bigR smallR combL combR).
Notation on_sites := (on_sites N ds). Notation nonzero := (nonzero N). Notation normalized := (normalized N). Notation centered := (centered N).
Notation eigen ts E := (d_eigenstate N ws ds (coef N ts) E). Notation d_unit := (d_unit N ds).
Notation W := (Dmrg.W cten cop (res real)). Notation eng := (Disk.eng cten unit (res real)).
Notation stp := (Dmrg.stp cten cop (res real)). Notation emg := (Dmrg.emg cten cop (res real)). Notation clk := (Dmrg.clk cten cop (res real)).
Notation complete := (complete cten cop (res real) N). Notation no_emergency := (no_emergency cten cop (res real)). Notation sweep_start := (sweep_start cten cop (res real)).

(** every update of every sweep reports E and leaves the state that it found, normalized *)
Theorem C87_updates : forall lb rb n ts e E, lb + 2 <= rb -> rb < N -> on_sites ts -> cmixed N ts lb -> nonzero ts -> eigen ts E ->
  forall j, 1 <= j -> j <= length (all_bonds lb rb n) -> let s := opts (firstn j (all_bonds lb rb n)) (ts, e) in
  snd s = Some (Ok E) /\ on_sites (fst s) /\ eigen (fst s) E /\ d_unit (fst s) ts.
Proof. intros lb rb n ts e E H1 H2. exact (eigen_each N ws ds stev close maxit size (d_split svd) PM (svd_split svd ES) Hmax E (all_bonds lb rb n) lb lb ts e (path_all N lb rb n H1 H2)). Qed.
(** a run that returns normally, after any number of sweeps, returns E and leaves the files of the same state, normalized, whether or not E is the lowest energy *)
Theorem C87_run : forall arr n ts ts0 lb rb d E, ready ts ts0 lb rb d -> no_emergency arr d -> 1 <= n ->
  on_sites ts -> centered 0 ts -> nonzero ts -> eigen ts E ->
  exists d' ts', execute arr n d = Ok d' /\ complete ts' d' /\ eng (W d') = Some (Ok E) /\ on_sites ts' /\ centered 0 ts' /\ normalized ts' /\ d_unit ts' ts.
Proof. intros arr n ts ts0 lb rb d E. exact (eigen_run N ws ds stev close maxit size (d_split svd) PM (svd_split svd ES) Hmax E canoL canoR bigL smallL bigR smallR combL combR HcL HcR HbL HbR dT dbg arr n ts ts0 lb rb d). Qed.
(** so does a run that an emergency request ends after update j of sweep m *)
Theorem C87_emergency : forall arr n ts ts0 lb rb d m j E, ready ts ts0 lb rb d -> stp d = false -> emg d = false -> m < n -> 1 <= j <= updates lb rb ->
  (forall u, clk d <= u < sweep_start lb rb d m + j - 1 -> arr u = (false, false)) -> snd (arr (sweep_start lb rb d m + j - 1)) = true ->
  on_sites ts -> centered 0 ts -> nonzero ts -> eigen ts E ->
  exists d' ts', execute arr n d = Ok d' /\ on_disk cten unit (res real) N ts' (W d') /\ eng (W d') = Some (Ok E) /\ on_sites ts' /\ normalized ts' /\ d_unit ts' ts.
Proof. intros arr n ts ts0 lb rb d m j E. exact (eigen_emg N ws ds stev close maxit size (d_split svd) PM (svd_split svd ES) Hmax E canoL canoR bigL smallL bigR smallR combL combR HcL HcR HbL HbR dT dbg arr n ts ts0 lb rb d m j). Qed.
End Eigen.
Print Assumptions C87_updates.
Print Assumptions C87_run.
Print Assumptions C87_emergency.

(** three spins with H = X0 + X1 + X2 in |+++>, the state of highest energy, stored with squared norm 2: a run returns 3 after any number of sweeps and with
    any LAPACK, although a state of energy 0 exists *)
Theorem C87_case_highest : forall n stev, 1 <= n -> exists d' ts',
  execute cten cop (res real) (v_ts 0) (fun i => mrows (x_mpo i)) (fun i => mcols (x_mpo i)) (fun _ _ _ => c1) (d_grow x_mpo) (d_update x_mpo stev (fun _ _ => false) 2 (fun _ _ _ _ => 10) (d_split xsvd))
    xright xleft (fun _ => false) x_small (fun _ => false) x_small xright xleft true (fun _ => (false, false)) n v_d = Ok d' /\
  complete cten cop (res real) 3 ts' d' /\ Disk.eng cten unit (res real) (Dmrg.W cten cop (res real) d') = Some (Ok 3%R) /\
  on_sites 3 [2; 2; 2] ts' /\ centered 3 0 ts' /\ normalized 3 ts' /\ d_unit 3 [2; 2; 2] ts' v_ts.
Proof.
  intros n stev Hn. apply (C87_run 3 x_mpo [2; 2; 2] stev (fun _ _ => false) 2 (fun _ _ _ _ => 10) xsvd xright xleft (fun _ => false) x_small (fun _ => false) x_small xright xleft (v_ts 0) true
    x_proper xsvd_ok ltac:(lia) xright_ok xleft_ok xright_ok xleft_ok (fun _ => (false, false)) n v_ts v_ts0 0 2 v_d 3%R); auto using v_ready, v_on, v_center, v_nz, v_eigen.
  split; [reflexivity|]. reflexivity.
Qed.
Theorem C87_case_lower : energy_of 3 x_mpo x_ts 0 /\ cnorm2 (sites 3 v_ts) = cre 2.
Proof. exact (conj v_lower v_norm). Qed.
Print Assumptions C87_case_highest.
Print Assumptions C87_case_lower.
