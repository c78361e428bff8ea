(** Property C68: a DMRG run without truncation never raises the energy, and reports the energy of the chain that it leaves. *)
From Coq Require Import List Arith Bool Lia Reals.
From Verif Require Import Base Disk SweepSpec NoiseSpec Dmrg DmrgSpec FiniteMps FmpsSpec EffHam EffHamSpec ChainSpec Cx DmrgUpdate DmrgVarSpec DmrgVar DmrgVarRun DmrgVarInst.
Import ListNotations.
Local Open Scope nat_scope.

Section Var.
Variable N : nat.
Variable ws : nat -> cmpo.                                   (* the MPO *)
Variable ds : list nat.                                      (* physical dimensions *)
Variables (stev : list real -> list real -> list real * list real) (close : real -> real -> bool) (maxit : nat) (size : nat -> nat -> nat -> nat -> nat).
Variable svd : nat -> nat -> nat -> nat -> cten4 -> cten * (nat -> nat -> cx) * cten.
Variables (canoL canoR : cten -> cten -> cten * cten) (bigL smallL bigR smallR : cten -> bool) (combL combR : cten -> cten -> cten * cten).
Variables (dT : cten) (dbg : bool).
(** Hermitian MPO; SVD, QR and combiners are exact; max_iterations of the solver is at least 2 *)
Hypothesis PM : proper_mpo N ws ds.
Hypothesis ES : exact_svd cx c0 c1 cadd cmul cconj svd.
Hypothesis Hmax : 2 <= maxit.
Hypothesis HcL : moves_right cx c0 c1 cadd cmul cconj canoL.
Hypothesis HcR : moves_left cx c0 c1 cadd cmul cconj canoR.
Hypothesis HbL : moves_right cx c0 c1 cadd cmul cconj combL.
Hypothesis HbR : moves_left cx c0 c1 cadd cmul cconj combR.
Notation triv := (fun s : side => (fun _ _ : nat => c1) : cop).
Notation upd := (d_update ws stev close maxit size (d_split svd)).
Notation opts := (opts cten (list cop) (res real) (fun _ => [(fun _ _ => c1) : cop]) (d_grow ws) upd N).
Notation execute := (execute cten cop (res real) dT (fun i => mrows (ws i)) (fun i => mcols (ws i)) triv (d_grow ws) upd canoL canoR bigL smallL bigR smallR combL combR dbg).
Notation ready := (ready cten cop (res real) N (fun i => mcols (ws i)) triv (d_grow ws) canoL canoR bigL smallL bigR smallR combL combR).
Notation prep := (prep cten canoL canoR bigL smallL bigR smallR combL combR N).
Notation on_sites := (on_sites N ds). Notation energy_of := (energy_of N ws). Notation nonzero := (nonzero N). Notation expect := (expect N ws). Notation centered := (centered N).
Notation lapack_along := (lapack_along N ws stev close maxit size (d_split svd)).
Notation W := (Dmrg.W cten cop (res real)). Notation eng := (Disk.eng cten unit (res real)).
Notation stp := (Dmrg.stp cten cop (res real)). Notation emg := (Dmrg.emg cten cop (res real)). Notation clk := (Dmrg.clk cten cop (res real)).
Notation complete := (complete cten cop (res real) N). Notation no_emergency := (no_emergency cten cop (res real)). Notation sweep_start := (sweep_start cten cop (res real)).

(** the preparation and the move of the center change the gauge only: the amplitudes of all configurations stay *)
Theorem C68_preparation : forall ts ts0 lb rb, 3 <= N -> on_sites ts -> centered 0 ts -> prep ts = (lb, rb, ts0) ->
  on_sites ts0 /\ csame (sites N ts) (sites N ts0) /\ centered (lb + 1) ts0.
Proof. exact (prep_ok N ds canoL canoR bigL smallL bigR smallR combL combR HcL HcR HbL HbR). Qed.
(** after every update of every sweep the chain is normalized and the energy of the update is its expectation value; later energies are
    not above earlier ones, nor above the one before the first update (i = 0) *)
Theorem C68_updates : forall lb rb n ts e, lb + 2 <= rb -> rb < N -> on_sites ts -> cmixed N ts lb -> nonzero ts -> lapack_along (all_bonds lb rb n) (ts, e) ->
  forall i j, i <= j -> j <= length (all_bonds lb rb n) ->
  let si := opts (firstn i (all_bonds lb rb n)) (ts, e) in let sj := opts (firstn j (all_bonds lb rb n)) (ts, e) in
  (1 <= j -> exists x, snd sj = Some (Ok x) /\ energy_of (fst sj) x) /\ (expect (fst sj) <= expect (fst si))%R.
Proof. intros lb rb n ts e H1 H2. exact (energies_ok N ws ds stev close maxit size (d_split svd) PM (svd_split svd ES) Hmax (all_bonds lb rb n) lb lb ts e (path_all N lb rb n H1 H2)). Qed.
(** a run that returns normally: the files hold a normalized chain with its center on site 0, its energy is the returned one, and it is
    not above that of the chain the run started from.  A following run starts from such a chain *)
Theorem C68_run : forall arr n ts ts0 lb rb d, ready ts ts0 lb rb d -> no_emergency arr d -> 1 <= n ->
  on_sites ts -> centered 0 ts -> nonzero ts -> lapack_along (all_bonds lb rb n) (ts0, None) ->
  exists d' ts' e, execute arr n d = Ok d' /\ complete ts' d' /\ eng (W d') = Some (Ok e) /\
    on_sites ts' /\ centered 0 ts' /\ energy_of ts' e /\ (e <= expect ts)%R.
Proof. exact (run_ok N ws ds stev close maxit size (d_split svd) PM (svd_split svd ES) Hmax canoL canoR bigL smallL bigR smallR combL combR HcL HcR HbL HbR dT dbg). Qed.
(** a run that an emergency request ends after update j of sweep m leaves such files too (the center is where the update left it) *)
Theorem C68_emergency : forall arr n ts ts0 lb rb d m j, ready ts ts0 lb rb d -> stp d = false -> emg d = false -> m < n -> 1 <= j <= updates lb rb ->
  (forall u, clk d <= u < sweep_start lb rb d m + j - 1 -> arr u = (false, false)) -> snd (arr (sweep_start lb rb d m + j - 1)) = true ->
  on_sites ts -> centered 0 ts -> nonzero ts -> lapack_along (all_bonds lb rb n) (ts0, None) ->
  exists d' ts' e, execute arr n d = Ok d' /\ on_disk cten unit (res real) N ts' (W d') /\ eng (W d') = Some (Ok e) /\
    on_sites ts' /\ energy_of ts' e /\ (e <= expect ts)%R.
Proof. exact (run_emg N ws ds stev close maxit size (d_split svd) PM (svd_split svd ES) Hmax canoL canoR bigL smallL bigR smallR combL combR HcL HcR HbL HbR dT dbg). Qed.
End Var.

(** with two Krylov vectors the hypothesis on LAPACK holds for the formula of the two by two eigenproblem, for every MPO and chain *)
Example C68_case_lapack : forall N ws close size split bs s, lapack_along N ws stev2 close 2 size split bs s.
Proof. exact stev2_along. Qed.
Example C68_case_exact : exact_svd cx c0 c1 cadd cmul cconj xsvd /\ moves_right cx c0 c1 cadd cmul cconj xright /\ moves_left cx c0 c1 cadd cmul cconj xleft.
Proof. exact (conj xsvd_ok (conj xright_ok xleft_ok)). Qed.
(** three spins with H = X0 + X1 + X2, initially all up: a whole run *)
Example C68_case : proper_mpo 3 x_mpo [2; 2; 2] /\ on_sites 3 [2; 2; 2] x_ts /\ centered 3 0 x_ts /\ nonzero 3 x_ts /\
  ready cten cop (res real) 3 (fun i => mcols (x_mpo i)) (fun _ _ _ => c1) (d_grow x_mpo) xright xleft (fun _ => false) x_small (fun _ => false) x_small xright xleft x_ts x_ts0 0 2 x_d.
Proof. exact (conj x_proper (conj x_on (conj x_center (conj (normalized_nz 3 x_ts x_norm) x_ready)))). Qed.
Example C68_case_run : forall n, 1 <= n -> exists d' ts' e,
  execute cten cop (res real) (x_ts 0) (fun i => mrows (x_mpo i)) (fun i => mcols (x_mpo i)) (fun _ _ _ => c1) (d_grow x_mpo) (d_update x_mpo stev2 (fun _ _ => false) 2 (fun _ _ _ _ => 10) (d_split xsvd))
    xright xleft (fun _ => false) x_small (fun _ => false) x_small xright xleft true (fun _ => (false, false)) n x_d = Ok d' /\
  complete cten cop (res real) 3 ts' d' /\ Disk.eng cten unit (res real) (Dmrg.W cten cop (res real) d') = Some (Ok e) /\
  on_sites 3 [2; 2; 2] ts' /\ centered 3 0 ts' /\ energy_of 3 x_mpo ts' e /\ (e <= expect 3 x_mpo x_ts)%R.
Proof.
  intros n Hn. apply (C68_run 3 x_mpo [2; 2; 2] stev2 (fun _ _ => false) 2 (fun _ _ _ _ => 10) xsvd xright xleft (fun _ => false) x_small (fun _ => false) x_small xright xleft (x_ts 0) true
    x_proper xsvd_ok ltac:(lia) xright_ok xleft_ok xright_ok xleft_ok (fun _ => (false, false)) n x_ts x_ts0 0 2 x_d); auto using x_ready, x_on, x_center.
  - split; [reflexivity|]. reflexivity.
  - apply normalized_nz. exact x_norm.
  - apply stev2_along.
Qed.

Print Assumptions C68_preparation.
Print Assumptions C68_updates.
Print Assumptions C68_run.
Print Assumptions C68_emergency.
