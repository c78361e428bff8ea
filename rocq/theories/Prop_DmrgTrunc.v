(** Property C83: what a DMRG run with truncation leaves: norm, overlap and energy of the stored chain, bond dimensions, the returned energy. *)
From Coq Require Import List Arith Bool Lia Reals.
From Verif Require Import Base Disk SweepSpec NoiseSpec Dmrg DmrgSpec FiniteMps FmpsSpec EffHam EffHamSpec ChainSpec Cx DmrgUpdate DmrgVarSpec DmrgVar DmrgVarRun DmrgVarInst DmrgTrunc DmrgTruncSpec DmrgTruncFacts DmrgTruncRun DmrgTruncInst DmrgTruncBound ThinQr DmrgFull.
Import ListNotations.
Local Open Scope nat_scope.

Section Trunc.
Variable N : nat.
Variable ws : nat -> cmpo.                                   (* the MPO *)
Variable ds : list nat.                                      (* physical dimensions *)
Variables (stev : list real -> list real -> list real * list real) (close : real -> real -> bool) (maxit : nat) (size : nat -> nat -> nat -> nat -> nat).
Variables (svd : nat -> nat -> nat -> nat -> cten4 -> cten * (nat -> nat -> cx) * cten) (err : nat -> nat -> nat -> nat -> cten4 -> real).
Variables (canoL canoR : cten -> cten -> cten * cten) (bigL smallL bigR smallR : cten -> bool) (combL combR : cten -> cten -> cten * cten).
Variables (dT : cten) (dbg : bool).
(** Hermitian MPO; the SVD may drop singular values, QR and combiners are exact; max_iterations of the solver is at least 2 *)
Hypothesis PM : proper_mpo N ws ds.
Hypothesis ET : trunc_svd err svd.
Hypothesis Hmax : 2 <= maxit.
Hypothesis HcL : moves_right cx c0 c1 cadd cmul cconj canoL.
Hypothesis HcR : moves_left cx c0 c1 cadd cmul cconj canoR.
Hypothesis HbL : moves_right cx c0 c1 cadd cmul cconj combL.
Hypothesis HbR : moves_left cx c0 c1 cadd cmul cconj combR.
Notation En := (res (real * real)).
Notation triv := (fun s : side => (fun _ _ : nat => c1) : cop).
Notation upd := (d_update_e ws stev close maxit size svd err).
Notation opts := (opts cten (list cop) En (fun _ => [(fun _ _ => c1) : cop]) (d_grow ws) upd N).
Notation execute_ b1 s1 b2 s2 := (execute cten cop En dT (fun i => mrows (ws i)) (fun i => mcols (ws i)) triv (d_grow ws) upd canoL canoR b1 s1 b2 s2 combL combR dbg).
Notation ready_ b1 s1 b2 s2 := (ready cten cop En N (fun i => mcols (ws i)) triv (d_grow ws) canoL canoR b1 s1 b2 s2 combL combR).
Notation execute := (execute_ bigL smallL bigR smallR). Notation ready := (ready_ bigL smallL bigR smallR).
Notation on_sites := (on_sites N ds). Notation energy_of := (energy_of N ws). Notation nonzero := (nonzero N). Notation expect := (expect N ws). Notation centered := (centered N).
Notation truncated := (truncated N ws ds).
Notation lapack_trunc := (lapack_trunc N ws stev close maxit size svd err).
Notation W := (Dmrg.W cten cop En). Notation eng := (Disk.eng cten unit En).
Notation stp := (Dmrg.stp cten cop En). Notation emg := (Dmrg.emg cten cop En). Notation clk := (Dmrg.clk cten cop En).
Notation complete := (complete cten cop En N). Notation no_emergency := (no_emergency cten cop En). Notation sweep_start := (sweep_start cten cop En).

(** every update of every sweep: its energy x is that of a normalized chain ph, not above the energy of the chain before the update; the
    chain it leaves has norm square and overlap with ph 1 - d for its truncation error d *)
Theorem C83_updates : forall lb rb n ts e, lb + 2 <= rb -> rb < N -> on_sites ts -> cmixed N ts lb -> nonzero ts -> lapack_trunc (all_bonds lb rb n) (ts, e) ->
  forall i, i < length (all_bonds lb rb n) -> let si := opts (firstn i (all_bonds lb rb n)) (ts, e) in let sj := opts (firstn (S i) (all_bonds lb rb n)) (ts, e) in
  exists x d ph, snd sj = Some (Ok (x, d)) /\ truncated (fst sj) x d ph /\ (x <= expect (fst si))%R.
Proof. intros lb rb n ts e H1 H2. exact (trunc_each N ws ds stev close maxit size svd err PM ET Hmax (all_bonds lb rb n) lb lb ts e (path_all N lb rb n H1 H2)). Qed.
(** a run that returns normally: the files hold a chain with its center on site 0 that the last update left so; returned is the energy before
    the truncation *)
Theorem C83_run : forall arr n ts ts0 lb rb d, ready ts ts0 lb rb d -> no_emergency arr d -> 1 <= n ->
  on_sites ts -> centered 0 ts -> nonzero ts -> lapack_trunc (all_bonds lb rb n) (ts0, None) ->
  exists d' ts' e del ph, execute arr n d = Ok d' /\ complete ts' d' /\ eng (W d') = Some (Ok (e, del)) /\ centered 0 ts' /\ truncated ts' e del ph.
Proof.
  intros arr n ts ts0 lb rb d HR HE Hn HO HC HZ HL.
  destruct (trunc_run_ok N ws ds stev close maxit size svd err PM ET Hmax canoL canoR bigL smallL bigR smallR combL combR HcL HcR HbL HbR dT dbg arr n ts ts0 lb rb d HR HE Hn HO HC HZ HL) as [m [d' [e [del [ph [_ H]]]]]].
  exists d'. eexists. exists e, del, ph. exact H.
Qed.
(** a run that an emergency request ends after update j of sweep m leaves such files too (the center is where the update left it) *)
Theorem C83_emergency : forall arr n ts ts0 lb rb d m j, ready ts ts0 lb rb d -> stp d = false -> emg d = false -> m < n -> 1 <= j <= updates lb rb ->
  (forall u, clk d <= u < sweep_start lb rb d m + j - 1 -> arr u = (false, false)) -> snd (arr (sweep_start lb rb d m + j - 1)) = true ->
  on_sites ts -> centered 0 ts -> nonzero ts -> lapack_trunc (all_bonds lb rb n) (ts0, None) ->
  exists d' ts' e del ph, execute arr n d = Ok d' /\ on_disk cten unit En N ts' (W d') /\ eng (W d') = Some (Ok (e, del)) /\ truncated ts' e del ph.
Proof. exact (trunc_run_emg N ws ds stev close maxit size svd err PM ET Hmax canoL canoR bigL smallL bigR smallR combL combR HcL HcR HbL HbR dT dbg). Qed.
(** with the tests of the code in the preparation no bond of the stored chain is above Dmax, also if the run started from larger bonds *)
Theorem C83_bonds : forall Dmax, capped_svd Dmax svd -> thin_right canoL -> thin_left canoR -> full_right combL -> full_left combR ->
  forall arr n ts ts0 lb rb d, ready_ (big_l Dmax) small_l (big_r Dmax) small_r ts ts0 lb rb d -> no_emergency arr d -> 1 <= n ->
  on_sites ts -> centered 0 ts -> nonzero ts -> lapack_trunc (all_bonds lb rb n) (ts0, None) ->
  exists d' ts' e del ph, execute_ (big_l Dmax) small_l (big_r Dmax) small_r arr n d = Ok d' /\ complete ts' d' /\ eng (W d') = Some (Ok (e, del)) /\ centered 0 ts' /\ truncated ts' e del ph /\
  (forall l, l + 1 < N -> d2 (ts' l) <= Dmax).
Proof. intros Dmax EC TL TR FL FR. exact (trunc_capped N ws ds stev close maxit size svd err Dmax PM ET EC Hmax canoL canoR combL combR HcL HcR HbL HbR TL TR FL FR dT dbg). Qed.
(** the sweeps leave out only tensors next to the ends with bonds that no update could enlarge and that Dmax does not cut *)
Theorem C83_full_outside : forall Dmax, thin_right canoL -> thin_left canoR -> full_right combL -> full_left combR ->
  forall ts ts0 lb rb, 3 <= N -> on_sites ts -> prep cten canoL canoR (big_l Dmax) small_l (big_r Dmax) small_r combL combR N ts = (lb, rb, ts0) ->
  (forall l, l < lb -> d2 (ts0 l) = d0 (ts0 l) * d1 (ts0 l) /\ d2 (ts0 l) <= Dmax) /\ (forall l, rb < l < N -> d0 (ts0 l) = d1 (ts0 l) * d2 (ts0 l) /\ d0 (ts0 l) <= Dmax).
Proof. intros Dmax TL TR FL FR. exact (prep_full N ds Dmax canoL canoR combL combR HcL HcR HbL HbR TL TR FL FR). Qed.
End Trunc.

(** the returned energy is never below the spectrum of the operator; it is the energy of the stored chain if nothing was truncated, and is at
    most 2 |H| sqrt(d) off from <H> of the stored chain otherwise *)
Theorem C83_energy_above_spectrum : forall N ws ds ts' e d ph lam, truncated N ws ds ts' e d ph -> spectrum_above N ws ds lam -> (lam <= e)%R.
Proof. intros N ws ds ts' e d ph lam [_ [_ [_ [O [E _]]]]] H. exact (above_energy N ws ds lam ph e H O E). Qed.
Theorem C83_energy_without_truncation : forall N ws ds ts' e ph, truncated N ws ds ts' e 0 ph -> csame (sites N ph) (sites N ts') /\ energy_of N ws ts' e.
Proof. exact no_loss. Qed.
Theorem C83_energy_distance : forall N ws ds ts' e d ph h, truncated N ws ds ts' e d ph -> op_bound N ws ds h -> (0 <= h)%R ->
  (Rabs (fst (cenergy (sites N ts') (sites N ws)) - e) <= 2 * h * sqrt d)%R.
Proof. exact energy_off. Qed.
(** an exact SVD is one with truncation error 0; the update is the one of C68 *)
Theorem C83_exact_svd : forall svd, exact_svd cx c0 c1 cadd cmul cconj svd -> trunc_svd (fun _ _ _ _ _ => 0%R) svd.
Proof. exact exact_truncated. Qed.
Theorem C83_same_update : forall ws stev close maxit size svd err rt l gl t1 t2 gr,
  d_update ws stev close maxit size (d_split svd) rt l gl t1 t2 gr = let '(a, b, e) := d_update_e ws stev close maxit size svd err rt l gl t1 t2 gr in (a, b, let! e := e in Ok (fst e)).
Proof. exact trunc_same. Qed.
(** the returned energy is not the one of the stored chain: with H = - X1 X2 - Z1 Z2 and Dmax = 1 a
    run from the state of lowest energy returns -2, and the chain that it stores has energy -1 or more.  The claim fails for every LAPACK and stopping rule *)
Theorem C83_energy_of_the_stored_chain_refuted : forall stev close maxit size dT dbg arr, 2 <= maxit -> lapack_trunc 3 b_mpo stev close maxit size t_svd t_err (all_bonds 0 2 1) (b_ts0, None) ->
  no_emergency cten cop (res (real * real)) arr b_d ->
  exists d' ts' e del,
    execute cten cop (res (real * real)) dT (fun i => mrows (b_mpo i)) (fun i => mcols (b_mpo i)) (fun _ _ _ => c1) (d_grow b_mpo) (d_update_e b_mpo stev close maxit size t_svd t_err)
      xright qleft (big_l 1) small_l (big_r 1) small_r xright xleft dbg arr 1 b_d = Ok d' /\
    complete cten cop (res (real * real)) 3 ts' d' /\ Disk.eng cten unit (res (real * real)) (Dmrg.W cten cop (res (real * real)) d') = Some (Ok (e, del)) /\
    on_sites 3 [1; 2; 2] ts' /\ (e <= -2)%R /\ (-1 <= expect 3 b_mpo ts')%R.
Proof. intros stev close maxit size dT dbg arr Hmax HLA. exact (bell_run stev close maxit size dT dbg Hmax HLA arr). Qed.

(** the decompositions: one that keeps a single singular vector, a QR that does not enlarge bonds *)
Theorem C83_case_decompositions : trunc_svd t_err t_svd /\ capped_svd 1 t_svd /\ moves_right cx c0 c1 cadd cmul cconj xright /\ moves_left cx c0 c1 cadd cmul cconj qleft /\ moves_left cx c0 c1 cadd cmul cconj xleft /\
  thin_right xright /\ thin_left qleft /\ full_right xright /\ full_left xleft.
Proof. exact (conj t_svd_ok (conj t_capped (conj xright_ok (conj qleft_ok (conj xleft_ok (conj xright_thin (conj qleft_thin (conj xright_full xleft_full)))))))). Qed.
(** two Krylov vectors: LAPACK is the formula of the two by two eigenproblem, for every MPO, chain and SVD *)
Theorem C83_case_lapack : forall N ws close size svd err bs s, lapack_trunc N ws stev2 close 2 size svd err bs s.
Proof. exact stev2_trunc. Qed.
(** both chains, with the preparation of the code for Dmax = 1; the operator of the second has the bounds -2 and 2 *)
Theorem C83_case_chains :
  (proper_mpo 3 x_mpo [2; 2; 2] /\ on_sites 3 [2; 2; 2] x_ts /\ centered 3 0 x_ts /\ nonzero 3 x_ts /\
   ready cten cop (res (real * real)) 3 (fun i => mcols (x_mpo i)) (fun _ _ _ => c1) (d_grow x_mpo) xright qleft (big_l 1) small_l (big_r 1) small_r xright xleft x_ts tx_ts0 0 2 tx_d) /\
  (proper_mpo 3 b_mpo [1; 2; 2] /\ on_sites 3 [1; 2; 2] b_ts /\ centered 3 0 b_ts /\ energy_of 3 b_mpo b_ts (-2) /\ spectrum_above 3 b_mpo [1; 2; 2] (-2) /\ op_bound 3 b_mpo [1; 2; 2] 2 /\
   ready cten cop (res (real * real)) 3 (fun i => mcols (b_mpo i)) (fun _ _ _ => c1) (d_grow b_mpo) xright qleft (big_l 1) small_l (big_r 1) small_r xright xleft b_ts b_ts0 0 2 b_d).
Proof.
  split; [exact (conj x_proper (conj x_on (conj x_center (conj (normalized_nz 3 x_ts x_norm) tx_ready))))|].
  exact (conj b_proper (conj b_on (conj b_center (conj b_energy (conj bell_above (conj bell_bounded b_ready)))))).
Qed.
(** whole runs with Dmax = 1 and any number of sweeps *)
Theorem C83_case_run : forall n, 1 <= n -> exists d' ts' e del ph,
  execute cten cop (res (real * real)) (x_ts 0) (fun i => mrows (x_mpo i)) (fun i => mcols (x_mpo i)) (fun _ _ _ => c1) (d_grow x_mpo) (d_update_e x_mpo stev2 (fun _ _ => false) 2 (fun _ _ _ _ => 10) t_svd t_err)
    xright qleft (big_l 1) small_l (big_r 1) small_r xright xleft true (fun _ => (false, false)) n tx_d = Ok d' /\
  complete cten cop (res (real * real)) 3 ts' d' /\ Disk.eng cten unit (res (real * real)) (Dmrg.W cten cop (res (real * real)) d') = Some (Ok (e, del)) /\
  centered 3 0 ts' /\ truncated 3 x_mpo [2; 2; 2] ts' e del ph /\ (forall l, l + 1 < 3 -> d2 (ts' l) <= 1).
Proof.
  intros n Hn. apply (C83_bonds 3 x_mpo [2; 2; 2] stev2 (fun _ _ => false) 2 (fun _ _ _ _ => 10) t_svd t_err xright qleft xright xleft (x_ts 0) true
    x_proper t_svd_ok ltac:(lia) xright_ok qleft_ok xright_ok xleft_ok 1 t_capped xright_thin qleft_thin xright_full xleft_full (fun _ => (false, false)) n x_ts tx_ts0 0 2 tx_d); auto using tx_ready, x_on, x_center.
  - split; [reflexivity|]. reflexivity.
  - apply normalized_nz. exact x_norm.
  - apply stev2_trunc.
Qed.
(** five sites, Dmax = 4: the sweeps leave out a site on either side *)
Theorem C83_case_outside : on_sites 5 [2; 2; 2; 2; 2] w_ts /\ exists ts0, prep cten xright qleft (big_l 4) small_l (big_r 4) small_r xright xleft 5 w_ts = (1, 3, ts0) /\ d2 (w_ts 0) < 2 /\ d2 (ts0 0) = 2 /\ d0 (ts0 4) = 2.
Proof. exact w_outside. Qed.
(** and of the refuted claim *)
Theorem C83_case_refuted : exists d' ts' e del,
    execute cten cop (res (real * real)) (x_ts 0) (fun i => mrows (b_mpo i)) (fun i => mcols (b_mpo i)) (fun _ _ _ => c1) (d_grow b_mpo) (d_update_e b_mpo stev2 (fun _ _ => false) 2 (fun _ _ _ _ => 10) t_svd t_err)
      xright qleft (big_l 1) small_l (big_r 1) small_r xright xleft true (fun _ => (false, false)) 1 b_d = Ok d' /\
    complete cten cop (res (real * real)) 3 ts' d' /\ Disk.eng cten unit (res (real * real)) (Dmrg.W cten cop (res (real * real)) d') = Some (Ok (e, del)) /\
    on_sites 3 [1; 2; 2] ts' /\ (e <= -2)%R /\ (-1 <= expect 3 b_mpo ts')%R.
Proof. apply (bell_run stev2 (fun _ _ => false) 2 (fun _ _ _ _ => 10) (x_ts 0) true ltac:(lia) (stev2_trunc _ _ _ _ _ _ _ _) (fun _ => (false, false))). split; reflexivity. Qed.

Print Assumptions C83_updates.
Print Assumptions C83_run.
Print Assumptions C83_emergency.
Print Assumptions C83_bonds.
Print Assumptions C83_full_outside.
Print Assumptions C83_energy_above_spectrum.
Print Assumptions C83_energy_without_truncation.
Print Assumptions C83_energy_distance.
Print Assumptions C83_exact_svd.
Print Assumptions C83_same_update.
Print Assumptions C83_energy_of_the_stored_chain_refuted.
Print Assumptions C83_case_decompositions.
Print Assumptions C83_case_lapack.
Print Assumptions C83_case_chains.
Print Assumptions C83_case_run.
Print Assumptions C83_case_outside.
Print Assumptions C83_case_refuted.
