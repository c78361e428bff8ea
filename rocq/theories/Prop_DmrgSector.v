(** Property C85: DMRG runs stay in the symmetry sector of the state that they start from.
    [ch i s]: quantum number of the basis state s of site i, in any group; [total]: of a configuration; [in_sector q v]: only configurations with total q have an amplitude;
    [conserving]: matrix elements of the operator between configurations with different totals vanish; [sector_bounded q lam]: energies of states with total q are at least lam.
    [blocks bt q ts]: the bonds of the chain carry quantum numbers bt and an element vanishes unless those of its indices add up, q in total.
    [block_move]: the QR decompositions and combiners of the preparation keep this form; [along]: so do the truncated SVDs of the run; [d_block_svd]: they do so for every tensor. *)
From Coq Require Import List Arith Bool Lia ZArith Reals Lra.
From Verif Require Import Base Disk SweepSpec NoiseSpec Dmrg DmrgSpec FiniteMps FmpsSpec EffHam EffHamSpec ChainSpec Cx DmrgUpdate DmrgVarSpec DmrgVar DmrgVarRun DmrgVarInst DmrgTrunc DmrgTruncSpec DmrgTruncFacts DmrgTruncInst SectorSpec SectorInst DmrgSectorSpec DmrgSectorFacts DmrgSectorRun DmrgSectorInst.
Import ListNotations.
Local Open Scope nat_scope.

Section Sector.
Variables (G : Type) (q0 : G) (qadd : G -> G -> G) (qopp : G -> G).
Hypothesis QG : q_group q0 qadd qopp.
Variable ch : nat -> nat -> G.
Variable N : nat.
Variable ws : nat -> cmpo.                                   (* the MPO *)
Variable ds : list nat.                                      (* physical dimensions *)
Variables (stev : list real -> list real -> list real * list real) (close : real -> real -> bool) (maxit : nat) (size : nat -> nat -> nat -> nat -> nat).
Variables (svd : nat -> nat -> nat -> nat -> cten4 -> cten * (nat -> nat -> cx) * cten) (err : nat -> nat -> nat -> nat -> cten4 -> real).
Variables (canoL canoR : cten -> cten -> cten * cten) (bigL smallL bigR smallR : cten -> bool) (combL combR : cten -> cten -> cten * cten).
Variables (dT : cten) (dbg : bool).
Notation En := (res (real * real)).
Notation triv := (fun s : side => (fun _ _ : nat => c1) : cop).
Notation upd := (d_update_e ws stev close maxit size svd err).
Notation opts := (opts cten (list cop) En (fun _ => [(fun _ _ => c1) : cop]) (d_grow ws) upd N).
Notation execute := (execute cten cop En dT (fun i => mrows (ws i)) (fun i => mcols (ws i)) triv (d_grow ws) upd canoL canoR bigL smallL bigR smallR combL combR dbg).
Notation ready := (ready cten cop En N (fun i => mcols (ws i)) triv (d_grow ws) canoL canoR bigL smallL bigR smallR combL combR).
Notation on_sites := (on_sites N ds). Notation nonzero := (nonzero N). Notation centered := (centered N). Notation truncated := (truncated N ws ds).
Notation lapack_trunc := (lapack_trunc N ws stev close maxit size svd err).
Notation W := (Dmrg.W cten cop En). Notation eng := (Disk.eng cten unit En).
Notation stp := (Dmrg.stp cten cop En). Notation emg := (Dmrg.emg cten cop En). Notation clk := (Dmrg.clk cten cop En).
Notation complete := (complete cten cop En N). Notation no_emergency := (no_emergency cten cop En). Notation sweep_start := (sweep_start cten cop En).
Notation coef := (coef N). Notation blocks := (d_blocks G qadd ch N). Notation in_sector := (in_sector G q0 qadd ch ds). Notation sector_bounded := (d_sector_bounded G q0 qadd ch N ws ds).
Notation along := (d_along G qadd ch N ws svd stev close maxit size err).

(** a chain in block form is a state of one sector *)
Theorem C85_state : forall bt q ts, on_sites ts -> blocks bt q ts -> in_sector q (coef ts).
Proof. exact (d_blocks_sector G q0 qadd qopp QG ch N ds). Qed.

(** Hermitian MPO that conserves the quantum number; the SVD may drop singular values; max_iterations of the solver is at least 2 *)
Hypothesis PM : proper_mpo N ws ds.
Hypothesis HCons : d_conserving G q0 qadd ch N ws ds.
Hypothesis ET : trunc_svd err svd.
Hypothesis Hmax : 2 <= maxit.
(** after any sequence of updates that the sweeps make the chain is in block form with the q of the start; the state ph whose energy the last update reports is in the sector *)
Theorem C85_updates : forall bs l m ts e bt q, path N l bs m -> on_sites ts -> cmixed N ts l -> nonzero ts -> lapack_trunc bs (ts, e) -> blocks bt q ts -> along bs ts bt ->
  let s := opts bs (ts, e) in on_sites (fst s) /\ cmixed N (fst s) m /\ nonzero (fst s) /\ (exists bt', blocks bt' q (fst s)) /\
  (bs <> [] -> exists x d ph, snd s = Some (Ok (x, d)) /\ truncated (fst s) x d ph /\ in_sector q (coef ph)).
Proof. exact (d_opts G q0 qadd qopp QG ch N ws ds PM stev close maxit size svd err ET Hmax HCons). Qed.
(** an SVD that works block by block on every tensor satisfies what the runs below ask of it *)
Theorem C85_svd : d_block_svd G qadd ch svd -> forall bs ts bt, along bs ts bt.
Proof. exact (d_block_along G qadd ch N ws stev close maxit size svd err). Qed.

(** exact QR decompositions and combiners that keep blocks *)
Hypothesis HcL : moves_right cx c0 c1 cadd cmul cconj canoL.
Hypothesis HcR : moves_left cx c0 c1 cadd cmul cconj canoR.
Hypothesis HbL : moves_right cx c0 c1 cadd cmul cconj combL.
Hypothesis HbR : moves_left cx c0 c1 cadd cmul cconj combR.
Hypothesis BcL : block_move G qadd ch canoL.
Hypothesis BcR : block_move G qadd ch canoR.
Hypothesis BbL : block_move G qadd ch combL.
Hypothesis BbR : block_move G qadd ch combR.
(** the preparation before the sweeps, which enlarges bonds, does not leave the sector *)
Theorem C85_preparation : forall ts ts0 lb rb bt q, 3 <= N -> prep cten canoL canoR bigL smallL bigR smallR combL combR N ts = (lb, rb, ts0) -> on_sites ts -> blocks bt q ts ->
  on_sites ts0 /\ exists bt0, blocks bt0 q ts0.
Proof. intros ts ts0 lb rb bt q H3 HP HO HB. exact (blocks_prep G qadd ch N ds canoL canoR bigL smallL bigR smallR combL combR HcL HcR HbL HbR BcL BcR BbL BbR q ts ts0 lb rb H3 HP (conj HO (ex_intro _ bt HB))). Qed.
(** a whole run on disk: what it stores is in the sector and in block form; so is the state with the returned energy *)
Theorem C85_run : forall arr n ts ts0 lb rb d bt q, ready ts ts0 lb rb d -> no_emergency arr d -> 1 <= n ->
  on_sites ts -> centered 0 ts -> nonzero ts -> lapack_trunc (all_bonds lb rb n) (ts0, None) -> blocks bt q ts -> (forall bt0, blocks bt0 q ts0 -> along (all_bonds lb rb n) ts0 bt0) ->
  exists d' ts' e del ph, execute arr n d = Ok d' /\ complete ts' d' /\ eng (W d') = Some (Ok (e, del)) /\ centered 0 ts' /\ truncated ts' e del ph /\
  (exists bt', blocks bt' q ts') /\ in_sector q (coef ts') /\ in_sector q (coef ph).
Proof.
  intros arr n ts ts0 lb rb d bt q HR HE Hn HO HC HZ HL HB HA. destruct (C85_preparation ts ts0 lb rb bt q (proj1 HR) (proj1 (proj2 HR)) HO HB) as [_ [bt0 B0]].
  exact (d_sector_run G q0 qadd qopp QG ch N ws ds stev close maxit size svd err PM ET Hmax canoL canoR bigL smallL bigR smallR combL combR HcL HcR HbL HbR BcR dT dbg HCons arr n ts ts0 lb rb d bt0 q HR HE Hn HO HC HZ HL B0 (HA bt0 B0)).
Qed.
(** the same for a run that an emergency request ends after update j of sweep m *)
Theorem C85_emergency : forall arr n ts ts0 lb rb d m j bt q, ready ts ts0 lb rb d -> stp d = false -> emg d = false -> m < n -> 1 <= j <= updates lb rb ->
  (forall u, clk d <= u < sweep_start lb rb d m + j - 1 -> arr u = (false, false)) -> snd (arr (sweep_start lb rb d m + j - 1)) = true ->
  on_sites ts -> centered 0 ts -> nonzero ts -> lapack_trunc (all_bonds lb rb n) (ts0, None) -> blocks bt q ts -> (forall bt0, blocks bt0 q ts0 -> along (all_bonds lb rb n) ts0 bt0) ->
  exists d' ts' e del ph, execute arr n d = Ok d' /\ on_disk cten unit En N ts' (W d') /\ eng (W d') = Some (Ok (e, del)) /\ truncated ts' e del ph /\
  (exists bt', blocks bt' q ts') /\ in_sector q (coef ts') /\ in_sector q (coef ph).
Proof.
  intros arr n ts ts0 lb rb d m j bt q HR H1 H2 H3 H4 H5 H6 HO HC HZ HL HB HA. destruct (C85_preparation ts ts0 lb rb bt q (proj1 HR) (proj1 (proj2 HR)) HO HB) as [_ [bt0 B0]].
  exact (d_sector_emg G q0 qadd qopp QG ch N ws ds stev close maxit size svd err PM ET Hmax canoL canoR bigL smallL bigR smallR combL combR HcL HcR HbL HbR dT dbg HCons arr n ts ts0 lb rb d m j bt0 q HR H1 H2 H3 H4 H5 H6 HO HC HZ HL B0 (HA bt0 B0)).
Qed.
(** the returned energy is not below the lowest energy of the sector, even if other sectors have lower energies *)
Theorem C85_bound : forall arr n ts ts0 lb rb d bt q d' e del lam, ready ts ts0 lb rb d -> no_emergency arr d -> 1 <= n ->
  on_sites ts -> centered 0 ts -> nonzero ts -> lapack_trunc (all_bonds lb rb n) (ts0, None) -> blocks bt q ts -> (forall bt0, blocks bt0 q ts0 -> along (all_bonds lb rb n) ts0 bt0) ->
  sector_bounded q lam -> execute arr n d = Ok d' -> eng (W d') = Some (Ok (e, del)) -> (lam <= e)%R.
Proof.
  intros arr n ts ts0 lb rb d bt q d' e del lam HR HE Hn HO HC HZ HL HB HA HS HX HG. destruct (C85_run arr n ts ts0 lb rb d bt q HR HE Hn HO HC HZ HL HB HA) as [d2 [ts' [e2 [del2 [ph [R1 [_ [R2 [_ [[_ [_ [_ [O [E _]]]]] [_ [_ HP]]]]]]]]]]]].
  rewrite HX in R1. injection R1 as <-. rewrite HG in R2. injection R2 as <- <-. exact (d_above_energy G q0 qadd ch N ws ds q lam ph e HS O HP E).
Qed.
End Sector.

(** Three sites, particle hopping X_1 X_2 + Y_1 Y_2 and the particle number: a run from the empty state never finds the states of energy -2, whatever the number of sweeps, Dmax
    and the LAPACK (C68 and C83 allow them: -1 is not a lower bound of the whole spectrum). *)
Theorem C85_stuck : forall stev close maxit size Dmax dT dbg arr n d' e del, 2 <= maxit -> 1 <= n -> no_emergency cten cop (res (real * real)) arr (hm_d h_vac) ->
  lapack_trunc 3 hm_mpo stev close maxit size xsvd (fun _ _ _ _ _ => 0%R) (all_bonds 0 2 n) (hm_ts0 Dmax h_vac, None) ->
  ~ spectrum_above 3 hm_mpo [2; 2; 2] (-1) /\
  (execute cten cop (res (real * real)) dT (fun i => mrows (hm_mpo i)) (fun i => mcols (hm_mpo i)) (fun _ _ _ => c1) (d_grow hm_mpo) (d_update_e hm_mpo stev close maxit size xsvd (fun _ _ _ _ _ => 0%R))
     xright xleft (big_l Dmax) small_l (big_r Dmax) small_r xright xleft dbg arr n (hm_d h_vac) = Ok d' ->
   Disk.eng cten unit (res (real * real)) (Dmrg.W cten cop (res (real * real)) d') = Some (Ok (e, del)) -> (0 <= e)%R).
Proof.
  intros stev close maxit size Dmax dT dbg arr n d' e del Hmax Hn HE HL. split; [exact hm_below|].
  apply (C85_bound Z 0%Z Z.add Z.opp z_group z_ch 3 hm_mpo [2; 2; 2] stev close maxit size xsvd (fun _ _ _ _ _ => 0%R) xright xleft (big_l Dmax) small_l (big_r Dmax) small_r xright xleft dT dbg
    hm_proper hm_conserving (exact_truncated xsvd xsvd_ok) Hmax xright_ok xleft_ok xright_ok xleft_ok
    (xright_block Z Z.add z_ch) (xleft_block Z 0%Z Z.add Z.opp z_group z_ch) (xright_block Z Z.add z_ch) (xleft_block Z 0%Z Z.add Z.opp z_group z_ch)
    arr n (hm_ts h_vac) (hm_ts0 Dmax h_vac) 0 2 (hm_d h_vac) (h_bt h_vac) 0%Z d' e del 0); auto using hm_ready, hm_on, hm_empty.
  - apply hm_center. intros i. unfold h_vac. lia.
  - apply hm_nz. intros i. unfold h_vac. lia.
  - exact (hm_blocks h_vac).
  - intros bt0 _. apply C85_svd. exact (xsvd_block Z 0%Z Z.add Z.opp z_group z_ch).
Qed.
Print Assumptions C85_state.
Print Assumptions C85_updates.
Print Assumptions C85_svd.
Print Assumptions C85_preparation.
Print Assumptions C85_run.
Print Assumptions C85_emergency.
Print Assumptions C85_bound.
Print Assumptions C85_stuck.

(** decompositions that keep quantum numbers: exact ones and one that keeps a single row *)
Theorem C85_case_decompositions : forall ch : nat -> nat -> Z, d_block_svd Z Z.add ch t_svd /\ d_block_svd Z Z.add ch xsvd /\ block_move Z Z.add ch xright /\ block_move Z Z.add ch xleft.
Proof. intros ch. exact (conj (t_svd_block Z Z.add ch) (conj (xsvd_block Z 0%Z Z.add Z.opp z_group ch) (conj (xright_block Z Z.add ch) (xleft_block Z 0%Z Z.add Z.opp z_group ch)))). Qed.
(** every basis state of the hopping model, one singular value per bond, the preparation of the code for every Dmax *)
Theorem C85_case_run : forall f n Dmax, (forall i, f i < 2) -> 1 <= n -> exists d' ts' e del ph,
  execute cten cop (res (real * real)) (hm_ts f 0) (fun i => mrows (hm_mpo i)) (fun i => mcols (hm_mpo i)) (fun _ _ _ => c1) (d_grow hm_mpo) (d_update_e hm_mpo stev2 (fun _ _ => false) 2 (fun _ _ _ _ => 10) t_svd t_err)
    xright xleft (big_l Dmax) small_l (big_r Dmax) small_r xright xleft true (fun _ => (false, false)) n (hm_d f) = Ok d' /\
  complete cten cop (res (real * real)) 3 ts' d' /\ Disk.eng cten unit (res (real * real)) (Dmrg.W cten cop (res (real * real)) d') = Some (Ok (e, del)) /\
  centered 3 0 ts' /\ truncated 3 hm_mpo [2; 2; 2] ts' e del ph /\ (exists bt', d_blocks Z Z.add z_ch 3 bt' (h_q f) ts') /\
  in_sector Z 0%Z Z.add z_ch [2; 2; 2] (h_q f) (coef 3 ts') /\ in_sector Z 0%Z Z.add z_ch [2; 2; 2] (h_q f) (coef 3 ph).
Proof.
  intros f n Dmax Hf Hn.
  apply (C85_run Z 0%Z Z.add Z.opp z_group z_ch 3 hm_mpo [2; 2; 2] stev2 (fun _ _ => false) 2 (fun _ _ _ _ => 10) t_svd t_err xright xleft (big_l Dmax) small_l (big_r Dmax) small_r xright xleft (hm_ts f 0) true
    hm_proper hm_conserving t_svd_ok ltac:(lia) xright_ok xleft_ok xright_ok xleft_ok
    (xright_block Z Z.add z_ch) (xleft_block Z 0%Z Z.add Z.opp z_group z_ch) (xright_block Z Z.add z_ch) (xleft_block Z 0%Z Z.add Z.opp z_group z_ch)
    (fun _ => (false, false)) n (hm_ts f) (hm_ts0 Dmax f) 0 2 (hm_d f) (h_bt f) (h_q f)); auto using hm_ready, hm_on, hm_center, hm_nz, hm_blocks.
  - split; reflexivity.
  - apply stev2_trunc.
  - intros bt0 _. apply C85_svd. exact (t_svd_block Z Z.add z_ch).
Qed.
Print Assumptions C85_case_decompositions.
Print Assumptions C85_case_run.
