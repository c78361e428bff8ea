(** Environments, effective Hamiltonians, noise expansion and hand-over of the VMPS algorithms, contraction by contraction. *)
From Coq Require Import List Arith Bool.
From Verif Require Import Base FiniteMps FmpsSpec EffHam Legs.
Import ListNotations.

Section Model.
Variables (R : Type) (r0 r1 : R) (radd rmul : R -> R -> R) (conj : R -> R).
Notation gten := (gten R).
Notation gcontract := (gcontract R r0 radd rmul). Notation gcontract1 := (gcontract1 R r0 radd rmul).
Notation gtrans := (gtrans R). Notation gdag := (gdag R conj). Notation gfuse := (gfuse R r0). Notation gexpand := (gexpand R).
Notation gscale := (gscale R rmul). Notation gzero := (gzero R r0).

(** ** environments *)
(** UpdateSiteLenvs, vmps_init.h 359-373; UpdateSiteRenvs, 343-357.  Legs of an environment: 0 (bra), 1 (MPO), 2 (ket) *)
Definition update_lenv (lenv mps mpo : gten) : res gten :=
  let dag := gdag mps in
  let! temp := gcontract1 2 0 1 lenv mps in
  let! temp2 := gcontract1 1 0 2 temp mpo in
  gcontract1 0 1 2 dag temp2.
Definition update_renv (renv mps mpo : gten) : res gten :=
  let dag := gdag mps in
  let! temp := gcontract1 2 0 1 dag renv in
  let! temp2 := gcontract1 1 2 2 temp mpo in
  gcontract1 3 1 2 temp2 mps.
(** the trivial environments, vmps_init.h 292-298, 318-325 (also two_site_update_finite_vmps_impl.h InitEnvs) *)
Definition trivial_env (d m : nat) : gten :=
  mkG R [d; m; d] (fun x => if forallb (Nat.eqb 0) x then r1 else r0).
(** the loops over the sites left of a cut, and right of it (from the last site), vmps_init.h 301-305, 327-331 *)
Fixpoint lenvs_from (e : gten) (ts ws : list gten) : res gten :=
  match ts, ws with
  | [], [] => Ok e
  | t :: ts, w :: ws => let! e := update_lenv e t w in lenvs_from e ts ws
  | _, _ => Ub
  end.
Fixpoint renvs_from (e : gten) (ts ws : list gten) : res gten :=
  match ts, ws with
  | [], [] => Ok e
  | t :: ts, w :: ws => let! e := renvs_from e ts ws in update_renv e t w
  | _, _ => Ub
  end.

(** ** effective Hamiltonians *)
(** eff_ham_mul_two_site_state, eff_ham_mul_single_site_state, lanczos_vmps_solver_impl.h 261-304 *)
Definition mul2 (h0 h1 h2 h3 state : gten) : res gten :=
  let! t1 := gcontract [2] [0] h0 state in
  let! t2 := gcontract1 1 0 2 t1 h1 in
  let! t3 := gcontract1 4 0 2 t2 h2 in
  gcontract1 4 1 2 t3 h3.
Definition mul1 (h0 h1 h2 state : gten) : res gten :=
  let! t1 := gcontract [2] [0] h0 state in
  let! t2 := gcontract1 1 0 2 t1 h1 in
  gcontract1 3 1 2 t2 h2.
(** CalEnergyEptTwoSite, two_site_update_noise_finite_vmps_impl.h 688-722; CalEnergyEptSingleSite,
    single_site_update_finite_vmps_impl.h 592-622.  Real is not modelled: the value before it is taken *)
Definition energy2 (lenv w1 w2 renv t1 t2 : gten) : res R :=
  let! psi := gcontract [2] [0] t1 t2 in
  let! h := mul2 lenv w1 w2 renv psi in
  let! v := gcontract [0; 1; 2; 3] [0; 1; 2; 3] h (gdag psi) in gscalar R v.
Definition energy1 (lenv w renv t : gten) : res R :=
  let! h := mul1 lenv w renv t in
  let! v := gcontract [0; 1; 2] [0; 1; 2] h (gdag t) in gscalar R v.

(** ** noise: bonds are enlarged by a perturbation, the neighbour gets zeros *)
(** SingleSiteFiniteVMPSExpand, single_site_update_finite_vmps_impl.h 383-469: (the tensor of the site, that of its neighbour) *)
Definition expand1_r (h0 h1 gs next : gten) (noise : R) : res (gten * gten) :=
  let! temp := gcontract [2] [0] h0 gs in
  let! p := gcontract1 1 0 2 temp h1 in
  let! p := gfuse 0 3 p in
  let p := gscale noise p in
  let! gs := gtrans [2; 0; 1] gs in
  let! a := gexpand 0 gs p in
  let! a := gtrans [1; 2; 0] a in
  let! b := gexpand 0 next (gzero [nth 0 (gd R p) 0; nth 1 (gd R next) 0; nth 2 (gd R next) 0]) in
  Ok (a, b).
Definition expand1_l (h1 h2 gs next : gten) (noise : R) : res (gten * gten) :=
  let! p := gcontract [2] [2] gs h2 in
  let! p := gcontract [1; 3] [1; 3] p h1 in
  let! p := gtrans [0; 2; 3; 1] p in
  let! p := gfuse 0 1 p in
  let p := gscale noise p in
  let! a := gexpand 0 gs p in
  let! b := gexpand 2 next (gzero [nth 0 (gd R next) 0; nth 1 (gd R next) 0; nth 0 (gd R p) 0]) in
  Ok (a, b).
(** TwoSiteFiniteVMPSExpand, two_site_update_noise_finite_vmps_impl.h 426-548: (the two-site tensor, the tensor next to it).
    [norm] is the case GetDir() == OUT; otherwise the MPO tensor is replaced by the third factor of its SVD (mock_qlten::SVD, arbitrary) *)
Variable mock_svd : gten -> gten.
Definition expand2_r (norm : bool) (h0 h1 h2 gs next : gten) (noise : R) : res (gten * gten) :=
  let! t1 := gcontract [2] [0] h0 gs in
  let! t2 := gcontract1 1 0 2 t1 h1 in
  let! p := (if norm then gcontract1 4 0 2 t2 h2 else
             let! h2 := gtrans [3; 0; 1; 2] h2 in
             let! v := gtrans [1; 2; 3; 0] (mock_svd h2) in gcontract1 4 0 2 t2 v) in
  let! p := gfuse 0 4 p in
  let p := gscale noise p in
  let! gs := gtrans [3; 0; 1; 2] gs in
  let! a := gexpand 0 gs p in
  let! a := gtrans [1; 2; 3; 0] a in
  let! b := gexpand 0 next (gzero [nth 0 (gd R p) 0; nth 1 (gd R next) 0; nth 2 (gd R next) 0]) in
  Ok (a, b).
Definition expand2_l (h1 h2 h3 gs next : gten) (noise : R) : res (gten * gten) :=
  let! p := gcontract [3] [2] gs h3 in
  let! p := gcontract [2; 4] [1; 3] p h2 in
  let! p := gcontract [1; 3] [1; 3] p h1 in
  let! p := gtrans [0; 3; 4; 2; 1] p in
  let! p := gfuse 0 1 p in
  let p := gscale noise p in
  let! a := gexpand 0 gs p in
  let! b := gexpand 2 next (gzero [nth 0 (gd R next) 0; nth 1 (gd R next) 0; nth 0 (gd R p) 0]) in
  Ok (a, b).

(** ** decomposition and hand-over.  SVD(t, ldims, ...) gives u, s and vt; truncation included *)
Variable svd : nat -> gten -> gten * gten * gten.
(** two sites: two_site_update_finite_vmps_impl.h 300-340, the noised one 346-392, TDVP 336-366: (left tensor, right tensor) *)
Definition split2 (to_right : bool) (x : gten) : res (gten * gten) :=
  let '(u, s, vt) := svd 2 x in
  if to_right then let! b := gcontract [1] [0] s vt in Ok (u, b)
  else let! a := gcontract [2] [0] u s in Ok (a, vt).
(** one site: single_site_update_finite_vmps_impl.h 288-330, TDVP two_site_update_finite_tdvp_impl.h 458-495:
    (the tensor of the site, that of its neighbour) *)
Definition split1 (to_right : bool) (t next : gten) : res (gten * gten) :=
  let '(u, s, vt) := svd (if to_right then 2 else 1) t in
  if to_right then let! m := gcontract [1] [0] s vt in let! b := gcontract [1] [0] m next in Ok (u, b)
  else let! m := gcontract [1] [0] u s in let! b := gcontract [2] [0] next m in Ok (vt, b).

(** ** the same on several processes: one task is one sector [lo, lo + n) of the split leg *)
(** SlaveGrowLeftEnvironment, algo_mpi/env_ten_update_slave.h 63-103 (split leg: 2 of the MPS tensor, that is 1 of the product) *)
Definition slave_lenv (lenv mps mpo : gten) (task : nat * nat) : res gten :=
  let! e := gcontract [0] [2] (gonly R r0 2 (fst task) (snd task) mps) lenv in
  let! temp := gcontract1 3 0 2 e mpo in
  gcontract1 0 1 2 (gdag mps) temp.
(** SlaveGrowRightEnvironment, 155-193 (split leg: 0 of the conjugated MPS tensor) *)
Definition slave_renv (renv mps mpo : gten) (task : nat * nat) : res gten :=
  let! e := gcontract [2] [0] (gonly R r0 0 (fst task) (snd task) (gdag mps)) renv in
  let! temp := gcontract1 1 2 2 e mpo in
  gcontract1 3 1 2 temp mps.
(** slave_two_site_eff_ham_mul_state, algo_mpi/vmps/lanczos_solver_mpi_slave.h 112-162 (split leg: 0 of the left environment) and
    the overlap with the state *)
Definition slave_mul2 (h0 h1 h2 h3 state : gten) (task : nat * nat) : res (gten * R) :=
  let! e := gcontract [2] [0] (gonly R r0 0 (fst task) (snd task) h0) state in
  let! res := gcontract1 1 0 2 e h1 in
  let! temp1 := gcontract1 4 0 2 res h2 in
  let! res := gcontract1 4 1 2 temp1 h3 in
  let! v := gcontract [0; 1; 2; 3] [0; 1; 2; 3] res (gdag state) in
  let! v := gscalar R v in Ok (res, v).
(** the master adds up what it receives, in the order of arrival: CollectiveLinearCombine of the received blocks in empty tensors
    with the legs of the result (env_ten_update_master.h 63-69, 104; 137-143, 186; lanczos_solver_mpi_master.h 279, 344).
    [k]: empty tensors in the list to which nothing was received (lanczos_solver_mpi_master.h 300-306 appends more than one per task).
    The dispatch of the tasks is modelled in Farm.v *)
Definition collect (dims : list nat) (rs : list gten) (k : nat) : gten :=
  mkG R dims (fun x => fold_right (fun t acc => radd (ge R t x) acc) r0 (rs ++ repeat (gzero dims) k)).
Definition mpi_lenv (lenv mps mpo : gten) (tasks : list (nat * nat)) : res gten :=
  let! rs := mapM (slave_lenv lenv mps mpo) tasks in
  Ok (collect [nth 2 (gd R mps) 0; nth 3 (gd R mpo) 0; nth 2 (gd R mps) 0] rs 0).
Definition mpi_renv (renv mps mpo : gten) (tasks : list (nat * nat)) : res gten :=
  let! rs := mapM (slave_renv renv mps mpo) tasks in
  Ok (collect [nth 0 (gd R mps) 0; nth 0 (gd R mpo) 0; nth 0 (gd R mps) 0] rs 0).
(** [jobs]: the tasks that each worker did, in its order; the overlaps are added up by each worker (Real), then by the master;
    [arrived]: the tasks in the order in which the master received their results *)
Variable re : R -> R.
Definition worker_overlap (h0 h1 h2 h3 state : gten) (tasks : list (nat * nat)) : res R :=
  for_each tasks (fun t acc => let! rv := slave_mul2 h0 h1 h2 h3 state t in Ok (radd acc (re (snd rv)))) r0.
Definition mpi_mul2 (h0 h1 h2 h3 state : gten) (jobs : list (list (nat * nat))) (arrived : list (nat * nat)) (k : nat) : res (gten * R) :=
  let! rs := mapM (fun t => let! rv := slave_mul2 h0 h1 h2 h3 state t in Ok (fst rv)) arrived in
  let! v := for_each jobs (fun ts acc => let! v := worker_overlap h0 h1 h2 h3 state ts in Ok (radd acc v)) r0 in
  Ok (collect (gd R state) rs k, v).
End Model.
