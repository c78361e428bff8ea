(** C34: the orders of the master are understood, the workers stop with it, every environment received is freed once per update. *)
From Coq Require Import List Arith Lia.
From Verif Require Import Base Protocol ProtocolFacts.
Import ListNotations.

(** what a user expects of a worker after the whole list of collective calls of the master: it matched every one of them, it has returned,
    no order was not understood, every exchange used the operands the master assumed, and the k tensors it made have been deleted
    (each once: deleting twice or using a deleted tensor is [Ub]); before the last call it has not returned *)
Definition follows_orders (X : Type) (N : nat) (mpo : nat -> X) (x0 : X) (tdvp : bool) (t : list (event X)) (k : nat) : Prop :=
  (exists w, wrun X N mpo x0 tdvp (worker0 X) t = Ok w /\ w_ctl X w = CDone X /\ w_lost X w = 0 /\ w_log X w = farms X t
     /\ w_new X w = k /\ w_del X w = k /\ w_heap X w = [])
  /\ forall t1 t2, t = t1 ++ t2 -> t2 <> [] -> exists w, wrun X N mpo x0 tdvp (worker0 X) t1 = Ok w /\ w_ctl X w <> CDone X.

(** VMPS, with or without noise ([u_exp] of an update), whether or not the environments exist already *)
Theorem C34_vmps : forall (X : Type) N mpo (x0 : X) need lb rb sweeps env mps d, lb + 2 <= rb -> rb < N ->
  follows_orders X N mpo x0 false (m_vmps X N mpo need lb rb sweeps env mps d) (2 * (sweeps * (2 * (rb - lb - 1)))).
Proof.
  intros X N mpo x0 need lb rb sweeps env mps d H1 H2.
  destruct (vmps_follows X N mpo x0 need lb rb sweeps env mps d ltac:(lia)) as (w & R & C & H & A & D & L & G). split.
  - exists w. replace (2 * (sweeps * (2 * (rb - lb - 1)))) with (sweeps * (2 * ((rb - 1 - lb) + (rb + 1 - (lb + 2))))) by (replace (rb + 1 - (lb + 2)) with (rb - lb - 1) by lia; lia). auto 10.
  - intros t1 t2 E HN. rewrite E in R. exact (not_before X N mpo x0 false t1 t2 _ w R HN).
Qed.
Print Assumptions C34_vmps.

Theorem C34_tdvp : forall (X : Type) N mpo (x0 : X) steps d, (forall s r i, u_exp X (d s r i) = None) ->
  follows_orders X N mpo x0 true (m_tdvp X N mpo steps d) (2 * (steps * (2 * (N - 2)))).
Proof.
  intros X N mpo x0 steps d HD. destruct (tdvp_follows X N mpo x0 steps d HD) as (w & R & C & H & A & D & L & G). split.
  - exists w. replace (2 * (steps * (2 * (N - 2)))) with (steps * (2 * ((N - 2) + (N - 2)))) by lia. auto 10.
  - intros t1 t2 E HN. rewrite E in R. exact (not_before X N mpo x0 true t1 t2 _ w R HN).
Qed.
Print Assumptions C34_tdvp.

(** DMRG: the static products and the growth of the blocks use the terms distributed by the dynamic product of the same update *)
Theorem C34_dmrg : forall (X : Type) N need lb rb sweeps num mps d,
  (exists w, drun X (dworker0 X) (dm_run X N need lb rb sweeps num mps d) = Ok w /\ dw_ctl X w = BDone X /\ dw_lost X w = 0 /\ dw_log X w = farms X (dm_run X N need lb rb sweeps num mps d))
  /\ forall t1 t2, dm_run X N need lb rb sweeps num mps d = t1 ++ t2 -> t2 <> [] -> exists w, drun X (dworker0 X) t1 = Ok w /\ dw_ctl X w <> BDone X.
Proof.
  intros. destruct (dmrg_follows X N need lb rb sweeps num mps d) as (w & R & C & L & G). split.
  - exists w. auto.
  - intros t1 t2 E HN. rewrite E in R. exact (dnot_before X t1 t2 _ w R HN).
Qed.
Print Assumptions C34_dmrg.

(** a run with an expansion, three sites, two sweeps; the environments of an update are named by the update *)
Definition u_ex (s : nat) (r : bool) (i : nat) : upd_data nat :=
  {| u_lenv := 100 * s + 10 * i + (if r then 1 else 2); u_renv := 100 * s + 10 * i + 3; u_first := s; u_more := [s + 1; s + 2]; u_exp := if r then Some 7 else None; u_mps := i |}.
Example C34_instance : exists t, m_vmps nat 4 (fun i => 1000 + i) true 0 3 2 (fun i => i) (fun i => 10 + i) u_ex = t /\ length t = 181 /\ length (farms nat t) = 38
   /\ In (FExpR, [111; 1001; 1002; 7]) (farms nat t) /\ In (FEnvR, [133; 1003; 3]) (farms nat t).
Proof. eexists. split; [reflexivity|]. vm_compute. repeat split; auto 60. Qed.
(** a worker that is given the orders of the noised VMPS while it runs the TDVP code aborts *)
Example C34_wrong_worker : wrun nat 4 (fun i => i) 0 true (worker0 nat) (m_vmps nat 4 (fun i => i) false 0 3 1 (fun i => i) (fun i => i) u_ex) = Abort.
Proof. reflexivity. Qed.
