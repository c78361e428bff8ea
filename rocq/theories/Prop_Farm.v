(** C32, C33 for the farms of the distributed VMPS. *)
From Coq Require Import List Arith ZArith Lia Permutation.
From Verif Require Import Mpi FarmSpec Farm FarmFacts FarmInst.
Import ListNotations.

(** C32: growing an environment, expanding the two-site tensor.  W workers, T tasks, [arr] the remaining tasks in any order,
    [last] any value that is not a task.  At the end the master holds exactly one result of every task. *)
Theorem C32_env_tasks_once : forall X R (r0 : R) radd f ov W T arr last, monoid r0 radd -> 1 <= W -> Permutation arr (seq W (T - W)) -> T <= last ->
  forall n s, let prog := fprog X R r0 radd f ov W T (env_reply W T arr last) false in
  steps _ _ prog (S W) n (start (finit X R r0 ov W T false)) s -> final _ _ prog (S W) s ->
  exists rs acc, loc s 0 = MDone rs acc /\ once T f rs.
Proof.
  intros X R r0 radd f ov W T arr last HM HW HP HL n s prog HS HF.
  destruct (env_farm X R r0 radd HM f ov W T HW arr last HP HL n s HS) as [_ [_ Q]]. destruct (Q HF) as [rs [acc [E1 [E2 _]]]]. exists rs, acc. auto.
Qed.
Print Assumptions C32_env_tasks_once.
(** C32: multiplying the effective Hamiltonian with a state: also the overlap is the sum over all tasks *)
Theorem C32_lanczos_tasks_once : forall X R (r0 : R) radd f ov W T sorted, monoid r0 radd -> 1 <= W -> Permutation sorted (seq W (T - W)) ->
  forall n s, let prog := fprog X R r0 radd f ov W T (lanczos_reply W T sorted) true in
  steps _ _ prog (S W) n (start (finit X R r0 ov W T true)) s -> final _ _ prog (S W) s ->
  exists rs, loc s 0 = MDone rs (over_tasks r0 radd T ov) /\ once T f rs.
Proof.
  intros X R r0 radd f ov W T sorted HM HW HP n s prog HS HF.
  destruct (lanczos_farm X R r0 radd HM f ov W T HW sorted HP n s HS) as [_ [_ Q]]. destruct (Q HF) as [rs [E1 [E2 _]]]. exists rs. auto.
Qed.
Print Assumptions C32_lanczos_tasks_once.
(** the master adds the results in the order of arrival; the sum is the sum over the tasks *)
Theorem C32_sum : forall X (x0 : X) xadd T f rs, monoid x0 xadd -> once T f rs -> msum x0 xadd (map snd rs) = over_tasks x0 xadd T f.
Proof. exact once_sum. Qed.
Print Assumptions C32_sum.

(** C33: bounded length, progress without buffering, everybody has left the loop and no message is left *)
Theorem C33_env_terminates : forall X R (r0 : R) radd f ov W T arr last, monoid r0 radd -> 1 <= W -> Permutation arr (seq W (T - W)) -> T <= last ->
  completes (fprog X R r0 radd f ov W T (env_reply W T arr last) false) (S W) (finit X R r0 ov W T false) (3 * (2 * T + 2 * min T W) + W)
    (fun l => exists rs acc, l 0 = MDone rs acc /\ once T f rs /\ forall w, 1 <= w <= W -> l w = WDone).
Proof. intros X R r0 radd f ov W T arr last HM HW. exact (env_farm X R r0 radd HM f ov W T HW arr last). Qed.
Print Assumptions C33_env_terminates.
Theorem C33_lanczos_terminates : forall X R (r0 : R) radd f ov W T sorted, monoid r0 radd -> 1 <= W -> Permutation sorted (seq W (T - W)) ->
  completes (fprog X R r0 radd f ov W T (lanczos_reply W T sorted) true) (S W) (finit X R r0 ov W T true) (3 * (2 * T + 2 * min T W) + W)
    (fun l => exists rs, l 0 = MDone rs (over_tasks r0 radd T ov) /\ once T f rs /\ forall w, 1 <= w <= W -> l w = WDone).
Proof. intros X R r0 radd f ov W T sorted HM HW. exact (lanczos_farm X R r0 radd HM f ov W T HW sorted). Qed.
Print Assumptions C33_lanczos_terminates.
(** without workers the master never gets an answer *)
Theorem C33_no_worker_refuted : exists T reply post, stuck (fprog Z Z 0%Z Z.add Z.of_nat Z.of_nat 0 T reply post) 1 (start (finit Z Z 0%Z Z.of_nat 0 T post)).
Proof. exists 1, (lanczos_reply 0 1 [0]), true. apply no_worker. lia. Qed.
Print Assumptions C33_no_worker_refuted.
(** every execution that has started can be continued to a final state *)
Theorem C33_reaches_final : forall L V (prog : nat -> L -> act L V) P init bound good n s, completes prog P init bound good -> steps L V prog P n (start init) s ->
  exists m s', steps L V prog P m (start init) s' /\ final L V prog P s' /\ good (loc s').
Proof. exact reaches. Qed.
Print Assumptions C33_reaches_final.

(** two workers, five tasks, the remaining tasks sorted as 4, 2, 3: there is a complete execution, and it ends as claimed *)
Lemma Zmonoid : monoid 0%Z Z.add.
Proof. constructor; intros; lia. Qed.
Example C32_instance : exists n s rs, let prog := fprog Z Z 0%Z Z.add (fun t => 10 + Z.of_nat t)%Z Z.of_nat 2 5 (lanczos_reply 2 5 [4; 2; 3]) true in
  steps _ _ prog 3 n (start (finit Z Z 0%Z Z.of_nat 2 5 true)) s /\ final _ _ prog 3 s /\
  loc s 0 = MDone rs 10%Z /\ Permutation rs [(0, 10%Z); (1, 11%Z); (2, 12%Z); (3, 13%Z); (4, 14%Z)] /\ loc s 1 = WDone /\ loc s 2 = WDone.
Proof.
  assert (HP : Permutation [4; 2; 3] (seq 2 (5 - 2))) by exact (Permutation_cons_append [2; 3] 4).
  pose proof (C33_lanczos_terminates Z Z 0%Z Z.add (fun t => 10 + Z.of_nat t)%Z Z.of_nat 2 5 [4; 2; 3] Zmonoid (le_S _ _ (le_n 1)) HP) as HC.
  destruct (C33_reaches_final _ _ _ _ _ _ _ _ _ HC (Stop _ _ _ _ _)) as [m [s [H1 [H2 [rs [H3 [H4 H5]]]]]]].
  exists m, s, rs. split; [exact H1|]. split; [exact H2|]. split; [exact H3|]. split; [exact H4|]. split; apply H5; lia.
Qed.
