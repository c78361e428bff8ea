(** C88: a time evolution that is repeated, or started again after the process died *)
From Coq Require Import List Arith Lia Bool QArith.
From Verif Require Import Base Disk SweepSpec TwoSite Tdvp TdvpSpec TdvpFacts TdvpRun TdvpAgainSpec TdvpAgainFacts.
Import ListNotations.
Local Open Scope nat_scope.

Section C88.
Variables T E M V : Type.
Variables (dT : T) (dE : E) (dM : M) (triv : side -> E) (grow : side -> nat -> E -> T -> E).
Variables (canoL canoR : T -> T -> T * T).
Variable evo : bool -> nat -> Q -> E -> T -> T -> E -> T * T.
Variable back : nat -> Q -> E -> T -> E -> T.
Variable dbg : bool.
Variable actO : T -> T.
Variable actI : option (T -> T).
Variables (mtr mtl : M) (mgr : T -> T -> M -> M) (mgl : M -> T -> T -> M) (mval : M -> T -> T -> M -> V).
Variable phase : Q -> V -> V.
Variable N : nat.
Notation texec := (texec T E dT dE triv grow canoL canoR evo back dbg).
Notation crash := (crash T E unit).
Notation halfway := (halfway T E triv grow evo back N).
Notation idle := (idle T E N).
Notation init_state := (init_state T E dT dE triv grow canoL canoR dbg actO actI).
Notation tdvp_run := (tdvp_run T E M V dT dE dM triv grow canoL canoR evo back dbg actO actI mtr mtl mgr mgl mval phase).
Notation sweeps_run := (sweeps_run T E dT dE triv grow canoL canoR evo back dbg).
Notation after := (after T E triv grow evo back N).
Notation begun := (begun T canoR actO actI).
Notation partly := (partly T actO actI).
Notation act1 := (act1 T E dT dE triv grow canoL canoR dbg).
Notation records := (records T M V N mtr mtl mgr mgl mval phase).

(** finding: the same call after a finished run, in the same or in a new process, does not go on with the evolution: the
    operator acts once more on the evolved state, and the times of the record start at 0 again *)
Theorem C88_second_run : forall site steps steps2 tau mf mf2 ts w, 3 <= N -> site < N -> idle ts w -> exists r w1,
  tdvp_run true site steps tau None mf w = Ok (r, w1) /\ forall f, (forall i, i < N -> f i = Some (ts i)) -> forall v, v = w1 \/ v = crash w1 -> exists r2 w2,
  tdvp_run true site steps2 tau (Some f) mf2 v = Ok (r2, w2) /\ records site steps2 tau ts (fun k => after tau k (begun site (after tau steps (begun site ts)))) r2.
Proof. exact (second_run T E M V dT dE dM triv grow canoL canoR evo back dbg actO actI mtr mtl mgr mgl mval phase N). Qed.
(** finding: the process dies inside a time step, after any instruction of it.  Every file of the MPS then holds the tensor of the
    start of that step, of its turning point or of its end; no file is missing, and the next call runs on that mixture without an error *)
Theorem C88_died_in_step : forall site n tau p q ts w, 3 <= N -> site < N -> idle ts w -> tdvp_sweep N tau = p ++ q -> exists w1 f w2 w3 ts',
  init_state true site None w = Ok (w1, f) /\ (forall i, i < N -> f i = Some (ts i)) /\ sweeps_run tau n w1 = Ok w2 /\ texec p (set_mm T E unit fnone w2) = Ok w3 /\
  (forall j, j < N -> ts' j = after tau n (begun site ts) j \/ ts' j = halfway tau (after tau n (begun site ts)) j \/ ts' j = after tau (S n) (begun site ts) j) /\
  idle ts' (crash w3) /\
  forall steps tau2 mf, exists r w4, tdvp_run true site steps tau2 (Some f) mf (crash w3) = Ok (r, w4) /\ records site steps tau2 ts (fun k => after tau2 k (begun site ts')) r.
Proof. exact (died_run T E M V dT dE dM triv grow canoL canoR evo back dbg actO actI mtr mtl mgr mgl mval phase N). Qed.
(** finding: the process dies while the operator is applied, after its site and [m] sites of the string: the next call acts with all of it
    on top of that *)
Theorem C88_died_acting : forall site m f ts w, 3 <= N -> m <= site -> site < N -> idle ts w -> (forall i, i < N -> f i = Some (ts i)) -> exists w1 w2,
  act1 actO site w = Ok w1 /\ (match actI with Some g => for_each (rev (seq (site - m) m)) (act1 g) w1 | None => Ok w1 end) = Ok w2 /\
  forall steps tau mf, exists r w3, tdvp_run true site steps tau (Some f) mf (crash w2) = Ok (r, w3) /\ records site steps tau ts (fun k => after tau k (begun site (partly site m ts))) r.
Proof. exact (died_acting T E M V dT dE dM triv grow canoL canoR evo back dbg actO actI mtr mtl mgr mgl mval phase N). Qed.
(** finding: the process dies while the initial state is copied: no later call completes the copy; each applies the operator to
    the stored MPS and then stops *)
Theorem C88_died_copying : forall site f ts w, 3 <= N -> site < N -> idle ts w -> f (N - 1) = None ->
  (exists w1, init_state true site (Some f) w = Ok (w1, f) /\ idle (begun site ts) w1) /\ forall steps tau mf, tdvp_run true site steps tau (Some f) mf w = Abort.
Proof. exact (died_copying T E M V dT dE dM triv grow canoL canoR evo back dbg actO actI mtr mtl mgr mgl mval phase N). Qed.
End C88.
Print Assumptions C88_second_run.
Print Assumptions C88_died_in_step.
Print Assumptions C88_died_acting.
Print Assumptions C88_died_copying.

(** a chain of five numbers *)
Definition c88_ts (i : nat) : nat := 10 + i.
Definition c88_w : world nat nat unit := mkW nat nat unit 5 fnone 0 fnone fnone None None (fun i => if i <? 5 then Some (c88_ts i) else None) fnone fnone false.
Definition c88_grow (s : side) (i e t : nat) : nat := (e + i * t) mod 17.
Definition c88_evo (rt : bool) (l : nat) (t : Q) (el a b er : nat) : nat * nat := (a + el, b + er).
Definition c88_back (j : nat) (t : Q) (el a er : nat) : nat := (a * 2 + el) mod 19.
Definition c88_canoR (a b : nat) : nat * nat := (a + b, b + 1).
Definition c88_run (n : nat) (ini : option (nat -> option nat)) (w : world nat nat unit) := tdvp_run nat nat nat nat 0 0 0 (fun _ => 1) c88_grow (fun a b => (a, b)) c88_canoR
  c88_evo c88_back true (fun t => t + 1) (Some (fun t => t + 2)) 1 1 (fun a b m => (a + b + m) mod 13) (fun m a b => (a * b + m) mod 13)
  (fun m a b k => m + a + b + k) (fun _ v => v) true 2 n (1 # 10) ini fnone w.
Definition c88_vals (r : list (option (entry nat))) : list (option nat) := map (fun o => match o with Some e => e_avg nat e | None => None end) r.
Definition c88_exec (p : list tinstr) := texec nat nat 0 0 (fun _ => 1) c88_grow (fun a b => (a, b)) c88_canoR c88_evo c88_back true p.
Definition c88_ini : nat -> option nat := fun i => if i <? 5 then Some (c88_ts i) else None.
Theorem C88_case : idle nat nat 5 c88_ts c88_w /\ (forall i, i < 5 -> c88_ini i = Some (c88_ts i)).
Proof.
  split; [split; [reflexivity|split; [reflexivity|]]|]; intros j Hj; cbn [dm c88_w]; unfold c88_ini; (destruct (Nat.ltb_spec j 5); [reflexivity|lia]).
Qed.
(** finding: one step and one more is not two steps: entry (1, i) of the second record is not entry (2, i) of the longer one *)
Theorem C88_not_continued_refuted : exists r w r2 w2 r12 w12, c88_run 1 None c88_w = Ok (r, w) /\ c88_run 1 (Some c88_ini) (crash nat nat unit w) = Ok (r2, w2) /\
  c88_run 2 None c88_w = Ok (r12, w12) /\ firstn 10 (c88_vals r12) = c88_vals r /\ forall i, i < 5 -> nth_error (c88_vals r2) (5 + i) <> nth_error (c88_vals r12) (10 + i).
Proof.
  do 6 eexists. split; [vm_compute; reflexivity|]. split; [vm_compute; reflexivity|]. split; [vm_compute; reflexivity|]. split; [vm_compute; reflexivity|].
  intros i Hi. do 5 (destruct i as [|i]; [vm_compute; discriminate|]). lia.
Qed.
(** finding: the files that a dead process leaves need not be the chain between any two substeps of the evolution *)
Theorem C88_mixed_refuted : exists p q w1 f w3, tdvp_sweep 5 (1 # 10) = p ++ q /\
  init_state nat nat 0 0 (fun _ => 1) c88_grow (fun a b => (a, b)) c88_canoR true (fun t => t + 1) (Some (fun t => t + 2)) true 2 None c88_w = Ok (w1, f) /\
  c88_exec p (set_mm nat nat unit fnone w1) = Ok w3 /\
  forall k, k <= length (schedule 5 (1 # 10)) ->
    map (fun j => Some (fold_left (evolve nat nat (fun _ => 1) c88_grow c88_evo c88_back 5) (firstn k (schedule 5 (1 # 10))) (begun nat c88_canoR (fun t => t + 1) (Some (fun t => t + 2)) 2 c88_ts) j)) (seq 0 5)
    <> map (dm nat nat unit w3) (seq 0 5).
Proof.
  exists (firstn 16 (tdvp_sweep 5 (1 # 10))), (skipn 16 (tdvp_sweep 5 (1 # 10))). do 3 eexists. split; [symmetry; apply firstn_skipn|]. split; [vm_compute; reflexivity|]. split; [vm_compute; reflexivity|].
  intros k Hk. vm_compute in Hk. do 14 (destruct k as [|k]; [vm_compute; discriminate|]). exfalso. repeat apply le_S_n in Hk. inversion Hk.
Qed.
