(** C37, C38, C39: two-site TDVP *)
From Coq Require Import List Arith Lia Bool QArith.
From Verif Require Import Base Disk SweepSpec TwoSite Tdvp TdvpSpec TdvpFacts TdvpRun.
Import ListNotations.
Local Open Scope nat_scope.

(** C37: in one time step every bond is evolved by tau in total *)
Theorem C37_bond_time : forall N tau l, 3 <= N -> l + 1 < N -> (bond_time l (subs (tdvp_sweep N tau)) == tau)%Q.
Proof. intros N tau l HN HL. rewrite sweep_schedule by exact HN. exact (bond_total N tau l HN HL). Qed.
Print Assumptions C37_bond_time.
(** every interior site by -tau, the two end sites not at all *)
Theorem C37_site_time : forall N tau j, 3 <= N -> (site_time j (subs (tdvp_sweep N tau)) == if (1 <=? j) && (j + 1 <? N) then - tau else 0)%Q.
Proof. intros N tau j HN. rewrite sweep_schedule by exact HN. exact (site_total N tau j HN). Qed.
Print Assumptions C37_site_time.
(** the substeps read backwards are the same substeps *)
Theorem C37_symmetric : forall N tau, 3 <= N -> Forall2 same_sub (subs (tdvp_sweep N tau)) (rev (subs (tdvp_sweep N tau))).
Proof. intros N tau HN. rewrite sweep_schedule by exact HN. exact (palindrome N tau). Qed.
Print Assumptions C37_symmetric.
(** and they alternate: two sites, one site back, the next two sites *)
Theorem C37_schedule : forall N tau, 3 <= N -> subs (tdvp_sweep N tau) = schedule N tau.
Proof. exact sweep_schedule. Qed.
Print Assumptions C37_schedule.
Example C37_case : subs (tdvp_sweep 4 (1 # 5)) =
  [Two true 0 ((1 # 5) / 2); One 1 (- (1 # 5) / 2); Two true 1 ((1 # 5) / 2); One 2 (- (1 # 5) / 2); Two false 2 ((1 # 5) * 2 / 2);
   One 2 (- (1 # 5) / 2); Two false 1 ((1 # 5) / 2); One 1 (- (1 # 5) / 2); Two true 0 ((1 # 5) / 2)]%Q.
Proof. reflexivity. Qed.

Section C38.
Variables T E M V : Type.
Variables (dT : T) (dE : E) (dM : M) (triv : side -> E) (grow : side -> nat -> E -> T -> E).
Variables (canoL canoR : T -> T -> T * T).
Variable evo : bool -> nat -> Q -> E -> T -> T -> E -> T * T.
Variable back : nat -> Q -> E -> T -> E -> T.
Variable dbg : bool.
Variable actO : T -> T.
Variable actI : option (T -> T).
Variables (mtr mtl : M) (mgr : T -> T -> M -> M) (mgl : M -> T -> T -> M) (mval : M -> T -> T -> M -> V).
Variable phase : Q -> V -> V.
Variable N : nat.
Notation sweep_run := (sweep_run T E dT dE triv grow canoL canoR evo back dbg).
Notation tau_step := (tau_step T E triv grow evo back N).
Notation tready := (tready T E triv grow N).
Notation idle := (idle T E N).
Notation tdvp_run := (tdvp_run T E M V dT dE dM triv grow canoL canoR evo back dbg actO actI mtr mtl mgr mgl mval phase).

(** C38: a sweep loads existing files only, never uses an empty slot and leaves the evolved tensors on disk, ready for the next sweep *)
Theorem C38_sweep : forall tau ts w, 3 <= N -> tready ts w -> exists w', sweep_run tau w = Ok w' /\ tready (tau_step tau ts) w' /\ tmp T E unit w' = tmp T E unit w.
Proof. exact (sweep_run_ok T E dT dE triv grow canoL canoR evo back dbg N). Qed.
(** the preparation acts with the operator at the requested site and with the string before it, and moves the center to site 0;
    the initial state is copied unless there is a copy *)
Theorem C38_preparation : forall site ini ts w, 2 <= N -> site < N -> idle ts w -> exists w' f2,
  init_state T E dT dE triv grow canoL canoR dbg actO actI true site ini w = Ok (w', f2) /\
  tready (center0 T canoR site (acted T actO actI site ts)) w' /\ match ini with Some f => f2 = f | None => forall i, i < N -> f2 i = Some (ts i) end.
Proof. exact (fun site ini ts w => init_state_ok T E dT dE triv grow canoL canoR dbg actO actI N true site ini ts w). Qed.
(** C38 and C39, the whole run: any number of steps; every entry of the record is written, with its site, its time and
    the overlap of the initial state with the state at that time *)
Theorem C39_record : forall site steps tau ini t0 mf ts w, 3 <= N -> site < N -> idle ts w ->
  (match ini with Some f => forall i, i < N -> f i = Some (t0 i) | None => t0 = ts end) -> exists r w',
  tdvp_run true site steps tau ini mf w = Ok (r, w') /\ length r = N * (steps + 1) /\
  tready (after T E triv grow evo back N tau steps (center0 T canoR site (acted T actO actI site ts))) w' /\
  (forall k i, k <= steps -> i < N -> nth_error r (k * N + i) = Some (Some (mkE V site i (e_time_of tau k)
     (Some (e_val V phase tau k (overlap_at T M V N mtr mtl mgr mgl mval (after T E triv grow evo back N tau k (center0 T canoR site (acted T actO actI site ts))) t0 i)))))).
Proof. exact (run_ok T E M V dT dE dM triv grow canoL canoR evo back dbg actO actI mtr mtl mgr mgl mval phase N). Qed.
(** the files of the partial contractions: all removed but the last, which stays *)
Theorem C38_overlap_files : forall f1 f2 t1 t2, (forall i, i < N -> f1 i = Some (t1 i)) -> (forall i, i < N -> f2 i = Some (t2 i)) -> 1 <= N -> forall mf, exists c mf',
  overlap T M V dM mtr mtl mgr mgl mval N f1 f2 mf = Ok (c, mf') /\ length c = N /\
  (forall i, i < N -> nth_error c i = Some (Some (overlap_at T M V N mtr mtl mgr mgl mval t1 t2 i))) /\
  (forall n, n < N - 1 -> mf' n = None) /\ mf' (N - 1) = Some (rights T M N mtr mgr t1 t2 (N - 1)) /\ (forall n, N <= n -> mf' n = mf n).
Proof. exact (overlap_ok T M V dM mtr mtl mgr mgl mval N). Qed.

(** finding: on two sites the sweep dereferences an environment that was never loaded *)
Theorem C38_two_sites_refuted : forall site steps tau ini t0 mf ts w, N = 2 -> site < N -> idle ts w ->
  (match ini with Some f => forall i, i < N -> f i = Some (t0 i) | None => t0 = ts end) -> 1 <= steps -> tdvp_run true site steps tau ini mf w = Ub.
Proof. exact (run_two_sites T E M V dT dE dM triv grow canoL canoR evo back dbg actO actI mtr mtl mgr mgl mval phase N). Qed.
(** finding: without local_op_corr the preparation reads the tensor of the operator's site into the last slot, so the last tensor is lost *)
Theorem C38_last_tensor_lost_refuted : forall site ini ts ts' w w', 2 <= N -> site < N - 1 -> idle ts w -> idle ts' w' -> (forall j, j < N - 1 -> ts j = ts' j) -> exists v v' f f',
  init_state T E dT dE triv grow canoL canoR dbg actO actI false site ini w = Ok (v, f) /\
  init_state T E dT dE triv grow canoL canoR dbg actO actI false site ini w' = Ok (v', f') /\ forall j, j < N -> dm T E unit v j = dm T E unit v' j.
Proof. exact (lost_last T E dT dE triv grow canoL canoR dbg actO actI N). Qed.
(** finding: without local_op_corr the record is too short and is written out of bounds *)
Theorem C39_global_refuted : forall site steps tau ini t0 mf ts w, 2 <= N -> site < N -> idle ts w ->
  (match ini with Some f => forall i, i < N -> f i = Some (t0 i) | None => t0 = ts end) -> tdvp_run false site steps tau ini mf w = Ub.
Proof. exact (run_oob T E M V dT dE dM triv grow canoL canoR evo back dbg actO actI mtr mtl mgr mgl mval phase N). Qed.
End C38.
Print Assumptions C38_sweep.
Print Assumptions C38_preparation.
Print Assumptions C39_record.
Print Assumptions C38_overlap_files.
Print Assumptions C38_two_sites_refuted.
Print Assumptions C38_last_tensor_lost_refuted.
Print Assumptions C39_global_refuted.

(** a chain of four numbers *)
Definition c38_w : world nat nat unit := mkW nat nat unit 4 fnone 0 fnone fnone None None (fun i => if i <? 4 then Some (10 + i) else None) fnone fnone false.
Definition c38_run (corr : bool) (n : nat) := tdvp_run nat nat nat nat 0 0 0 (fun _ => 1) (fun _ i e t => (e + i * t) mod 17) (fun a b => (a, b)) (fun a b => (a + b, b + 1))
  (fun rt l t el a b er => (a + el, b + er)) (fun j t el a er => (a * 2 + el) mod 19) true (fun t => t + 1) (Some (fun t => t + 2)) 1 1 (fun a b m => (a + b + m) mod 13) (fun m a b => (a * b + m) mod 13)
  (fun m a b k => m + a + b + k) (fun _ v => v) corr 2 n (1 # 10) None fnone c38_w.
Example C38_case : idle nat nat 4 (fun i => 10 + i) c38_w /\ (match c38_run true 2 with Ok (r, w) => length r = 12 /\ Forall (fun o => o <> None) r /\ dm nat nat unit w 3 <> None | _ => False end) /\ c38_run false 2 = Ub.
Proof.
  split; [|split; [vm_compute; repeat split; repeat constructor; discriminate|vm_compute; reflexivity]].
  split; [reflexivity|]. split; [reflexivity|]. intros j Hj. cbn. destruct (Nat.leb_spec j 3); [reflexivity|lia].
Qed.
