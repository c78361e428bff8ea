(** Concrete DMRG runs. *)
From Coq Require Import List Arith Lia Bool ZArith.
From Verif Require Import Base Disk SweepSpec TwoSite VmpsInit NoiseSpec VmpsInitFacts NoiseInst Dmrg DmrgSpec DmrgFacts.
Import ListNotations.
Local Open Scope nat_scope.

(** *** five sites; MPO matrices 1x2, 2x3, 3x2, 2x2, 2x1; operators and tensors are numbers *)
Definition m_rows (i : nat) : nat := nth i [1; 2; 3; 2; 2] 0.
Definition m_cols (i : nat) : nat := nth i [2; 3; 2; 2; 1] 0.
Definition m_sum (g : list nat) : nat := fold_left plus g 0.
Definition m_grow (s : side) (i : nat) (g : list nat) (t : nat) : list nat :=
  map (fun c => (m_sum g * (c + 1) + t) mod 13) (seq 0 (match s with L => m_cols i | R => m_rows i end)).
Definition m_solve (rt : bool) (l : nat) (gl : list nat) (a b : nat) (gr : list nat) : nat * nat * list nat :=
  ((a + 2 * b + m_sum gl) mod 17, (b + m_sum gr + 1) mod 19, gl ++ [a; b] ++ gr).
Definition m_big (a : nat) : bool := 5 <? a.
Definition m_small (a : nat) : bool := a <? 3.
Definition m_run (arr : nat -> bool * bool) (n : nat) (d : dst nat nat (list nat)) :=
  execute nat nat (list nat) 0 m_rows m_cols (fun _ => 1) m_grow m_solve n_cano n_cano m_big m_small (fun _ => true) m_small n_cano n_cano true arr n d.
Definition m_w : world nat unit (list nat) := mkW _ _ _ 5 fnone 0 fnone fnone None None (fun i => Some (i + 3)) fnone fnone false.
Definition m_d (stp emg : bool) : dst nat nat (list nat) := mkD _ _ _ m_w (fun _ => []) (fun _ => []) (fun _ _ _ => None) stp emg 0.
Definition m_prep (ts : nat -> nat) := prep nat n_cano n_cano m_big m_small (fun _ => true) m_small n_cano n_cano 5 ts.
Definition m_sweeps (k : nat) (ts : nat -> nat) := sweeps_spec nat (list nat) (list nat) (fun _ => [1]) m_grow m_solve 5 1 4 k (ts, None).
Definition quiet : nat -> bool * bool := fun _ => (false, false).
Definition usr_at (k : nat) : nat -> bool * bool := fun u => (u =? k, false).
Definition int_at (k : nat) : nat -> bool * bool := fun u => (false, u =? k).
Definition files (d : dst nat nat (list nat)) : list (option nat) := map (dm nat unit (list nat) (W _ _ _ d)) (seq 0 5).
Definition memory (d : dst nat nat (list nat)) : list (option nat) := map (mm nat unit (list nat) (W _ _ _ d)) (seq 0 5).
Definition m_ts0 : nat -> nat := snd (m_prep (fun i => i + 3)).
Lemma m_prep_bounds : fst (m_prep (fun i => i + 3)) = (1, 4).
Proof. reflexivity. Qed.
Lemma m_shapes : m_rows 0 = 1 /\ m_cols (5 - 1) = 1 /\ (forall i, i + 1 < 5 -> m_cols i = m_rows (i + 1)) /\
  (forall i g t, length g = m_rows i -> length (m_grow L i g t) = m_cols i) /\ (forall i g t, length g = m_cols i -> length (m_grow R i g t) = m_rows i).
Proof.
  split; [reflexivity|]. split; [reflexivity|]. split; [intros i Hi; do 4 (destruct i; [reflexivity|]); lia|].
  split; intros; unfold m_grow; rewrite map_length, seq_length; reflexivity.
Qed.
Lemma m_ready : forall stp emg, exists ts0, ready nat nat (list nat) 5 m_cols (fun _ => 1) m_grow n_cano n_cano m_big m_small (fun _ => true) m_small n_cano n_cano (fun i => i + 3) ts0 1 4 (m_d stp emg).
Proof.
  intros. exists m_ts0. split; [lia|]. split; [reflexivity|]. split; [reflexivity|]. split; [intros i _; reflexivity|]. split; [intros i _; reflexivity|]. intros H. discriminate.
Qed.
(** three sweeps without signals; a graceful stop in the first sweep; an emergency stop after its second update *)
Lemma m_runs :
  (exists d, m_run quiet 3 (m_d false false) = Ok d /\ files d = map (fun i => Some (center_to_0 nat n_cano 2 (fst (m_sweeps 3 m_ts0)) i)) (seq 0 5) /\ firstn 3 (memory d) = firstn 3 (files d)) /\
  (exists d, m_run (usr_at 2) 3 (m_d false false) = Ok d /\ files d = map (fun i => Some (center_to_0 nat n_cano 2 (fst (m_sweeps 1 m_ts0)) i)) (seq 0 5)) /\
  (exists d, m_run (int_at 1) 3 (m_d false false) = Ok d /\ memory d = repeat None 5).
Proof. split; [|split]; eexists; (split; [vm_compute; reflexivity|]); vm_compute; auto. Qed.
(** the emergency signal arrives after the last update of the first sweep *)
Lemma m_lost : exists d, m_run (int_at 4) 3 (m_d false false) = Ok d /\
  nth 2 (files d) None <> nth 2 (memory d) None /\ nth 2 (memory d) None = Some (fst (m_sweeps 1 m_ts0) 2).
Proof. eexists. split; [vm_compute; reflexivity|]. split; [vm_compute; discriminate|vm_compute; reflexivity]. Qed.
(** two runs in one process, the signal sent during the first *)
Definition m_two (a1 : nat -> bool * bool) (n : nat) : res (dst nat nat (list nat)) :=
  let! d := m_run a1 3 (m_d false false) in m_run quiet n (executor nat nat (list nat) 5 d).
Lemma m_sticky : exists d1 d2, m_run (usr_at 2) 3 (m_d false false) = Ok d1 /\ stp _ _ _ d1 = true /\
  m_run quiet 1 (executor nat nat (list nat) 5 d1) = Ok d2 /\ m_run quiet 5 (executor nat nat (list nat) 5 d1) = Ok d2.
Proof. eexists. eexists. split; [vm_compute; reflexivity|]. split; [reflexivity|]. split; vm_compute; reflexivity. Qed.

(** *** operators left in the temporary directory by runs with other boundaries (the chain of NoiseInst.v: signs of gauges) *)
Definition gd_grow (s : side) (i : nat) (g : list Z) (t : gt) : list Z := match g with [e] => [g_grow s i e t] | _ => [] end.
(** an update that sees the sign -1 marks its tensors *)
Definition gd_solve (rt : bool) (l : nat) (gl : list Z) (a b : gt) (gr : list Z) : gt * gt * Z :=
  let '(ax, ay, sa) := a in let '(bx, by_, sb) := b in
  let e := (hd 0 gl * (ax * (ay * (bx * (by_ * hd 0 gr)))))%Z in
  let mark := fun s : nat => if (e <? 0)%Z then 5 else s in (ax, ay, mark sa, (bx, by_, mark sb), e).
Definition gd_run (Dm : nat) (d : dst gt Z Z) :=
  execute gt Z Z (0%Z, 0%Z, 0) (fun _ => 1) (fun _ => 1) (fun _ => 1%Z) gd_grow gd_solve g_canoL g_canoR (fun _ => true) (fun _ => false) (fun a => Dm <? snd a) (fun _ => false) g_canoL g_canoL true quiet 1 d.
Definition gd_0 : dst gt Z Z :=
  mkD _ _ _ (mkW _ _ _ 10 fnone 0 fnone fnone None None (fun _ => Some (1%Z, 1%Z, 4)) fnone fnone false) (fun _ => []) (fun _ => []) (fun _ _ _ => None) false false 0.
Definition gd_next : dst gt Z Z -> dst gt Z Z := executor gt Z Z 10.
Definition gd_forget (d : dst gt Z Z) : dst gt Z Z := setW gt Z Z (set_tmp gt unit Z false (W _ _ _ d)) (set_op gt Z Z (fun _ _ _ => None) d).
Definition gd_marked (d : dst gt Z Z) : bool := existsb (fun i => match dm gt unit Z (W _ _ _ d) i with Some (_, _, s) => s =? 5 | None => false end) (seq 0 10).
Lemma gd_stale : exists d1 d2 d3, gd_run 2 gd_0 = Ok d1 /\ gd_run 8 (gd_next d1) = Ok d2 /\ gd_run 2 (gd_next d2) = Ok d3 /\
  gd_marked d1 = false /\ gd_marked d2 = false /\ gd_marked d3 = true /\
  exists d4, gd_run 2 (gd_forget (gd_next d2)) = Ok d4 /\ gd_marked d4 = false.
Proof.
  eexists. eexists. eexists. split; [vm_compute; reflexivity|]. split; [vm_compute; reflexivity|]. split; [vm_compute; reflexivity|].
  split; [vm_compute; reflexivity|]. split; [vm_compute; reflexivity|]. split; [vm_compute; reflexivity|]. eexists. split; [vm_compute; reflexivity|vm_compute; reflexivity].
Qed.
