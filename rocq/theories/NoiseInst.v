(** Concrete runs of the preparation and of noised sweeps. *)
From Coq Require Import List Arith Lia Bool ZArith QArith Qround.
From Verif Require Import Base Disk SweepSpec DiskFacts TwoSite TwoSiteFacts FiniteMps FmpsSpec FmpsFacts FmpsInst VmpsInit NoiseSpec VmpsInitFacts Noise NoiseFacts NoiseRule NoiseMore VmpsTen.
Import ListNotations.
Local Open Scope nat_scope.

(** *** a chain of five integer tensors *)
Definition z5 (i : nat) : ten Z := nth i [zt 1 2 2 1; zt 2 2 3 3; zt 3 2 3 (-1); zt 3 2 1 2; zt 1 2 1 1]%Z (zt 1 1 1 0).
Definition z5_w : world (ten Z) (list nat) unit := mkW _ _ _ 5 fnone 0 fnone fnone None None (fun i => Some (z5 i)) fnone fnone false.
Definition z_boundary (D : nat) (w : world (ten Z) (list nat) unit) :=
  boundary (ten Z) (list nat) unit (zt 0 0 0 0) [] (fun _ => []) (fun _ _ e _ => e) (fun _ _ _ a b _ => (a, b, tt))
    (tcanoL Z 0%Z Z.add Z.mul zqr) (tcanoR Z 0%Z Z.add Z.mul zqr) (tbigL Z D) (tsmallL Z) (tbigR Z D) (tsmallR Z) (tcombL Z 0%Z 1%Z Z.add Z.mul) (tcombR Z 0%Z 1%Z Z.add Z.mul) true w.
Definition bounds_of {A} (r : res (nat * nat * A)) : option (nat * nat) := match r with Ok (l, r, _) => Some (l, r) | _ => None end.
Lemma z5_bounds : bounds_of (z_boundary 1 z5_w) = Some (0, 4) /\ bounds_of (z_boundary 3 z5_w) = Some (1, 3).
Proof. vm_compute. auto. Qed.
Lemma z5_linked : linked Z 1 (chain Z 5 z5) 1.
Proof. simpl. repeat split. Qed.

(** *** noised sweeps on five sites: environments list what they contain, the energy records what the update saw *)
Definition nw (N : nat) : world nat (list nat) (list (list nat)) := mkW _ _ _ N fnone 0 fnone fnone None None (fun i => Some (i + 3)) fnone fnone false.
Definition n_solve3 (rt : bool) (l : nat) (el : list nat) (a b : nat) (er : list nat) (c : nat) (s : list (list nat)) : nat * nat * nat * list (list nat) :=
  ((a + 2 * b + length s) mod 17, (b + c + hd 0 el) mod 19, (c + hd 0 er + 1) mod 13, (el ++ [a; b; c] ++ er) :: s).
Definition n_cano (a b : nat) : nat * nat := ((a + 1) mod 11, (a + b) mod 11).
Definition n_preset (k : nat) : option (list (list nat)) := match k with 0 => Some [] | _ => None end.
Definition n_run (e : bool) (k : nat) (w : world nat (list nat) (list (list nat))) :=
  run_noise nat (list nat) (list (list nat)) 0 [] (fun _ => []) (fun _ _ e t => t :: e) n_cano n_cano (fun a => 5 <? a) (fun a => a <? 3) (fun _ => true) (fun a => a <? 3) n_cano n_cano
    n_solve3 n_preset (fun s => s) (fun _ _ _ a b _ => (a, b, [])) true e k w.
Definition n_spec (lb rb k : nat) (ts : nat -> nat) :=
  sweeps3 nat (list nat) (list (list nat)) (fun _ => []) (fun _ _ e t => t :: e) n_solve3 5 n_preset (fun s => s) lb rb k 0 (ts, None).
Definition n_prep (ts : nat -> nat) := prep nat n_cano n_cano (fun a => 5 <? a) (fun a => a <? 3) (fun _ => true) (fun a => a <? 3) n_cano n_cano 5 ts.
Lemma n_run_agrees : exists s w', n_run false 2 (nw 5) = Ok (s, w') /\ length s = 8 /\
  (let '(lb, rb, ts) := n_prep (fun i => i + 3) in lb = 1 /\ rb = 4 /\ snd (n_spec lb rb 2 ts) = Some s).
Proof. eexists. eexists. split; [vm_compute; reflexivity|]. split; vm_compute; auto. Qed.

(** *** environments left in the temporary directory.

    Tensors carry the gauge signs of their two bonds and a size that the boundary search looks at; a right
    canonicalization flips the sign of the bond on both sides; an environment carries the sign of its outer bond.
    The energy of an update is the product of all signs, which no change of gauge alters.  The maximal bond dimension is
    small in the first run, large in the second and small again in the third, all with the same directory. *)
Definition gt : Type := Z * Z * nat.
Definition g_canoR (p a : gt) : gt * gt := let '(px, py, ps) := p in let '(ax, ay, sz) := a in ((px, (- py)%Z, ps), ((- ax)%Z, ay, sz)).
Definition g_canoL (a b : gt) : gt * gt := (a, b).
Definition g_grow (s : side) (i : nat) (e : Z) (t : gt) : Z := let '(x, y, _) := t in (x * (y * e))%Z.
Definition g_solve3 (rt : bool) (l : nat) (el : Z) (a b : gt) (er : Z) (c : gt) (s : list Z) : gt * gt * gt * list Z :=
  let '(ax, ay, _) := a in let '(bx, by_, _) := b in (a, b, c, (el * (ax * (ay * (bx * (by_ * er)))))%Z :: s).
Definition g_run (Dm : nat) (w : world gt Z (list Z)) :=
  run_noise gt Z (list Z) (0%Z, 0%Z, 0) 0%Z (fun _ => 1%Z) g_grow g_canoL g_canoR (fun _ => true) (fun _ => false) (fun a => Dm <? snd a) (fun _ => false) g_canoL g_canoL
    g_solve3 (fun _ => Some []) (fun s => s) (fun _ _ _ a b _ => (a, b, [])) true false 1 w.
Definition g_w : world gt Z (list Z) := mkW _ _ _ 10 fnone 0 fnone fnone None None (fun i => Some (1%Z, 1%Z, 4)) fnone fnone false.
Definition g_three : res (list (list Z)) :=
  let! (s0, w) := g_run 2 g_w in
  let! (s1, w) := g_run 8 w in
  let! (s2, w) := g_run 2 w in Ok [s0; s1; s2].
Definition g_fresh : res (list (list Z)) :=
  let! (s0, w) := g_run 2 g_w in
  let! (s1, w) := g_run 8 w in
  let! (s2, w) := g_run 2 (set_tmp gt Z (list Z) false w) in Ok [s0; s1; s2].
Lemma stale_environments : exists l, g_three = Ok l /\ existsb (fun s => existsb (Z.eqb (-1)) s) l = true /\
  exists l', g_fresh = Ok l' /\ forallb (fun s => forallb (Z.eqb 1) s) l' = true.
Proof. eexists. split; [vm_compute; reflexivity|]. split; [reflexivity|]. eexists. split; [vm_compute; reflexivity|]. reflexivity. Qed.

(** *** the noise: exact arithmetic, and rounding down to multiples of 1/8 *)
Definition rnd8 (x : Q) : Q := Qmake (Qfloor (x * (8 # 1))) 8.
Lemma rnd8_mono : forall x y, (x <= y)%Q -> (rnd8 x <= rnd8 y)%Q.
Proof.
  intros x y H. unfold rnd8, Qle. cbn [Qnum Qden]. apply Z.mul_le_mono_nonneg_r; [lia|]. apply Qfloor_resp_le. apply Qmult_le_compat_r; auto. discriminate.
Qed.
Lemma rnd8_repr : forall x, repr rnd8 (rnd8 x).
Proof.
  intros x. unfold repr, rnd8. set (z := Qfloor (x * (8 # 1))). assert (E : ((z # 8) * (8 # 1) == inject_Z z)%Q) by (unfold Qeq, Qmult, inject_Z; cbn; lia).
  rewrite (Qfloor_comp _ _ E), Qfloor_Z. reflexivity.
Qed.
(** a sequence of energies that makes the noise go down, up to the maximum and stay *)
Definition n_trace : list Q :=
  let go := rule rnd8 (1 # 10) (1 # 2) (2 # 1) (3 # 2) in
  let s1 := go (mkN 1 0 0) (1 # 1) in let s2 := go (mkN s1 0 (100 # 1)) (1 # 1) in let s3 := go (mkN s2 0 (100 # 1)) (1 # 1) in let s4 := go (mkN s3 0 0) (- 1 # 1) in [s1; s2; s3; s4].
Lemma n_trace_moves : forallb (fun p => Qeq_bool (fst p) (snd p)) (combine n_trace [(1 # 2); 1; (3 # 2); (3 # 2)]%Q) = true.
Proof. reflexivity. Qed.
