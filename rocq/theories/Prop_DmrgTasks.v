(** Property C67: the distributed DMRG computes what the serial one computes. *)
From Coq Require Import List Arith Lia Bool ZArith Ring Permutation.
From Verif Require Import Base FiniteMps FmpsSpec FmpsFacts FmpsInst EffHam EffHamSpec EffHamFacts EffHamInst Mpi FarmSpec Farm FarmFacts FarmInst Farm2 Farm2Facts Gather GatherFacts DmrgFarm DmrgFarmFacts DmrgTasks DmrgTasksFacts.
Import ListNotations.
Local Open Scope nat_scope.

Section Distributed.
Variables (R : Type) (r0 r1 : R) (radd rmul rsub : R -> R -> R) (ropp conj re : R -> R).
Hypothesis Rth : ring_theory r0 r1 radd rmul rsub ropp (@eq R).
Hypothesis conj0 : conj r0 = r0.
Hypothesis conj1 : conj r1 = r1.
Hypothesis conj_add : forall x y, conj (radd x y) = radd (conj x) (conj y).
Hypothesis conj_mul : forall x y, conj (rmul x y) = rmul (conj x) (conj y).
Hypothesis re0 : re r0 = r0.
Hypothesis re_add : forall x y, re (radd x y) = radd (re x) (re y).
Notation tens := (tens R).
Notation left_ops := (left_ops R r0 radd rmul conj (triv_group R r1)). Notation right_ops := (right_ops R r0 r1 radd rmul conj).
Notation eff_mul := (eff_mul R r0 radd rmul). Notation dot4 := (dot4 R r0 radd rmul conj).
Notation grow_left := (grow_left R r0 radd rmul conj). Notation grow_right := (grow_right R r0 radd rmul conj).
Notation w_mul := (w_mul R r0 radd rmul). Notation w_left := (w_left R r0 radd rmul conj). Notation w_right := (w_right R r0 radd rmul conj).
Notation bs_group := (bs_group R). Notation sb_group := (sb_group R).

(** the first multiplication, with tasks handed out dynamically: every execution ends, and the master holds H_eff x *)
Theorem C67_dynamic_product : forall tl tr wl w1 w2 wr D0 D3 gl gr W, cut R tl tr wl w1 w2 wr D0 D3 -> left_ops tl wl = Ok gl -> right_ops tr wr = Ok gr -> 1 <= W ->
  forall p1 p2 x, completes (mul_prog tens W (mcols w1) (bs_group gl w1) (sb_group gr w2) (w_mul D0 p1 p2 D3 x) NoT) (S W) (mul_init tens W (mcols w1))
    (3 * mul_size tens W (mcols w1) (bs_group gl w1) (sb_group gr w2) + W)
  (fun l => exists rs y z, l 0 = DDone rs /\ dyn_result R radd (mcols w1) rs = Ok y /\ eff_mul gl gr w1 w2 D0 p1 p2 D3 x = Ok z /\
     forall a b c d, a < D0 -> d < D3 -> y a b c d = z a b c d).
Proof.
  intros tl tr wl w1 w2 wr D0 D3 gl gr W HC HL HR HW p1 p2 x.
  exact (dyn_run R r0 r1 radd rmul rsub ropp conj Rth conj0 conj1 conj_add conj_mul tl tr wl w1 w2 wr D0 D3 HC gl gr HL HR W HW p1 p2 x).
Qed.
(** every later one, with the operators the workers kept, whoever has them: H_eff x' and Re <x'|H_eff|x'> *)
Theorem C67_static_product : forall tl tr wl w1 w2 wr D0 D3 gl gr W, cut R tl tr wl w1 w2 wr D0 D3 -> left_ops tl wl = Ok gl -> right_ops tr wr = Ok gr -> 1 <= W ->
  forall p1 p2 x x' n s, let dyn := mul_prog tens W (mcols w1) (bs_group gl w1) (sb_group gr w2) (w_mul D0 p1 p2 D3 x) NoT in
  steps _ _ dyn (S W) n (start (mul_init tens W (mcols w1))) s -> final _ _ dyn (S W) s ->
  completes (sprog tens R r0 radd W) (S W)
    (static_init tens r0 W (tadd R radd) (w_mul D0 p1 p2 D3 x') (tzero R r0) (overlap R r0 radd rmul conj re D0 p1 p2 D3 x') (loc s)) (10 * W)
  (fun l => exists xs ov y z, l 0 = SDone xs ov /\ static_result R radd xs = Ok y /\ eff_mul gl gr w1 w2 D0 p1 p2 D3 x' = Ok z /\
     (forall a b c d, a < D0 -> d < D3 -> y a b c d = z a b c d) /\ ov = re (dot4 D0 p1 p2 D3 x' z)).
Proof.
  intros tl tr wl w1 w2 wr D0 D3 gl gr W HC HL HR HW p1 p2 x x' n s.
  exact (static_run R r0 r1 radd rmul rsub ropp conj re Rth conj0 conj1 conj_add conj_mul re0 re_add tl tr wl w1 w2 wr D0 D3 HC gl gr HL HR W HW p1 p2 x x' n s).
Qed.
(** growing the blocks behind an update *)
Theorem C67_grow_left : forall tl tr wl w1 w2 wr D0 D3 gl gr W, cut R tl tr wl w1 w2 wr D0 D3 -> left_ops tl wl = Ok gl -> right_ops tr wr = Ok gr -> 1 <= W ->
  forall p1 p2 x n s t, let dyn := mul_prog tens W (mcols w1) (bs_group gl w1) (sb_group gr w2) (w_mul D0 p1 p2 D3 x) NoT in
  steps _ _ dyn (S W) n (start (mul_init tens W (mcols w1))) s -> final _ _ dyn (S W) s ->
  completes (kprog tens (mcols w1)) (S W) (grow_init tens (mcols w1) (w_left t) NoT (loc s)) ((2 * mcols w1 + 2) * (2 * mcols w1) + W * (2 * mcols w1))
  (fun l => exists rs, l 0 = KDone rs /\ group_result R (mcols w1) rs = grow_left gl t w1).
Proof.
  intros tl tr wl w1 w2 wr D0 D3 gl gr W HC HL HR HW p1 p2 x n s t.
  exact (left_run R r0 r1 radd rmul rsub ropp conj Rth conj0 conj1 conj_add conj_mul tl tr wl w1 w2 wr D0 D3 HC gl gr HL HR W HW p1 p2 x n s t).
Qed.
Theorem C67_grow_right : forall tl tr wl w1 w2 wr D0 D3 gl gr W, cut R tl tr wl w1 w2 wr D0 D3 -> left_ops tl wl = Ok gl -> right_ops tr wr = Ok gr -> 1 <= W ->
  forall p1 p2 x n s t, let dyn := mul_prog tens W (mcols w1) (bs_group gl w1) (sb_group gr w2) (w_mul D0 p1 p2 D3 x) NoT in
  steps _ _ dyn (S W) n (start (mul_init tens W (mcols w1))) s -> final _ _ dyn (S W) s ->
  completes (kprog tens (mcols w1)) (S W) (grow_init tens (mcols w1) (fun _ => w_right t) NoT (loc s)) ((2 * mcols w1 + 2) * (2 * mcols w1) + W * (2 * mcols w1))
  (fun l => exists rs, l 0 = KDone rs /\ group_result R (mcols w1) rs = grow_right gr t w2).
Proof.
  intros tl tr wl w1 w2 wr D0 D3 gl gr W HC HL HR HW p1 p2 x n s t.
  exact (right_run R r0 r1 radd rmul rsub ropp conj Rth conj0 conj1 conj_add conj_mul tl tr wl w1 w2 wr D0 D3 HC gl gr HL HR W HW p1 p2 x n s t).
Qed.
(** the right operators at the start: more operators than workers, and not more *)
Theorem C67_start_many : forall W gr t w, 1 <= W -> W < mrows w -> length gr = mcols w ->
  completes (many_prog tens W (mrows w) (sb_group gr w) (w_right t) NoT) (S W) (many_init tens W (mrows w)) (3 * init_size tens W (mrows w) (sb_group gr w) + W)
  (fun l => exists rs, l 0 = DDone rs /\ group_result R (mrows w) rs = grow_right gr t w).
Proof. exact (many_run R r0 radd rmul conj). Qed.
Theorem C67_start_few : forall W gr t w, mrows w <= W -> length gr = mcols w ->
  completes (few_prog tens (mrows w) (sb_group gr w) (w_right t) NoT) (S W) (few_init tens (mrows w) (sb_group gr w))
    (3 * remi tens (mrows w) (fun t => Farm2Facts.gvals tens (sb_group gr w t)) 0 + W)
  (fun l => exists rs, l 0 = IDone rs /\ group_result R (mrows w) rs = grow_right gr t w).
Proof. exact (few_run R r0 radd rmul conj). Qed.
End Distributed.
Print Assumptions C67_dynamic_product.
Print Assumptions C67_static_product.
Print Assumptions C67_grow_left.
Print Assumptions C67_grow_right.
Print Assumptions C67_start_many.
Print Assumptions C67_start_few.

(** the chain of four sites at its middle cut, two workers for three tasks: an execution of the multiplication exists and ends *)
Example C67_instance : exists gl gr n s, let dyn := mul_prog (tens Z) 2 3 (bs_group Z gl eW) (sb_group Z gr eW) (w_mul Z 0%Z Z.add Z.mul 2 2 2 2 e_x) NoT in
  cut Z (firstn 1 e_ts) (skipn 3 e_ts) (firstn 1 e_ws) eW eW (skipn 3 e_ws) 2 2 /\
  left_ops Z 0%Z Z.add Z.mul zconj (triv_group Z 1%Z) (firstn 1 e_ts) (firstn 1 e_ws) = Ok gl /\ right_ops Z 0%Z 1%Z Z.add Z.mul zconj (skipn 3 e_ts) (skipn 3 e_ws) = Ok gr /\
  steps _ _ dyn 3 n (start (mul_init (tens Z) 2 3)) s /\ final _ _ dyn 3 s /\ mcols eW = 3.
Proof.
  destruct (eff_ham_ok Z 0%Z 1%Z Z.add Z.mul Z.sub Z.opp Zth zconj eq_refl eq_refl (fun _ _ => eq_refl) (fun _ _ => eq_refl) _ _ _ _ _ _ _ _ e_cut) as [gl [gr [E1 [E2 _]]]].
  destruct (reaches _ _ _ _ _ _ _ 0 (start (mul_init (DmrgTasks.tens Z) 2 3)) (mul_completes (DmrgTasks.tens Z) 2 3 NoT ltac:(lia) (bs_group Z gl eW) (sb_group Z gr eW) (w_mul Z 0%Z Z.add Z.mul 2 2 2 2 e_x))) as [n [s [A [B _]]]]; [constructor|].
  exists gl, gr, n, s. split; [exact e_cut|]. auto.
Qed.
