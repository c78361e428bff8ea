(** C35 (and C32, C33 for the exchanges of the distributed DMRG). *)
From Coq Require Import List Arith ZArith Lia Permutation.
From Verif Require Import Mpi FarmSpec Farm FarmInst Farm2 Gather GatherFacts DmrgFarm DmrgFarmFacts.
Import ListNotations.

(** The first multiplication of a Lanczos run.  bs t, sb t: the two groups of terms of task t; mul: what a worker computes from them.
    At the end the master has one result of every task, the workers' tables together contain every task once, and every worker
    has kept the groups of the tasks of its table. *)
Theorem C35_dynamic : forall X W T x0 bs sb mul, 1 <= W ->
  completes (mul_prog X W T bs sb mul x0) (S W) (mul_init X W T) (3 * mul_size X W T bs sb + W)
    (fun l => exists rs, l 0 = DDone rs /\ once T (fun t => mul (bs t) (sb t)) rs /\
       Permutation (flat_map (table_of X l) (seq 1 W)) (seq 0 T) /\
       (forall w t, 1 <= w <= W -> In t (table_of X l w) -> kept X l w t = Some (bs t, sb t)) /\
       (forall w, 1 <= w <= W -> exists hist, l w = EDone hist)).
Proof. intros X W T x0 bs sb mul HW. exact (mul_completes X W T x0 HW bs sb mul). Qed.
Print Assumptions C35_dynamic.
(** Every later multiplication, with another state (another mul'), after any dynamic one: the tensors the master receives add up to
    the sum over all terms, and so do the overlaps. *)
Theorem C35_static : forall X R W T x0 (xadd : X -> X -> X) bs sb mul mul' (r0 : R) radd ip n s, 1 <= W -> monoid x0 xadd -> monoid r0 radd ->
  (forall x y, ip (xadd x y) = radd (ip x) (ip y)) -> ip x0 = r0 ->
  steps _ _ (mul_prog X W T bs sb mul x0) (S W) n (start (mul_init X W T)) s -> final _ _ (mul_prog X W T bs sb mul x0) (S W) s ->
  completes (sprog X R r0 radd W) (S W) (static_init X r0 W xadd mul' x0 ip (loc s)) (10 * W)
    (fun l => exists xs, let total := over_tasks x0 xadd T (fun t => mul' (bs t) (sb t)) in
       l 0 = SDone xs (ip total) /\ msum x0 xadd xs = total /\ forall w, 1 <= w <= W -> l w = SOut []).
Proof.
  intros X R W T x0 xadd bs sb mul mul' r0 radd ip n s HW HM HR H1 H2 HS HF. destruct (C35_dynamic X W T x0 bs sb mul HW n s HS) as [_ [_ Q]]. destruct (Q HF) as [rs [_ [_ HT]]].
  exact (static_completes_x X W T x0 HW bs sb mul' xadd HM R r0 radd ip (loc s) HR H1 H2 HT).
Qed.
Print Assumptions C35_static.
(** Growing the block operators: every operator arrives once, at its own place. *)
Theorem C35_grow : forall X W T x0 bs sb mul op n s, 1 <= W ->
  steps _ _ (mul_prog X W T bs sb mul x0) (S W) n (start (mul_init X W T)) s -> final _ _ (mul_prog X W T bs sb mul x0) (S W) s ->
  completes (kprog X T) (S W) (grow_init X T op x0 (loc s)) ((2 * T + 2) * (2 * T) + W * (2 * T))
    (fun l => exists rs, l 0 = KDone rs /\ once T (fun t => op (bs t) (sb t)) rs /\ forall w, 1 <= w <= W -> l w = KOut []).
Proof.
  intros X W T x0 bs sb mul op n s HW HS HF. destruct (C35_dynamic X W T x0 bs sb mul HW n s HS) as [_ [_ Q]]. destruct (Q HF) as [rs [_ [_ HT]]].
  exact (grow_completes_x X W T x0 HW bs sb op (loc s) HT).
Qed.
Print Assumptions C35_grow.
(** The right block operators at the start *)
Theorem C35_init_many : forall X W T x0 sb f, 1 <= W -> W < T ->
  completes (many_prog X W T sb f x0) (S W) (many_init X W T) (3 * init_size X W T sb + W)
    (fun l => exists rs, l 0 = DDone rs /\ once T (fun t => f (sb t)) rs /\ forall w, 1 <= w <= W -> exists hist, l w = EDone hist).
Proof. intros X W T x0 sb f HW HT. exact (many_completes X W T x0 HW sb f HT). Qed.
Print Assumptions C35_init_many.
Theorem C35_init_few : forall X W T x0 sb f, T <= W ->
  completes (few_prog X T sb f x0) (S W) (few_init X T sb) (3 * remi X T (fun t => Farm2Facts.gvals X (sb t)) 0 + W)
    (fun l => l 0 = IDone (map (fun t => (t, f (sb t))) (seq 0 T)) /\ forall w, 1 <= w <= W -> l w = JDone).
Proof. intros X W T x0 sb f HT. exact (few_completes_x X W T x0 sb f HT). Qed.
Print Assumptions C35_init_few.

(** two workers, three tasks with groups of different sizes, one of them empty: a dynamic multiplication ends, a static one behind it gives the sum *)
Definition ex_bs (t : nat) : list (Z * Z) := match t with 0 => [(1, 2)%Z] | 1 => [] | _ => [(3, 4); (5, 6)]%Z end.
Definition ex_sb (t : nat) : list (Z * Z) := match t with 0 => [(7, 1)%Z; (2, 2)%Z] | 1 => [(1, 1)%Z] | _ => [(2, 5)%Z] end.
Definition ex_sum (g : list (Z * Z)) : Z := fold_right (fun p a => fst p * snd p + a)%Z 0%Z g.
Definition ex_mul (k : Z) (b s : list (Z * Z)) : Z := (k * (10 * ex_sum b + ex_sum s))%Z.
Lemma Zmon : monoid 0%Z Z.add.
Proof. constructor; intros; lia. Qed.
Example C35_instance : exists n s m s' xs, steps _ _ (mul_prog Z 2 3 ex_bs ex_sb (ex_mul 1) 0%Z) 3 n (start (mul_init Z 2 3)) s /\
  final _ _ (mul_prog Z 2 3 ex_bs ex_sb (ex_mul 1) 0%Z) 3 s /\
  steps _ _ (sprog Z Z 0%Z Z.add 2) 3 m (start (static_init Z 0%Z 2 Z.add (ex_mul 2) 0%Z (fun x => 3 * x)%Z (loc s))) s' /\
  loc s' 0 = SDone xs 2772%Z /\ msum 0%Z Z.add xs = 924%Z.
Proof.
  pose proof (C35_dynamic Z 2 3 0%Z ex_bs ex_sb (ex_mul 1) ltac:(lia)) as H1. destruct (reaches _ _ _ _ _ _ _ _ _ H1 (Stop _ _ _ _ _)) as [n [s [S1 [F1 _]]]].
  pose proof (C35_static Z Z 2 3 0%Z Z.add ex_bs ex_sb (ex_mul 1) (ex_mul 2) 0%Z Z.add (fun x => 3 * x)%Z n s ltac:(lia) Zmon Zmon (Z.mul_add_distr_l 3) eq_refl S1 F1) as H2.
  destruct (reaches _ _ _ _ _ _ _ _ _ H2 (Stop _ _ _ _ _)) as [m [s' [S2 [F2 [xs [E1 [E2 _]]]]]]]. exists n, s, m, s', xs. split; [exact S1|]. split; [exact F1|]. split; [exact S2|]. split; [exact E1|exact E2].
Qed.
