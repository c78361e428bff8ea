(** Property C31: block operators and the effective Hamiltonian. *)
From Coq Require Import List Arith Lia Bool ZArith Ring.
From Verif Require Import Base FiniteMps FmpsSpec FmpsFacts FmpsInst EffHam EffHamSpec EffHamFacts EffHamInst.
Import ListNotations.
Local Open Scope nat_scope.

Section EffectiveHamiltonian.
Variables (R : Type) (r0 r1 : R) (radd rmul rsub : R -> R -> R) (ropp conj : R -> R).
Hypothesis Rth : ring_theory r0 r1 radd rmul rsub ropp (@eq R).
Hypothesis conj0 : conj r0 = r0.
Hypothesis conj1 : conj r1 = r1.
Hypothesis conj_add : forall x y, conj (radd x y) = radd (conj x) (conj y).
Hypothesis conj_mul : forall x y, conj (rmul x y) = rmul (conj x) (conj y).
Notation left_ops := (left_ops R r0 radd rmul conj (triv_group R r1)).
Notation right_ops := (right_ops R r0 r1 radd rmul conj).
Notation eff_mul := (eff_mul R r0 radd rmul). Notation comb_mul := (comb_mul R r0 radd rmul).
Notation projected := (projected R r0 r1 radd rmul conj). Notation energy := (energy R r0 r1 radd rmul conj).
Notation two_site := (two_site R r0 radd rmul). Notation dot4 := (dot4 R r0 radd rmul conj). Notation mps_mat := (mps_mat R r0 r1 radd rmul).

(** every cut, every two-site tensor x: the block operators exist and both ways of multiplying give H x, where H is the operator of the
    whole chain, in the basis of the two outer bonds *)
Theorem C31_effective_hamiltonian : forall tl tr wl w1 w2 wr D0 D3, cut R tl tr wl w1 w2 wr D0 D3 ->
  exists gl gr, left_ops tl wl = Ok gl /\ right_ops tr wr = Ok gr /\
  forall p1 p2 x, exists y z, eff_mul gl gr w1 w2 D0 p1 p2 D3 x = Ok y /\ comb_mul gl gr w1 w2 D0 p1 p2 D3 x = Ok z /\
  forall a' s1' s2' b', a' < D0 -> b' < D3 ->
    y a' s1' s2' b' = projected tl tr wl w1 w2 wr D0 p1 p2 D3 x a' s1' s2' b' /\ z a' s1' s2' b' = y a' s1' s2' b'.
Proof. exact (eff_ham_ok R r0 r1 radd rmul rsub ropp Rth conj conj0 conj1 conj_add conj_mul). Qed.
(** the expectation value computed at any cut is the one of the whole chain; so it is the same for all cuts *)
Theorem C31_energy_every_cut : forall tl t1 t2 tr wl w1 w2 wr, cut R tl tr wl w1 w2 wr (d0 t1) (d2 t2) -> d2 t1 = d0 t2 ->
  exists gl gr y, left_ops tl wl = Ok gl /\ right_ops tr wr = Ok gr /\
    eff_mul gl gr w1 w2 (d0 t1) (d1 t1) (d1 t2) (d2 t2) (two_site t1 t2) = Ok y /\
    dot4 (d0 t1) (d1 t1) (d1 t2) (d2 t2) (two_site t1 t2) y = energy (tl ++ [t1; t2] ++ tr) (wl ++ [w1; w2] ++ wr).
Proof. exact (energy_by_ops R r0 r1 radd rmul rsub ropp Rth conj conj0 conj1 conj_add conj_mul). Qed.
(** the operators of a block depend on its amplitudes only, not on the gauge of the bonds inside *)
Theorem C31_gauge : forall ts ts' ws D M, fit R D ts 1 -> fit R D ts' 1 -> wfit R M ws 1 -> length ws = length ts -> Forall (rows_used R) ws -> map (@d1 R) ts' = map (@d1 R) ts ->
  (forall c a, In c (configs (map (@d1 R) ts)) -> a < D -> mps_mat ts' c a 0 = mps_mat ts c a 0) ->
  exists g g', right_ops ts ws = Ok g /\ right_ops ts' ws = Ok g' /\ length g' = length g /\
  forall i o o', nth_error g i = Some o -> nth_error g' i = Some o' -> forall a a', a < D -> a' < D -> o' a a' = o a a'.
Proof. exact (right_gauge R r0 r1 radd rmul rsub ropp Rth conj conj0 conj1 conj_add conj_mul). Qed.
Theorem C31_gauge_left : forall ts ts' ws D M, fit R 1 ts D -> fit R 1 ts' D -> wfit R 1 ws M -> length ws = length ts -> Forall (cols_used R) ws -> map (@d1 R) ts' = map (@d1 R) ts ->
  (forall c a, In c (configs (map (@d1 R) ts)) -> a < D -> mps_mat ts' c 0 a = mps_mat ts c 0 a) ->
  exists g g', left_ops ts ws = Ok g /\ left_ops ts' ws = Ok g' /\ length g' = length g /\
  forall i o o', nth_error g i = Some o -> nth_error g' i = Some o' -> forall a a', a < D -> a' < D -> o' a a' = o a a'.
Proof. exact (left_gauge R r0 r1 radd rmul rsub ropp Rth conj conj0 conj1 conj_add conj_mul). Qed.
End EffectiveHamiltonian.
(** finding: an MPO matrix with an empty column (row) makes block growing contract a default constructed tensor *)
Theorem C31_empty_column_refuted : exists t w, mrows w = 1 /\ d0 t = 1 /\ ent w 0 0 <> None /\ grow_left Z 0%Z Z.add Z.mul zconj (triv_group Z 1%Z) t w = Ub.
Proof. exists (zt 1 2 2 1), eWbad. repeat split. discriminate. Qed.

(** a chain of four sites meets the hypotheses at every cut; the energies agree and are not zero *)
Example C31_example : cut Z (firstn 1 e_ts) (skipn 3 e_ts) (firstn 1 e_ws) eW eW (skipn 3 e_ws) 2 2 /\ cut Z [] (skipn 2 e_ts) [] eW0 eW (skipn 2 e_ws) 1 3 /\
  exists v, (0 < Z.abs v)%Z /\ map e_val [0; 1; 2] = [Ok v; Ok v; Ok v] /\ energy Z 0%Z 1%Z Z.add Z.mul zconj e_ts e_ws = v.
Proof. exact (conj e_cut (conj e_cut0 e_all_cuts)). Qed.
Example C31_gauge_example : let ts := skipn 2 e_ts in fit Z 3 ts 1 /\ fit Z 3 e_swap 1 /\ wfit Z 3 (skipn 2 e_ws) 1 /\ Forall (rows_used Z) (skipn 2 e_ws) /\ map (@d1 Z) e_swap = map (@d1 Z) ts /\
  (forall c a, In c (configs (map (@d1 Z) ts)) -> a < 3 -> mps_mat Z 0%Z 1%Z Z.add Z.mul e_swap c a 0 = mps_mat Z 0%Z 1%Z Z.add Z.mul ts c a 0) /\
  el (nth 0 e_swap (zt 0 0 0 0)) 0 0 0 <> el (nth 0 ts (zt 0 0 0 0)) 0 0 0.
Proof. exact e_gauge. Qed.
Print Assumptions C31_effective_hamiltonian.
Print Assumptions C31_energy_every_cut.
Print Assumptions C31_gauge.
Print Assumptions C31_gauge_left.
Print Assumptions C31_empty_column_refuted.
