(** Specification of the model terms: matrix elements of the physical operators. *)
From Coq Require Import List Arith Bool.
From Verif Require Import MpoGen MpoSpec FermionSpec.
Import ListNotations.

Section Spec.
Variables (R : Type) (r0 r1 : R) (radd rmul : R -> R -> R) (ropp : R -> R).
(** <s'| c^dag_{i,sp} c_{j,sp} |s> on N sites; [up], [dn]: occupation of the basis states *)
Definition hop_elem (up dn : nat -> bool) (N : nat) (s s' : nat -> nat) (sp : bool) (i j : nat) : R :=
  mel R r0 r1 ropp N (modes up dn s') (smul (cre (mode sp i)) (ann (mode sp j)) (modes up dn s)).
(** <s'| - t sum_sp c^dag_i c_j - t' sum_sp c^dag_j c_i |s> *)
Definition hopping_elem (up dn : nat -> bool) (N : nat) (s s' : nat -> nat) (t t' : R) (i j : nat) : R :=
  radd (rmul (ropp t) (radd (hop_elem up dn N s s' false i j) (hop_elem up dn N s s' true i j)))
       (rmul (ropp t') (radd (hop_elem up dn N s s' false j i) (hop_elem up dn N s s' true j i))).
(** <s'| A_i B_j |s> for local operators A, B on two different sites *)
Definition pair_elem (N : nat) (s s' : nat -> nat) (A B : lop R) (i j : nat) : R :=
  if forallb (fun k => (k =? i) || (k =? j) || (s k =? s' k)) (seq 0 N) then rmul (elem r0 A (s i) (s' i)) (elem r0 B (s j) (s' j)) else r0.
(** product of local operators: <r|A B|c> = sum_k <r|A|k><k|B|c> *)
Definition lsum (d : nat) (f : nat -> R) : R := fold_right (fun k a => radd (f k) a) r0 (seq 0 d).
Definition lmul (d : nat) (A B : lop R) (c r : nat) : R := lsum d (fun k => rmul (elem r0 A k r) (elem r0 B c k)).
(** the fermion operators of one site *)
Definition local_elem (up dn : nat -> bool) (O : sop) (c r : nat) : R := mel R r0 r1 ropp 1 (modes up dn (fun _ => r)) (O (modes up dn (fun _ => c))).
End Spec.
(** C46: a basis state has an up electron, a down electron *)
Definition one_of (a b x : nat) : bool := (x =? a) || (x =? b).
Section Sums.
Variables (R : Type) (r0 r1 half : R) (radd rmul : R -> R -> R) (ropp : R -> R) (reqb : R -> R -> bool) (small : R -> bool).
(** a list of (amplitude, i, j) with two different sites each *)
Definition bonds_ok (N : nat) (l : list (R * nat * nat)) : Prop := Forall (fun x : R * nat * nat => let '(_, i, j) := x in i <> j /\ i < N /\ j < N) l.
(** the generator ignores coefficients that are zero or too small *)
Definition kept (c : R) : bool := negb (reqb c r0) && negb (small c).
(** C46, C47: <s'| sum over bonds of - t sum_sp c^dag_i c_j - conj t sum_sp c^dag_j c_i |s> *)
Fixpoint hoppings (conj : R -> R) (N : nat) (up dn : nat -> bool) (s s' : nat -> nat) (l : list (R * nat * nat)) : R :=
  match l with [] => r0 | (t, i, j) :: l' => radd (if kept t then hopping_elem R r0 r1 radd rmul ropp up dn N s s' t (conj t) i j else r0) (hoppings conj N up dn s s' l') end.
(** C49: <s'| sum over bonds of J (Sx Sx + Sy Sy + Sz Sz) |s> *)
Definition coupling (N : nat) (sx sy sz : lop R) (s s' : nat -> nat) (J : R) (i j : nat) : R :=
  radd (if kept J then rmul J (pair_elem R r0 rmul N s s' sz sz i j) else r0)
       (if kept (rmul J half) then rmul J (radd (pair_elem R r0 rmul N s s' sx sx i j) (pair_elem R r0 rmul N s s' sy sy i j)) else r0).
Fixpoint couplings (N : nat) (sx sy sz : lop R) (s s' : nat -> nat) (l : list (R * nat * nat)) : R :=
  match l with [] => r0 | (J, i, j) :: l' => radd (coupling N sx sy sz s s' J i j) (couplings N sx sy sz s s' l') end.
End Sums.
Section Tables.
Variables (R : Type) (r0 r1 half im : R) (radd rmul : R -> R -> R) (ropp : R -> R).
Notation elem := (elem r0). Notation lmul := (lmul R r0 radd rmul).
(** C48: the tensor C is A B, A + B, A - B, c A, or an operator of the fermions of one site, in all its elements *)
Definition is_product (d : nat) (A B C : lop R) : Prop := forall c r, c < d -> r < d -> elem C c r = lmul d A B c r.
Definition is_sum (d : nat) (A B C : lop R) : Prop := forall c r, c < d -> r < d -> elem C c r = radd (elem A c r) (elem B c r).
Definition is_difference (d : nat) (k : R) (A B C : lop R) : Prop := forall c r, c < d -> r < d -> elem C c r = rmul k (radd (elem A c r) (ropp (elem B c r))).
Definition is_multiple_sum (d : nat) (k : R) (A B C : lop R) : Prop := forall c r, c < d -> r < d -> elem C c r = rmul k (radd (elem A c r) (elem B c r)).
Definition is_fermion (d : nat) (up dn : nat -> bool) (O : sop) (C : nat -> nat -> R) : Prop := forall c r, c < d -> r < d -> C c r = local_elem R r0 r1 ropp up dn O c r.
(** A B - B A = k C *)
Definition commutator (d : nat) (A B : lop R) (k : R) (C : lop R) : Prop :=
  forall c r, c < d -> r < d -> radd (lmul d A B c r) (ropp (lmul d B A c r)) = rmul k (elem C c r).
(** the spin algebra *)
Definition spin_algebra (d : nat) (sz sp sm : lop R) : Prop :=
  commutator d sz sp r1 sp /\ commutator d sz sm (ropp r1) sm /\ commutator d sp sm (radd r1 r1) sz.
Definition spin_xyz (d : nat) (sx sy sz : lop R) : Prop := commutator d sx sy im sz /\ commutator d sy sz im sx /\ commutator d sz sx im sy.
End Tables.
(** the x and y components on t-J sites, which the code does not tabulate *)
Definition tj_sx (R : Type) (r0 half : R) : lop R := mkLop 0 [[r0; half; r0]; [half; r0; r0]; [r0; r0; r0]].
Definition tj_sy (R : Type) (r0 half im : R) (rmul : R -> R -> R) (ropp : R -> R) : lop R :=
  mkLop 0 [[r0; rmul im half; r0]; [ropp (rmul im half); r0; r0]; [r0; r0; r0]].
