(** Block operators and the effective Hamiltonian of DMRG, element by element.

    dmrg_init.h 133-161 (UpdateRightBlockOps), 178-205 (UpdateLeftBlockOps), dmrg_impl.h 320-341 (SetEffectiveHamiltonianTerms_),
    lanczos_dmrg_solver_impl.h 200-283 (multiplication term by term) and 293-377 (combined operators).
    Tensors are arrays over a commutative ring with conjugation; quantum numbers are not modelled.  Elements of an operator: first
    index is the incoming (ket) leg.  A default constructed tensor is [None]: contracting it, or adding to it, is undefined here. *)
From Coq Require Import List Arith Bool.
From Verif Require Import Base FiniteMps FmpsSpec.
Import ListNotations.

Section EffHam.
Variables (R : Type) (r0 r1 : R) (radd rmul : R -> R -> R) (conj : R -> R).
Notation ten := (ten R).
Infix "+r" := radd (at level 50, left associativity).
Infix "*r" := rmul (at level 40, left associativity).
Notation sumn := (sumn R r0 radd).
Definition op2 : Type := nat -> nat -> R.
Definition t4 : Type := nat -> nat -> nat -> nat -> R.
(** matrix of operators of one site; [None]: IsNull *)
Record mposite : Type := mkMpo { mrows : nat; mcols : nat; ent : nat -> nat -> option op2 }.

Definition add4 (x y : t4) : t4 := fun a b c d => x a b c d +r y a b c d.
(** the accumulation loops: the first term is assigned, the others are added *)
Definition accumulate (l : list t4) : option t4 :=
  fold_left (fun acc x => match acc with None => Some x | Some y => Some (add4 y x) end) l None.
Definition usable {A} (o : option A) : res A := match o with Some x => Ok x | None => Ub end.
Fixpoint mapM {A B} (f : A -> res B) (l : list A) : res (list B) :=
  match l with [] => Ok [] | x :: l => let! y := f x in let! ys := mapM f l in Ok (y :: ys) end.

(** outer product: indices of the first operator, then of the second *)
Definition outer (x y : op2) : t4 := fun a b c d => x a b *r y c d.
(** terms (group[i], matrix(i, j)), (matrix(j, k), group[k]) with an element that is not null.  The sizes are checked by the callers *)
Definition left_terms (g : list op2) (w : mposite) (j : nat) : list (op2 * op2) :=
  flat_map (fun i => match ent w i j, nth_error g i with Some o, Some l => [(l, o)] | _, _ => [] end) (seq 0 (mrows w)).
Definition right_terms (g : list op2) (w : mposite) (j : nat) : list (op2 * op2) :=
  flat_map (fun k => match ent w j k, nth_error g k with Some o, Some r => [(o, r)] | _, _ => [] end) (seq 0 (mcols w)).

(** UpdateLeftBlockOps: Contract {{0, 2}, {0, 1}} with the tensor, {{0, 1}, {0, 1}} with its dagger *)
Definition grow_left (g : list op2) (t : ten) (w : mposite) : res (list op2) :=
  if negb (length g =? mrows w) then Ub else
  mapM (fun col =>
    let! bs := usable (accumulate (map (fun p => outer (fst p) (snd p)) (left_terms g w col))) in
    let tmp := fun a' s' b => sumn (d0 t) (fun a => sumn (d1 t) (fun s => bs a a' s s' *r el t a s b)) in
    Ok (fun b b' => sumn (d0 t) (fun a' => sumn (d1 t) (fun s' => tmp a' s' b *r conj (el t a' s' b'))))) (seq 0 (mcols w)).
(** UpdateRightBlockOps: Contract {{1, 2}, {0, 2}}, {{1, 2}, {1, 2}} *)
Definition grow_right (g : list op2) (t : ten) (w : mposite) : res (list op2) :=
  if negb (length g =? mcols w) then Ub else
  mapM (fun row =>
    let! sb := usable (accumulate (map (fun p => outer (fst p) (snd p)) (right_terms g w row))) in
    let tmp := fun a s' b' => sumn (d1 t) (fun s => sumn (d2 t) (fun b => el t a s b *r sb s s' b b')) in
    Ok (fun a a' => sumn (d1 t) (fun s' => sumn (d2 t) (fun b' => tmp a s' b' *r conj (el t a' s' b'))))) (seq 0 (mrows w)).
(** the overloads that start from combined operators (dmrg_init.h 118-130, 164-175), used by the MPI version *)
Definition left_of_combined (t : ten) (bs : t4) : op2 := fun b b' =>
  sumn (d0 t) (fun a' => sumn (d1 t) (fun s' => sumn (d0 t) (fun a => sumn (d1 t) (fun s => bs a' s' a s *r el t a s b)) *r conj (el t a' s' b'))).
Definition right_of_combined (t : ten) (sb : t4) : op2 := fun a a' =>
  sumn (d1 t) (fun s' => sumn (d2 t) (fun b' => sumn (d1 t) (fun s => sumn (d2 t) (fun b => el t a s b *r sb s b s' b')) *r conj (el t a' s' b'))).
Definition triv_group : list op2 := [fun _ _ => r1].
Fixpoint left_ops (g : list op2) (ts : list ten) (ws : list mposite) : res (list op2) :=
  match ts, ws with
  | [], [] => Ok g
  | t :: ts, w :: ws => let! g := grow_left g t w in left_ops g ts ws
  | _, _ => Ub
  end.
Fixpoint right_ops (ts : list ten) (ws : list mposite) : res (list op2) :=
  match ts, ws with
  | [], [] => Ok triv_group
  | t :: ts, w :: ws => let! g := right_ops ts ws in grow_right g t w
  | _, _ => Ub
  end.

(** contraction of leg 0 with leg 0 of an operator; the remaining legs keep their cyclic order, the new leg comes last *)
Definition rot (n : nat) (x : t4) (m : op2) : t4 := fun a b c d => sumn n (fun k => x k a b c *r m k d).
(** BlockSiteTermsMulTwoSiteState, SiteBlockTermsMulTwoSiteState *)
Definition mul_terms (n1 n2 : nat) (terms : list (op2 * op2)) (x : t4) : option t4 :=
  accumulate (map (fun p => rot n2 (rot n1 x (fst p)) (snd p)) terms).
(** SetEffectiveHamiltonianTerms_, super_block_hamiltonian_mul_two_site_state; dimensions of the four legs of the state *)
Definition eff_mul (gl gr : list op2) (wl wr : mposite) (D0 p1 p2 D3 : nat) (x : t4) : res t4 :=
  if negb ((length gl =? mrows wl) && (length gr =? mcols wr) && (mcols wl =? mrows wr)) then Ub else
  let! parts := mapM (fun j =>
    let! y := usable (mul_terms D0 p1 (left_terms gl wl j) x) in
    usable (mul_terms p2 D3 (right_terms gr wr j) y)) (seq 0 (mcols wl)) in
  usable (accumulate parts).
(** combine_operators_in_super_blk_hamiltonian and the overload that uses its result (the workers of the MPI version do the same) *)
Definition comb_mul (gl gr : list op2) (wl wr : mposite) (D0 p1 p2 D3 : nat) (x : t4) : res t4 :=
  if negb ((length gl =? mrows wl) && (length gr =? mcols wr) && (mcols wl =? mrows wr)) then Ub else
  let! parts := mapM (fun j =>
    let! bs := usable (accumulate (map (fun p => outer (fst p) (snd p)) (left_terms gl wl j))) in
    let bs := fun a' s' a s => bs a a' s s' in                                                       (* Transpose {1, 3, 0, 2} *)
    let! sb := usable (accumulate (map (fun p => outer (fst p) (snd p)) (right_terms gr wr j))) in
    let sb := fun s b s' b' => sb s s' b b' in                                                       (* Transpose {0, 2, 1, 3} *)
    let t1 := fun a' s1' s2 b => sumn D0 (fun a => sumn p1 (fun s1 => bs a' s1' a s1 *r x a s1 s2 b)) in
    Ok (fun a' s1' s2' b' => sumn p2 (fun s2 => sumn D3 (fun b => t1 a' s1' s2 b *r sb s2 b s2' b')))) (seq 0 (mcols wl)) in
  usable (accumulate parts).
End EffHam.
Arguments mrows {R} _. Arguments mcols {R} _. Arguments ent {R} _ _ _.
