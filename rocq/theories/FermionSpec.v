(** Fermions in the occupation number representation, independent of the code.

    A configuration says which modes are occupied.  |n> stands for the product of the creation operators of the occupied modes
    in ascending order applied to the vacuum, so that creating or annihilating a mode gives the sign of the occupied modes before it. *)
From Coq Require Import List Arith Bool.
From Verif Require Import Disk.
Import ListNotations.

Definition cfg : Type := nat -> bool.
(** is the number of occupied modes below m odd? *)
Fixpoint par (n : cfg) (m : nat) : bool := match m with O => false | S m => xorb (par n m) (n m) end.
(** an operator that takes every configuration to plus or minus a configuration ([true]: minus) or to zero *)
Definition sop : Type := cfg -> option (bool * cfg).
Definition ann (m : nat) : sop := fun n => if n m then Some (par n m, fset n m false) else None.
Definition cre (m : nat) : sop := fun n => if n m then None else Some (par n m, fset n m true).
(** A B: first B, then A *)
Definition smul (A B : sop) : sop := fun n =>
  match B n with Some (s, n1) => match A n1 with Some (s', n2) => Some (xorb s s', n2) | None => None end | None => None end.
Definition same_res (a b : option (bool * cfg)) : Prop :=
  match a, b with Some (s, n), Some (s', n') => s = s' /\ forall m, n m = n' m | None, None => True | _, _ => False end.
Definition minus (a : option (bool * cfg)) : option (bool * cfg) := match a with Some (s, n) => Some (negb s, n) | None => None end.

(** modes of a chain with two spins per site: mode 2k is spin up on site k, mode 2k+1 is spin down *)
Definition mode (dn : bool) (k : nat) : nat := 2 * k + (if dn then 1 else 0).
Section Elem.
Variables (R : Type) (r0 r1 : R) (ropp : R -> R).
Definition sgn (b : bool) : R := if b then ropp r1 else r1.
(** <n'| what an operator gives >, on N sites *)
Definition mel (N : nat) (n' : cfg) (o : option (bool * cfg)) : R :=
  match o with Some (s, n) => if forallb (fun m => eqb (n m) (n' m)) (seq 0 (2 * N)) then sgn s else r0 | None => r0 end.
End Elem.
(** occupation of the modes in a chain whose sites have basis states 0, 1, ...: [up a], [dn a] *)
Definition modes (up dn : nat -> bool) (s : nat -> nat) : cfg := fun m => if Nat.odd m then dn (s (Nat.div2 m)) else up (s (Nat.div2 m)).
