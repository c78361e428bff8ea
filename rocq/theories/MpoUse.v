(** The MPO of the generator as the algorithms read it.

    Gen returns tensors with the legs (left bond, in, out, right bond), mpogen_impl.h 452, 473, 493; GenMatReprMPO returns a sparse matrix of
    operators with the legs (in, out) for every site, mpogen_impl.h 347-358.
    Simplification: quantum numbers of the legs are forgotten, a tensor is the function of its elements. *)
From Coq Require Import List Arith Bool.
From Verif Require Import Base MpoGen MpoSpec MpoTen MpoTenSpec Legs EffHam.
Import ListNotations.

Section Use.
Variables (R : Type) (r0 : R) (reqb : R -> R -> bool) (Q : Type) (pd : nat -> nat).   (* pd: dimension of a physical index *)
(** an MPO tensor: AddOpToHeadMpoTen, AddOpToTailMpoTen, AddOpToCentMpoTen, mpogen_impl.h 508-543 *)
Definition ten_g (ix : nat) (t : mten R Q) : gten R :=
  mkG R [bdim Q (mt_l t); pd ix; pd ix; bdim Q (mt_r t)] (fun k => match k with [x; a; b; y] => ten_elem R r0 reqb (mt_w t) x a b y | _ => r0 end).
(** the tensor of site i; there is none past the end *)
Definition mpo_g (phys : list nat) (ts : list (mten R Q)) (i : nat) : gten R :=
  match nth_error phys i, nth_error ts i with Some ix, Some t => ten_g ix t | _, _ => mkG R [] (fun _ => r0) end.
(** a matrix of operators: the element that has been set, mpogen_impl.h 352-357; DMRG reads it with IsNull and operator() *)
Definition mat_ent (w : list (nat * nat * lop R)) (x y : nat) : option (op2 R) :=
  option_map (fun e => elem r0 (snd e)) (find (fun e => (fst (fst e) =? x) && (snd (fst e) =? y)) w).
Definition mat_w (t : nat * nat * list (nat * nat * lop R)) : mposite R := mkMpo R (fst (fst t)) (snd (fst t)) (mat_ent (snd t)).
Definition mat_g (ws : list (nat * nat * list (nat * nat * lop R))) (i : nat) : mposite R :=
  match nth_error ws i with Some t => mat_w t | None => mkMpo R 1 1 (fun _ _ => Some (fun _ _ => r0)) end.
End Use.
