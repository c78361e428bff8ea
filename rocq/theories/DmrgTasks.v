(** The tensors of the distributed DMRG: what the workers contract and how the master puts the answers together.

    The exchanges themselves are in [DmrgFarm]; here the values get their meaning.  worker: dmrg_mpi_impl_slave.h 128-204, 254-509;
    master: dmrg_mpi_impl_master.h 278-303, 476-548, 641-668, lanczos_dmrg_solver_mpi_master.h 180-285.  Quantum numbers are not
    modelled; a tensor of another rank than the contraction needs, and a default constructed one, is outside what is defined. *)
From Coq Require Import List Arith Bool.
From Verif Require Import Base FiniteMps FmpsSpec EffHam EffHamSpec.
Import ListNotations.

Section DmrgTasks.
Variables (R : Type) (r0 : R) (radd rmul : R -> R -> R) (conj re : R -> R).
Notation ten := (ten R).
Infix "+r" := radd (at level 50, left associativity).
Infix "*r" := rmul (at level 40, left associativity).
Notation sumn := (sumn R r0 radd).
Notation op2 := (op2 R). Notation t4 := (t4 R). Notation mposite := (mposite R).
Inductive tens : Type := NoT | Op (o : op2) | T4 (x : t4).

(** the two groups of task j: dmrg_mpi_impl_master.h 284-301 (SetEffectiveHamiltonianTerms_), 483-490 and 516-523 (at the start) *)
Definition group_of (l : list (op2 * op2)) : list (tens * tens) := map (fun p => (Op (fst p), Op (snd p))) l.
Definition bs_group (gl : list op2) (w : mposite) (j : nat) : list (tens * tens) := group_of (left_terms R gl w j).
Definition sb_group (gr : list op2) (w : mposite) (j : nat) : list (tens * tens) := group_of (right_terms R gr w j).

(** dmrg_mpi_impl_slave.h 285-301, 321-343: Contract {{}, {}} of every term, LinearCombine *)
Fixpoint outers (g : list (tens * tens)) : option (list t4) :=
  match g with
  | [] => Some []
  | (Op a, Op b) :: g => match outers g with Some l => Some (outer R rmul a b :: l) | None => None end
  | _ => None
  end.
Definition combined (g : list (tens * tens)) : option t4 := match outers g with Some l => accumulate R radd l | None => None end.
(** 310: Transpose {1, 3, 0, 2}; 350: Transpose {0, 2, 1, 3} *)
Definition block_site (g : list (tens * tens)) : option t4 := match combined g with Some y => Some (fun a' s' a s => y a a' s s') | None => None end.
Definition site_block (g : list (tens * tens)) : option t4 := match combined g with Some y => Some (fun s b s' b' => y s s' b b') | None => None end.
(** 361-362, 440-441: Contract {{2, 3}, {0, 1}} with the state, then {{2, 3}, {0, 1}} *)
Definition w_mul (D0 p1 p2 D3 : nat) (x : t4) (b s : list (tens * tens)) : tens :=
  match block_site b, site_block s with
  | Some bs, Some sb =>
      let temp1 := fun a' s1' s2 b => sumn D0 (fun a => sumn p1 (fun s1 => bs a' s1' a s1 *r x a s1 s2 b)) in
      T4 (fun a' s1' s2' b' => sumn p2 (fun s2 => sumn D3 (fun b => temp1 a' s1' s2 b *r sb s2 b s2' b')))
  | _, _ => NoT
  end.
(** 480-493: growing a left operator; 495-508 and 156-161, 190-192: a right operator *)
Definition w_left (t : ten) (b s : list (tens * tens)) : tens := match block_site b with Some y => Op (left_of_combined R r0 radd rmul conj t y) | None => NoT end.
Definition w_right (t : ten) (s : list (tens * tens)) : tens := match site_block s with Some y => Op (right_of_combined R r0 radd rmul conj t y) | None => NoT end.
(** 442-446: sub_sum += multi_res; 452: the zero tensor of a worker without operators; 459-474: the overlap *)
Definition tadd (x y : tens) : tens := match x, y with T4 x, T4 y => T4 (add4 R radd x y) | _, _ => NoT end.
Definition tzero : tens := T4 (fun _ _ _ _ => r0).
Definition overlap (D0 p1 p2 D3 : nat) (x : t4) (v : tens) : R := match v with T4 y => re (dot4 R r0 radd rmul conj D0 p1 p2 D3 x y) | _ => r0 end.

(** the vectors of the master, initially default constructed, filled by number *)
Definition place (n : nat) (rs : list (nat * tens)) : res (list tens) := for_each rs (fun r sl => vset sl (fst r) (snd r)) (repeat NoT n).
Definition as4 (v : tens) : res t4 := match v with T4 x => Ok x | _ => Ub end.
Definition as_op (v : tens) : res op2 := match v with Op o => Ok o | _ => Ub end.
(** LinearCombine with coefficients 1 *)
Definition lin_comb (l : list tens) : res t4 := let! ys := mapM as4 l in usable (accumulate R radd ys).
(** DynamicHamiltonianMultiplyState_, StaticHamiltonianMultiplyState_, GrowLeft/RightBlockOps_ and InitUpdateRightBlockOps_ behind the exchange *)
Definition dyn_result (n : nat) (rs : list (nat * tens)) : res t4 := let! l := place n rs in lin_comb l.
Definition static_result (xs : list tens) : res t4 := lin_comb xs.
Definition group_result (n : nat) (rs : list (nat * tens)) : res (list op2) := let! l := place n rs in mapM as_op l.
End DmrgTasks.
Arguments NoT {R}. Arguments Op {R} _. Arguments T4 {R} _.
