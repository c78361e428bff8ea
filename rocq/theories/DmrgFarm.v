(** The exchanges of the distributed DMRG put together: what the worker computes from the groups it received, and what it keeps for the
    static multiplications and for growing the block operators. *)
From Coq Require Import List Arith Bool.
From Verif Require Import Mpi Farm Farm2 Gather.
Import ListNotations.

Section DmrgFarm.
Variable X : Type.
(** dmrg_mpi_impl_slave.h 206-238: n terms of two tensors each; the rest is what follows *)
Fixpoint terms (n : nat) (vs : list (gval X)) : option (list (X * X) * list (gval X)) :=
  match n with
  | 0 => Some ([], vs)
  | S n => match vs with
      | GTen a :: GTen b :: vs => match terms n vs with Some (g, r) => Some ((a, b) :: g, r) | None => None end
      | _ => None end
  end.
Definition group (vs : list (gval X)) : option (list (X * X) * list (gval X)) := match vs with GNat n :: vs => terms n vs | _ => None end.
(** dmrg_mpi_impl_slave.h 254-403: the result of one task, from the block-site group and the site-block group;
    [mul] is 282-385 (contract and add both groups, apply both sums to the state) *)
Definition h_mul (mul : list (X * X) -> list (X * X) -> X) (x0 : X) (vs : list (gval X)) : X :=
  match group vs with Some (b, r) => match group r with Some (s, _) => mul b s | None => x0 end | None => x0 end.
(** dmrg_mpi_impl_slave.h 128-204: the result from one site-block group *)
Definition h_init (f : list (X * X) -> X) (x0 : X) (vs : list (gval X)) : X := match group vs with Some (s, _) => f s | None => x0 end.
(** what the master sends: lanczos_dmrg_solver_mpi_master.h 213-217, dmrg_mpi_impl_master.h 500-503, 518-521 *)
Definition msgs_mul (bs sb : nat -> list (X * X)) (w t : nat) : list (nat * gval X) := gmsgs w (bs t) ++ gmsgs w (sb t).
Definition msgs_init (sb : nat -> list (X * X)) (w t : nat) : list (nat * gval X) := gmsgs w (sb t).
(** ops_num_table_ of worker w *)
Definition table_of (l : nat -> loc2 X) (w : nat) : list nat := match l w with EDone hist => map fst hist | _ => [] end.
(** the groups kept for operator t by worker w: block_site_ops_ and site_block_ops_ are computed from them *)
Definition kept (l : nat -> loc2 X) (w t : nat) : option (list (X * X) * list (X * X)) :=
  match l w with
  | EDone hist => match find (fun e => fst e =? t) hist with
      | Some e => match group (snd e) with Some (b, r) => match group r with Some (s, _) => Some (b, s) | None => None end | None => None end
      | None => None end
  | _ => None
  end.
Definition kept_mul (mul : list (X * X) -> list (X * X) -> X) (x0 : X) (l : nat -> loc2 X) (w t : nat) : X :=
  match kept l w t with Some (b, s) => mul b s | None => x0 end.
(** the dynamic multiplication *)
Definition mul_prog W T bs sb mul x0 := dprog X W T 2 false (msgs_mul bs sb) (h_mul mul x0) x0.
Definition mul_init W T := dinit X W T false.
(** the right block operators at the start, more operators than workers *)
Definition many_prog W T sb f x0 := dprog X W T 1 true (msgs_init sb) (h_init f x0) x0.
Definition many_init W T := dinit X W T true.
(** not more *)
Definition few_prog T sb f x0 := iprog X T (msgs_init sb) (h_init f x0) 1.
Definition few_init T sb := iinit X T (msgs_init sb).
(** a static multiplication behind the dynamic one that ended in l; [ip] is the overlap with the state *)
Definition static_init {R : Type} (r0 : R) W xadd mul x0 (ip : X -> R) (l : nat -> loc2 X) :=
  sinit X R r0 W (fun w => sub_sum x0 xadd (kept_mul mul x0 l w) (table_of l w)) (fun w => ip (sub_sum x0 xadd (kept_mul mul x0 l w) (table_of l w))).
(** growing the block operators; worker w sends what it computes with [mul] (left: from the block-site group, right: from the site-block group) *)
Definition wstream mul x0 (l : nat -> loc2 X) (w : nat) : list (nat * gval X) :=
  flat_map (fun t => [(w, GNat t); (w, GTen (kept_mul mul x0 l w t))]) (table_of l w).
Definition grow_init M mul x0 (l : nat -> loc2 X) (p : nat) : lock X := if p =? 0 then kround X M 0 [] else KOut (wstream mul x0 l p).
End DmrgFarm.
