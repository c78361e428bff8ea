(** The dynamic farms of the distributed DMRG: the first multiplication with the effective Hamiltonian, and the right block operators at
    the start when there are more operators than workers.

    master: dmrg/lanczos_dmrg_solver_mpi_master.h 180-248 (multiplication), dmrg_mpi_impl_master.h 510-547 (block operators, branch
      task_num > worker_num_), 552-580 (SendBlockSite.../SendSiteBlockHamiltonianTermGroup_).
    worker: dmrg_mpi_impl_slave.h 254-403 (multiplication), 173-203 (block operators), 206-238 (Recv...TermGroup_).
    All start behind broadcasts of the number of tasks and of the tensor.  [pre] = true: the tasks 0 .. W-1 are sent to the workers 1 .. W
    at the start (block operators); [pre] = false: every worker asks for the first task with a result that is not valid (multiplication).
    What the worker computes is a function [h] of the values it received with the task. *)
From Coq Require Import List Arith Bool.
From Verif Require Import Mpi Farm.
Import ListNotations.

Section Farm2.
Variable X : Type.                                        (* tensors *)
Inductive gval : Type := GNat (n : nat) | GTen (x : X).
(** one group of terms: the number with tag 2 * id, then the two tensors of term i with tag i * id (dmrg_mpi_impl_master.h 552-580) *)
Definition gmsgs (id : nat) (g : list (X * X)) : list (nat * gval) :=
  (2 * id, GNat (length g)) :: flat_map (fun it => [(fst it * id, GTen (fst (snd it))); (fst it * id, GTen (snd (snd it)))]) (combine (seq 0 (length g)) g).
(** the tag the worker waits for, when it has received [got] of [ng] groups; None: it has all (dmrg_mpi_impl_slave.h 206-238) *)
Fixpoint want (ng p : nat) (got : list gval) : option nat :=
  match ng with
  | 0 => None
  | S ng =>
    match got with
    | [] => Some (2 * p)
    | GNat n :: r => if length r <? 2 * n then Some (length r / 2 * p) else want ng p (skipn (2 * n) r)
    | GTen _ :: _ => Some (2 * p)
    end
  end.
Variables (W T ng : nat) (pre : bool).
Variable msgs : nat -> nat -> list (nat * gval).          (* msgs w t: what is sent to worker w behind task t *)
Variable h : list gval -> X.
Variable x0 : X.                                          (* the default tensor *)
Inductive loc2 : Type :=
  | DRecv (j : nat) (rs : list (nat * X))                 (* MPI_Recv(MPI_ANY_SOURCE, MPI_ANY_TAG) of round j *)
  | DTask (j : nat) (rs : list (nat * X)) (w : nat)       (* MPI_Send(task_id or FinalSignal, w, w) *)
  | DStr (j : nat) (rs : list (nat * X)) (w : nat) (ms : list (nat * gval))  (* sending the groups *)
  | DDone (rs : list (nat * X))
  | EInv                                                  (* multiplication_res.MPI_Send(master_rank_, total_num_terms + 10086) *)
  | ETask (hist : list (nat * list gval))                 (* MPI_Recv(task_id, master_rank_, rank_) *)
  | EGet (t : nat) (got : list gval) (hist : list (nat * list gval))
  | ERes (t : nat) (x : X) (hist : list (nat * list gval))
  | EDone (hist : list (nat * list gval))                 (* hist: ops_num_table_ with the operators received *)
  | Oops.
(** round j: task j, or, in the last W rounds, FinalSignal *)
Definition dround (j : nat) (rs : list (nat * X)) : loc2 :=
  if j <? T + W then (if pre && (j <? W) then DTask j rs (j + 1) else DRecv j rs) else DDone rs.
Definition dnext (j : nat) rs w ms : loc2 := match ms with [] => dround (j + 1) rs | _ => DStr j rs w ms end.
Definition dmaster (l : loc2) : act loc2 gval :=
  match l with
  | DRecv j rs => ARecv None None (fun s t v => match v with
      | GTen x => if t <? T then DTask j (rs ++ [(t, x)]) s else if pre then Oops else DTask j rs s     (* if (status.MPI_TAG < task_num) *)
      | GNat _ => Oops end)
  | DTask j rs w => if j <? T then ASend w w (GNat j) (dnext j rs w (msgs w j)) else ASend w w (GNat (final_signal T)) (dround (j + 1) rs)
  | DStr j rs w (m :: ms) => ASend w (fst m) (snd m) (dnext j rs w ms)
  | _ => AHalt
  end.
(** task_id > total_num_terms ends the multiplication, task_id >= task_num the block operators *)
Definition quit (t : nat) : bool := if pre then T <=? t else T <? t.
Definition dgot (p t : nat) got hist : loc2 := match want ng p got with Some _ => EGet t got hist | None => ERes t (h got) (hist ++ [(t, got)]) end.
Definition dworker (p : nat) (l : loc2) : act loc2 gval :=
  match l with
  | EInv => ASend 0 (final_signal T) (GTen x0) (ETask [])
  | ETask hist => ARecv (Some 0) (Some p) (fun _ _ v => match v with GNat t => if quit t then EDone hist else dgot p t [] hist | _ => Oops end)
  | EGet t got hist => match want ng p got with Some tag => ARecv (Some 0) (Some tag) (fun _ _ v => dgot p t (got ++ [v]) hist) | None => AHalt end
  | ERes t x hist => ASend 0 t (GTen x) (ETask hist)
  | _ => AHalt
  end.
Definition dprog (p : nat) (l : loc2) : act loc2 gval := if p =? 0 then dmaster l else dworker p l.
Definition dinit (p : nat) : loc2 := if p =? 0 then dround 0 [] else if pre then ETask [] else EInv.
End Farm2.
Arguments GNat {X} _. Arguments GTen {X} _.
Arguments DRecv {X} _ _. Arguments DTask {X} _ _ _. Arguments DStr {X} _ _ _ _. Arguments DDone {X} _.
Arguments EInv {X}. Arguments ETask {X} _. Arguments EGet {X} _ _ _. Arguments ERes {X} _ _ _. Arguments EDone {X} _. Arguments Oops {X}.
Arguments gmsgs {X} _ _. Arguments want {X} _ _ _.
