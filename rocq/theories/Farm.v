(** The task farms of the distributed VMPS: growing environments, expanding the two-site tensor, multiplying with the effective Hamiltonian.

    master: env_ten_update_master.h 36-108 (left), 113-183 (right); two_site_update_noised_finite_vmps_mpi_impl.h 516-560 (right moving),
      752-793 (left moving); vmps/lanczos_solver_mpi_master.h 254-351.
    worker: env_ten_update_slave.h 31-113, 118-197; two_site_update_noised_finite_vmps_mpi_impl.h 597-700, 825-930;
      vmps/lanczos_solver_mpi_slave.h 71-190.
    All of them start behind the broadcast of the state.  They differ in the replies of the master, and in the collection of the
    overlaps behind the loop ([post], Lanczos only).  The contractions of one task are one function of the task, [f]; the
    contribution of a task to the overlap is [ov]. *)
From Coq Require Import List Arith Bool.
From Verif Require Import Mpi.
Import ListNotations.

(** mps_algo_order.h FinalSignal: 10086 *)
Definition final_signal (t : nat) : nat := t + (100 * 100 + 86).

Section Farm.
Variables X R : Type.                                    (* tensors, overlaps *)
Variables (r0 : R) (radd : R -> R -> R).
Variables (f : nat -> X) (ov : nat -> R).
Variables (W T : nat) (reply : nat -> nat) (post : bool).
Inductive fval : Type := VTen (x : X) | VNat (n : nat) | VNum (r : R).
(** program points *)
Inductive floc : Type :=
  | MRecv (i : nat) (rs : list (nat * X))                 (* MPI_Recv(MPI_ANY_SOURCE, MPI_ANY_TAG) number i *)
  | MSend (i : nat) (rs : list (nat * X)) (w : nat)       (* reply to the source *)
  | MFin (i : nat) (rs : list (nat * X)) (acc : R)        (* lanczos_solver_mpi_master.h 331-337 *)
  | MOvl (i : nat) (rs : list (nat * X)) (acc : R)
  | MDone (rs : list (nat * X)) (acc : R)
  | WSend (t : nat) (acc : R)                             (* the result of the task is ready; tag = task *)
  | WRecv (acc : R)
  | WFin (acc : R) | WOvl (acc : R)                       (* lanczos_solver_mpi_slave.h 186-189 *)
  | WDone
  | Bad.                                                  (* a message of the wrong type, a failed assertion *)
Definition fin (i : nat) rs acc : floc := if i <? min T W then MFin i rs acc else MDone rs acc.
Definition round (i : nat) rs : floc := if i <? T then MRecv i rs else if post then fin 0 rs r0 else MDone rs r0.
Definition mprog (l : floc) : act floc fval :=
  match l with
  | MRecv i rs => ARecv None None (fun s t v => match v with VTen x => MSend i (rs ++ [(t, x)]) s | _ => Bad end)
  | MSend i rs w => ASend w (2 * w) (VNat (reply i)) (round (i + 1) rs)
  | MFin i rs acc => ASend (i + 1) (3 * (i + 1) + T) (VNat (final_signal T)) (MOvl i rs acc)
  | MOvl i rs acc => ARecv (Some (i + 1)) (Some (4 * (i + 1) + T)) (fun _ _ v => match v with VNum x => fin (i + 1) rs (radd acc x) | _ => Bad end)
  | _ => AHalt
  end.
Definition wprog (p : nat) (l : floc) : act floc fval :=
  match l with
  | WSend t acc => ASend 0 t (VTen (f t)) (WRecv acc)
  | WRecv acc => ARecv (Some 0) (Some (2 * p)) (fun _ _ v => match v with VNat t => if t <? T then WSend t (radd acc (ov t)) else if post then WFin acc else WDone | _ => Bad end)
  | WFin acc => ARecv (Some 0) (Some (3 * p + T)) (fun _ _ v => match v with VNat n => if n =? final_signal T then WOvl acc else Bad | _ => Bad end)
  | WOvl acc => ASend 0 (4 * p + T) (VNum acc) WDone
  | _ => AHalt
  end.
Definition fprog (p : nat) (l : floc) : act floc fval := if p =? 0 then mprog l else wprog p l.
(** worker p > T has no task *)
Definition finit (p : nat) : floc := if p =? 0 then round 0 [] else if T <? p then WDone else WSend (p - 1) (ov (p - 1)).
End Farm.
Arguments VTen {X R} _. Arguments VNat {X R} _. Arguments VNum {X R} _.
Arguments MRecv {X R} _ _. Arguments MSend {X R} _ _ _. Arguments MFin {X R} _ _ _. Arguments MOvl {X R} _ _ _. Arguments MDone {X R} _ _.
Arguments WSend {X R} _ _. Arguments WRecv {X R} _. Arguments WFin {X R} _. Arguments WOvl {X R} _. Arguments WDone {X R}. Arguments Bad {X R}.

(** The replies.  [arr]: arraging_tasks behind std::sort (any permutation), [last]: the value sent at the end.
    Growing environments and expanding: tasks in the first loop, [last] in the second (2 * task_size or FinalSignal) *)
Definition env_reply (W T : nat) (arr : list nat) (last : nat) (i : nat) : nat := if i <? T - W then nth i arr 0 else last.
(** Lanczos: arraging_tasks has task_size elements slave_size, slave_size + 1, ...; only the first task_size - slave_size are sorted *)
Definition lanczos_reply (W T : nat) (sorted : list nat) (i : nat) : nat := if i <? T - W then nth i sorted 0 else W + i.
