(** algorithm/vmps/two_site_update_finite_vmps_impl.h as programs.  N >= 2; size_t underflow for N < 2 is not modelled. *)
From Coq Require Import List Arith Lia Bool.
From Verif Require Import Base Disk.
Import ListNotations.

(** InitEnvs, 147-190 *)
Definition init_envs (N usn : nat) : list instr :=
  [LoadM (N - 1); SetAcc R (N - 1); WriteAcc R 0] ++
  flat_map (fun i => (if 1 <? i then [LoadM (N - i)] else []) ++ [GrowAcc R (N - i); WriteAcc R i; FreeM (N - i)]) (seq 1 (N - usn)) ++
  [LoadM 0; SetAcc L 0; WriteAcc L 0; FreeM 0; EmptyM].
(** LoadRelatedTensTwoSiteAlg, 376-444 *)
Definition load_right (N i : nat) : list instr :=
  if i =? 0 then [LoadM i; LoadE R (N - (i + 2)); RmE R (N - (i + 2)); LoadE L 0]
  else [LoadM (i + 1); LoadE R (N - (i + 2)); RmE R (N - (i + 2))].
Definition load_left (N i : nat) : list instr :=
  if i =? N - 1 then [LoadM i; LoadE R 0; RmE L (N - 2)]
  else [LoadM (i - 1); LoadE L (i - 1); RmE L (i - 1)].
(** DumpRelatedTensTwoSiteAlg, 447-494 *)
Definition dump_right (N i : nat) : list instr := [FreeE L i; FreeE R (N - (i + 2)); DumpM i true; DumpE L (i + 1)].
Definition dump_left (N i : nat) : list instr := [FreeE L (i + 1 - 2); FreeE R (N - (i + 1)); DumpM i true; DumpE R (N - i)].
(** one iteration of the loops of TwoSiteFiniteVMPSSweep; the update is TwoSiteFiniteVMPSUpdate, 233-373 *)
Definition step_right (N i : nat) : list instr := load_right N i ++ [Upd2 true i] ++ dump_right N i.
Definition step_left (N i : nat) : list instr := load_left N i ++ [Upd2 false (i - 1)] ++ dump_left N i.
(** TwoSiteFiniteVMPSSweep, 198-222: i = 0 .. N-3, then i = N-1 .. 2 *)
Definition sweep (N : nat) : list instr :=
  [NewEnvs (N - 1)] ++ flat_map (step_right N) (seq 0 (N - 2)) ++ flat_map (step_left N) (rev (seq 2 (N - 2))).
(** TwoSiteFiniteVMPS without noise, 96-125; [have]: IsPathExist(temp_path) *)
Definition two_site (N sweeps : nat) (have : bool) : list instr :=
  [EmptyM] ++ (if have then [] else Mkdir :: init_envs N 2) ++ [LoadM 1] ++ concat (repeat (sweep N) sweeps) ++ [DumpM 1 true].

Section Run.
Variables T E En : Type.
Variables (dT : T) (dE : E) (triv : side -> E) (grow : side -> nat -> E -> T -> E) (solve : bool -> nat -> E -> T -> T -> E -> T * T * En).
Variables (canoL canoR : T -> T -> T * T).
(** the whole function: e0 is a local variable without initial value, returned at the end *)
Definition run_two_site (dbg : bool) (sweeps : nat) (w : world T E En) : res (En * world T E En) :=
  let! w := exec T E En dT dE triv grow solve canoL canoR dbg (two_site (nm T E En w) sweeps (tmp T E En w)) (set_eng T E En None w) in
  let! e := use (eng T E En w) in Ok (e, w).
End Run.
