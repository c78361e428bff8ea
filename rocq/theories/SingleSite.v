(** The single-site run: algorithm/vmps/single_site_update_finite_vmps_impl.h 56-113, 120-186, 479-588.
    N >= 1; size_t underflow for N = 0 is not modelled. *)
From Coq Require Import List Arith Lia Bool.
From Verif Require Import Base Disk TwoSite.
Import ListNotations.

(** [U1 rt i nn]: energy expectation value, noise rule, Lanczos, expansion, SVD and shift of the center from site i to the
    neighbour nn (lines 137-158 and 200-376); [St1 k]: lines 97-101 and 127 for sweep number k, counted from 0 *)
Inductive sinstr : Type := B1 (c : instr) | U1 (rt : bool) (i nn : nat) | St1 (k : nat).

Section Single.
Variables T E St : Type.
Variables (dT : T) (dE : E) (triv : side -> E) (grow : side -> nat -> E -> T -> E).
Variables (canoL canoR : T -> T -> T * T).
(** [St]: noise_running, e0, actual_e0, actual_laststep_e0.  Arguments: direction, site, left environment, the site's tensor,
    right environment, the neighbour's tensor *)
Variable solve1 : bool -> nat -> E -> T -> E -> T -> St -> T * T * St.
(** the preset noises, and the state for noise 0 *)
Variable noises : list St.
Variable zero : St.
Variable carry : St -> St.
(** not used by any instruction of these programs *)
Variable solve2 : bool -> nat -> E -> T -> T -> E -> T * T * St.
Variable dbg : bool.
Notation world := (world T E St).
Notation exec1 := (exec1 T E St dT dE triv grow solve2 canoL canoR dbg).
Notation getM := (getM T E St). Notation putM := (putM T E St). Notation getE := (getE T E St). Notation putE := (putE T E St).
Notation nm := (nm T E St).

(** line 93: if no noises are given, one noise 0 is added *)
Definition preset1 (k : nat) : option St := nth_error (match noises with [] => [zero] | _ => noises end) k.
Definition sexec1 (c : sinstr) (w : world) : res world :=
  match c with
  | B1 c => exec1 c w
  | U1 rt i nn =>
      let! el := getE L i w in
      let! er := getE R (nm w - i - 1) w in
      let! a := getM i w in
      let! b := getM nn w in
      let! s := use (eng T E St w) in
      let '(a', b', s') := solve1 rt i el a er b s in
      let! w := putM i a' w in
      let! w := putM nn b' w in
      let! w := if rt then putE L (i + 1) (grow L i el a') w else putE R (nm w - i - 1 + 1) (grow R i er a') w in
      Ok (set_eng T E St (Some s') w)
  | St1 k => Ok (set_eng T E St (match preset1 k with Some s => Some s | None => option_map carry (eng T E St w) end) w)
  end.
Fixpoint sexec (p : list sinstr) (w : world) : res world :=
  match p with [] => Ok w | c :: q => let! w := sexec1 c w in sexec q w end.

(** LoadRelatedTensSingleSiteAlg, 479-542 *)
Definition load_right1 (N i : nat) : list instr :=
  if i =? 0 then [LoadM (i + 1); LoadE R (N - i - 1); RmE R (N - i - 1); LoadE L 0]
  else [LoadM (i + 1); LoadE R (N - i - 1); RmE R (N - i - 1)].
Definition load_left1 (N i : nat) : list instr :=
  if i =? N - 1 then [LoadM (i - 1); LoadE R 0; RmE L (N - 1)]
  else [LoadM (i - 1); LoadE L i; RmE L i].
(** DumpRelatedTensSingleSiteAlg, 546-588 *)
Definition dump_right1 (N i : nat) : list instr := [FreeE L i; FreeE R (N - i - 1); DumpM i true; DumpE L (i + 1)].
Definition dump_left1 (N i : nat) : list instr := [FreeE L i; FreeE R (N - i - 1); DumpM i true; DumpE R (N - i)].
Definition step_right1 (N i : nat) : list sinstr := map B1 (load_right1 N i) ++ [U1 true i (i + 1)] ++ map B1 (dump_right1 N i).
Definition step_left1 (N i : nat) : list sinstr := map B1 (load_left1 N i) ++ [U1 false i (i - 1)] ++ map B1 (dump_left1 N i).
(** SingleSiteFiniteVMPSSweep, 120-186: i = 0 .. N-2, then i = N-1 .. 1 *)
Definition sweep1 (N k : nat) : list sinstr :=
  [St1 k; B1 (NewEnvs N)] ++ flat_map (step_right1 N) (seq 0 (N - 1)) ++ flat_map (step_left1 N) (rev (seq 1 (N - 1))).
(** lines 80-111 *)
Definition prelude1 (N : nat) (have : bool) : list instr := (if have then [] else Mkdir :: init_envs N 1) ++ [LoadM 0].
Definition single_site (N sweeps : nat) (have : bool) : list sinstr :=
  map B1 (prelude1 N have) ++ flat_map (sweep1 N) (seq 0 sweeps) ++ [B1 (DumpM 0 true)].
(** SingleSiteFiniteVMPS; e0 and noise_start start uninitialised *)
Definition run_single (sweeps : nat) (w : world) : res (St * world) :=
  let! w := sexec (single_site (nm w) sweeps (tmp T E St w)) (set_eng T E St None w) in
  let! s := use (eng T E St w) in Ok (s, w).
End Single.
