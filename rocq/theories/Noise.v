(** The noised two-site run: algorithm/vmps/two_site_update_noise_finite_vmps_impl.h 80-200 and 559-685. *)
From Coq Require Import List Arith Lia Bool.
From Verif Require Import Base Disk TwoSite VmpsInit.
Import ListNotations.

(** [Upd3 rt l nn]: energy expectation value, noise rule, Lanczos, expansion and SVD on sites l, l+1 with the neighbour nn
    (lines 156-174 and 212-430); [Start k]: lines 111-113 and 142 for sweep number k, counted from 0 *)
Inductive ninstr : Type := B (c : instr) | Upd3 (rt : bool) (l nn : nat) | Start (k : nat).

Section Noise.
Variables T E St : Type.
Variables (dT : T) (dE : E) (triv : side -> E) (grow : side -> nat -> E -> T -> E).
Variables (canoL canoR : T -> T -> T * T).
Variables (bigL smallL bigR smallR : T -> bool) (combL combR : T -> T -> T * T).
(** [St]: noise_running, e0, actual_e0, actual_laststep_e0 *)
Variable solve3 : bool -> nat -> E -> T -> T -> E -> T -> St -> T * T * T * St.
(** preset noise number k for a sweep, if there is one; a sweep without one goes on with the current noise *)
Variable preset : nat -> option St.
Variable carry : St -> St.
(** the update of the run without noise, used when no noises are given *)
Variable solve2 : bool -> nat -> E -> T -> T -> E -> T * T * St.
Variable dbg : bool.
Notation world := (world T E St).
Notation exec1 := (exec1 T E St dT dE triv grow solve2 canoL canoR dbg).
Notation exec := (exec T E St dT dE triv grow solve2 canoL canoR dbg).
Notation getM := (getM T E St). Notation putM := (putM T E St). Notation getE := (getE T E St). Notation putE := (putE T E St).
Notation nm := (nm T E St).

Definition nexec1 (c : ninstr) (w : world) : res world :=
  match c with
  | B c => exec1 c w
  | Upd3 rt l nn =>
      let! el := getE L l w in
      let! er := getE R (nm w - (l + 2)) w in
      let! a := getM l w in
      let! b := getM (l + 1) w in
      let! c := getM nn w in
      let! s := use (eng T E St w) in
      let '(a', b', c', s') := solve3 rt l el a b er c s in
      let! w := putM nn c' w in
      let! w := putM l a' w in
      let! w := putM (l + 1) b' w in
      let! w := if rt then putE L (l + 1) (grow L l el a') w else putE R (nm w - (l + 1)) (grow R (l + 1) er b') w in
      Ok (set_eng T E St (Some s') w)
  | Start k => Ok (set_eng T E St (match preset k with Some s => Some s | None => option_map carry (eng T E St w) end) w)
  end.
Fixpoint nexec (p : list ninstr) (w : world) : res world :=
  match p with [] => Ok w | c :: q => let! w := nexec1 c w in nexec q w end.

(** 559-596 *)
Definition load_right3 (N lb i : nat) : list instr :=
  if i =? lb then [LoadM (i + 2); LoadE R (N - 1 - (i + 1)); RmE R (N - 1 - (i + 1)); LoadE L i]
  else [LoadM (i + 2); LoadE R (N - (i + 2)); RmE R (N - (i + 2))].
(** 599-635 *)
Definition load_left3 (N rb i : nat) : list instr :=
  if i =? rb then [LoadM (i - 2); LoadE R (N - 1 - i); RmE L (i - 1)]
  else [LoadM (i - 2); LoadE L (i + 1 - 2); RmE L (i + 1 - 2)].
(** 638-685: the same accesses as without noise *)
Definition step_right3 (N lb i : nat) : list ninstr := map B (load_right3 N lb i) ++ [Upd3 true i (i + 2)] ++ map B (dump_right N i).
Definition step_left3 (N rb i : nat) : list ninstr := map B (load_left3 N rb i) ++ [Upd3 false (i - 1) (i - 2)] ++ map B (dump_left N i).
(** TwoSiteFiniteVMPSSweep, 131-200, with n environments per side *)
Definition sweep3e (n N lb rb k : nat) : list ninstr :=
  [Start k; B (NewEnvs n)] ++ flat_map (step_right3 N lb) (seq lb (rb - 1 - lb)) ++ flat_map (step_left3 N rb) (rev (seq (lb + 2) (rb - (lb + 1)))).
Definition sweep3 (N : nat) : nat -> nat -> nat -> list ninstr := sweep3e N N.
Definition noise_prog (N lb rb sweeps : nat) : list ninstr :=
  [B (LoadM lb); B (LoadM (lb + 1))] ++ flat_map (sweep3 N lb rb) (seq 0 sweeps) ++ [B (CanoL lb); B (DumpM lb true); B (DumpM (lb + 1) true)].
(** TwoSiteFiniteVMPSWithNoise, 80-125; [empty]: noises.size() == 0.  noise_start and e0 start uninitialised. *)
Definition run_noise (empty : bool) (sweeps : nat) (w : world) : res (St * world) :=
  let! w := (if empty then let! (_, w) := run_two_site T E St dT dE triv grow solve2 canoL canoR dbg sweeps w in Ok w else Ok w) in
  let! (lb, rb, w) := vmps_init T E St dT dE triv grow solve2 canoL canoR bigL smallL bigR smallR combL combR dbg w in
  let! w := nexec (noise_prog (nm w) lb rb sweeps) (set_eng T E St None w) in
  let! s := use (eng T E St w) in Ok (s, w).
End Noise.
