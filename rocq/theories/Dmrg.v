(** DMRGExecutor: algorithm/dmrg/dmrg_impl.h, dmrg_init.h, operator_io.h.

    Tensors and the MPS object as in Disk.v.  A block operator group is a vector of operators, each in its own file.
    - [rows i], [cols i]: sizes of the MPO matrix of site i;
    - [growc L i g t]: UpdateLeftBlockOps, one operator per column; [growc R i g t]: UpdateRightBlockOps, one operator per row.
      An operator that could not be read stays default constructed ([None]) and cannot be used.
    - [solve]: SetEffectiveHamiltonianTerms_, Lanczos and SVD;
    - [arr k]: which signals (SIGUSR1/2, SIGINT/SIGTERM) arrived between the (k-1)-th and the k-th load of one of the two static
      atomic flags.  The handler runs atomically between two loads; it could also be seen half done, which is the same as a SIGUSR
      followed by a SIGINT. *)
From Coq Require Import List Arith Lia Bool.
From Verif Require Import Base Disk TwoSite VmpsInit.
Import ListNotations.

Definition sideb (a b : side) : bool := match a, b with L, L => true | R, R => true | _, _ => false end.

Section Dmrg.
Variables T C En : Type.
Variables (dT : T) (rows cols : nat -> nat) (trivc : side -> C) (growc : side -> nat -> list C -> T -> list C).
Variable solve : bool -> nat -> list C -> T -> T -> list C -> T * T * En.
Variables (canoL canoR : T -> T -> T * T).
Variables (bigL smallL bigR smallR : T -> bool) (combL combR : T -> T -> T * T).
Variable dbg : bool.
Variable arr : nat -> bool * bool.
Notation world := (world T unit En).
Notation exec := (exec T unit En dT tt (fun _ => tt) (fun _ _ _ _ => tt) (fun rt l _ a b _ => solve rt l [] a b []) canoL canoR dbg).
Notation boundary := (boundary T unit En dT tt (fun _ => tt) (fun _ _ _ _ => tt) (fun rt l _ a b _ => solve rt l [] a b []) canoL canoR bigL smallL bigR smallR combL combR dbg).
Notation getM := (getM T unit En). Notation putM := (putM T unit En). Notation nm := (nm T unit En).

Definition group : Type := list (option C).
Record dst : Type := mkD {
  W : world;                                 (* mps_, e0_, the MPS files; lenvs etc. are not used *)
  lg : nat -> group; rg : nat -> group;      (* lopg_vec_, ropg_vec_, of length N *)
  op : side -> nat -> nat -> option C;       (* files: side, block length, component *)
  stp : bool; emg : bool; clk : nat }.       (* stop_requested_, emergency_stop_requested_, number of loads so far *)
Definition setW (w : world) (d : dst) : dst := mkD w (lg d) (rg d) (op d) (stp d) (emg d) (clk d).
Definition set_op (o : side -> nat -> nat -> option C) (d : dst) : dst := mkD (W d) (lg d) (rg d) o (stp d) (emg d) (clk d).
Definition run (p : list instr) (d : dst) : res dst := let! w := exec p (W d) in Ok (setW w d).
(** one atomic load; the signals that arrived before it were handled (472-502) *)
Definition poll (d : dst) : dst :=
  let (u, i) := arr (clk d) in mkD (W d) (lg d) (rg d) (op d) (stp d || u || i) (emg d || i) (S (clk d)).

(** *** groups and files (operator_io.h 31-78) *)
Definition getG (s : side) (i : nat) (d : dst) : res group := if i <? nm (W d) then Ok (match s with L => lg d i | R => rg d i end) else Ub.
Definition setG (s : side) (i : nat) (g : group) (d : dst) : res dst :=
  if i <? nm (W d) then
    Ok (match s with L => mkD (W d) (fset (lg d) i g) (rg d) (op d) (stp d) (emg d) (clk d)
                   | R => mkD (W d) (lg d) (fset (rg d) i g) (op d) (stp d) (emg d) (clk d) end)
  else Ub.
Fixpoint full (g : group) : res (list C) :=
  match g with [] => Ok [] | Some x :: g => let! l := full g in Ok (x :: l) | None :: _ => Ub end.
Definition write_group (s : side) (n : nat) (g : group) (d : dst) : res dst :=
  let! l := (match full g with Ok l => Ok l | _ => if dbg then Abort else Ub end) in
  Ok (set_op (fun s' m c => if sideb s s' && (m =? n) && (c <? length l) then nth_error l c else op d s' m c) d).
Definition read_group (s : side) (n size : nat) (d : dst) : group := map (op d s n) (seq 0 size).
Definition remove_group (s : side) (n size : nat) (d : dst) : dst :=
  set_op (fun s' m c => if sideb s s' && (m =? n) && (c <? size) then None else op d s' m c) d.
(** dmrg_init.h 133-161, 178-205 *)
Definition grow_group (s : side) (i : nat) (g : group) (t : T) : res group :=
  let! l := full g in
  if length l =? (match s with L => rows i | R => cols i end) then Ok (map Some (growc s i l t)) else if dbg then Abort else Ub.

(** *** one update of the sites l, l+1; [rt]: dir_ == 'r' *)
(** LoadRelatedTensSweep_, 396-456 *)
Definition load_step (lb rb : nat) (rt : bool) (l : nat) (d : dst) : res dst :=
  let N := nm (W d) in
  let r := l + 1 in
  if rt then
    let! d := (if l =? lb then
                 let! d := run [LoadM l] d in setG L l (read_group L l (rows l) d) d
               else run [LoadM r] d) in
    let! d := setG R (N - 1 - r) (read_group R (N - 1 - r) (cols r) d) d in
    Ok (remove_group R (N - 1 - r) (cols r) d)
  else
    let! d := (if r =? rb then
                 let! d := run [LoadM r] d in setG R (N - 1 - r) (read_group R (N - 1 - r) (cols r) d) d
               else run [LoadM l] d) in
    let! d := setG L l (read_group L l (rows l) d) d in
    Ok (remove_group L l (rows l) d).
(** SetEffectiveHamiltonianTerms_ 320-341, TwoSiteUpdate_ 214-317.  A group of a size other than that of the MPO matrix: undefined *)
Definition update_step (rt : bool) (l : nat) (d : dst) : res dst :=
  let N := nm (W d) in
  let r := l + 1 in
  let! g := getG L l d in let! gl := full g in
  let! h := getG R (N - 1 - r) d in let! gr := full h in
  if negb ((length gl =? rows l) && (length gr =? cols r)) then Ub else
  let! a := getM l (W d) in
  let! b := getM r (W d) in
  let '(a', b', e) := solve rt l gl a b gr in
  let! w := putM l a' (W d) in
  let! w := putM r b' w in
  let d := setW (set_eng T unit En (Some e) w) d in
  if rt then
    let! d := setG R (N - 1 - r) [] d in
    let! g := grow_group L l g a' in
    setG L (l + 1) g d
  else
    let! d := setG L l [] d in
    let! h := grow_group R r h b' in
    setG R (N - 1 - r + 1) h d.
(** DumpRelatedTensSweep_, 344-372 *)
Definition dump_step (rt : bool) (l : nat) (d : dst) : res dst :=
  let N := nm (W d) in
  let r := l + 1 in
  let! d := setG L l [] d in
  let! d := setG R (N - 1 - r) [] d in
  if rt then
    let! d := run [DumpM l true] d in
    let! g := getG L r d in write_group L r g d
  else
    let! d := run [DumpM r true] d in
    let! g := getG R (N - 1 - l) d in write_group R (N - 1 - l) g d.
Definition step (lb rb : nat) (b : bool * nat) (d : dst) : res dst :=
  let (rt, l) := b in
  let! d := load_step lb rb rt l d in let! d := update_step rt l d in dump_step rt l d.
(** EmergencyDumpRelatedTens_, 375-393 *)
Definition emergency (b : bool * nat) (d : dst) : res dst := let (rt, l) := b in if rt then run [DumpM (l + 1) true] d else run [DumpM l true] d.
(** DMRGSweep_, 173-202 *)
Definition order (lb rb : nat) : list (bool * nat) :=
  map (fun i => (true, i)) (seq lb (rb - 1 - lb)) ++ map (fun i => (false, i - 1)) (rev (seq (lb + 2) (rb - (lb + 1)))).
Fixpoint sweep_from (lb rb : nat) (bs : list (bool * nat)) (d : dst) : res dst :=
  match bs with
  | [] => Ok d
  | b :: bs =>
    let! d := step lb rb b d in
    let d := poll d in
    if emg d then emergency b d else sweep_from lb rb bs d
  end.
(** Execute, 149-159 *)
Fixpoint sweeps (lb rb n : nat) (d : dst) : res dst :=
  match n with
  | O => Ok d
  | S n =>
    let! d := sweep_from lb rb (order lb rb) d in
    let d := poll d in
    if stp d then Ok d else
    let d := poll d in
    if emg d then Ok d else sweeps lb rb n d
  end.
(** DMRGPostProcess_, 460-470 *)
Definition post (lb : nat) : list instr :=
  LoadM (lb + 1) :: flat_map (fun i => [LoadM (i - 1); CanoR i; DumpM i false]) (rev (seq 1 (lb + 1))) ++ [DumpM 0 false].

(** *** preparation *)
(** NeedGenerateBlockOps, 90-115 *)
Definition ops_missing (lb rb : nat) (d : dst) : bool :=
  negb (forallb (fun site => forallb (fun c => negb (isnull (op d R (nm (W d) - 1 - site) c))) (seq 0 (cols site))) (rev (seq (lb + 1) (rb - lb)))).
(** InitBlockOps, 281-309 *)
Definition init_ops (lb : nat) (d : dst) : res dst :=
  let N := nm (W d) in
  let! d := run [LoadM (N - 1)] d in
  let! _ := getM (N - 1) (W d) in
  let! d := write_group R 0 [Some (trivc R)] d in
  let! (_, d) := for_loop 1 (N - (lb + 2)) (fun i (gd : group * dst) =>
    let (g, d) := gd in
    let! d := (if 1 <? i then run [LoadM (N - i)] d else Ok d) in
    let! t := getM (N - i) (W d) in
    let! g := grow_group R (N - i) g t in
    let! d := write_group R i g d in
    let! d := run [FreeM (N - i)] d in
    Ok (g, d)) ([Some (trivc R)], d) in
  Ok d.
(** UpdateBoundaryBlockOps, 208-265 *)
Definition boundary_ops (lb rb : nat) (d : dst) : res dst :=
  let N := nm (W d) in
  let! d := run [LoadM (N - 1)] d in
  let! _ := getM (N - 1) (W d) in
  let! (g, d) := for_loop 1 (N - rb - 1) (fun i (gd : group * dst) =>
    let (g, d) := gd in
    let! d := (if 1 <? i then run [LoadM (N - i)] d else Ok d) in
    let! t := getM (N - i) (W d) in
    let! g := grow_group R (N - i) g t in
    let! d := run [FreeM (N - i)] d in
    Ok (g, d)) ([Some (trivc R)], d) in
  let! d := write_group R (N - 1 - rb) g d in
  let! d := run [LoadM rb] d in
  let! t := getM rb (W d) in
  let! g := grow_group R rb g t in
  let! d := run [FreeM rb] d in
  let! d := write_group R (N - rb) g d in
  let! d := run [LoadM 0] d in
  let! _ := getM 0 (W d) in
  let! (g, d) := (if 0 <? lb then
      for_loop 0 lb (fun i (gd : group * dst) =>
        let (g, d) := gd in
        let! d := (if 0 <? i then run [LoadM i] d else Ok d) in
        let! t := getM i (W d) in
        let! g := grow_group L i g t in
        let! d := run [FreeM i] d in
        Ok (g, d)) ([Some (trivc L)], d)
    else let! d := run [FreeM 0] d in Ok ([Some (trivc L)], d)) in
  write_group L lb g d.
(** DMRGInit_, 56-86 *)
Definition dmrg_init (d : dst) : res (nat * nat * dst) :=
  let! (lb, rb, w) := boundary (W d) in
  let d := setW w d in
  let! d := (if tmp T unit En w then (if ops_missing lb rb d then init_ops lb d else Ok d)
             else let! d := run [Mkdir] d in init_ops lb d) in
  let! d := boundary_ops lb rb d in
  let! d := run [EmptyM] d in
  Ok (lb, rb, d).
(** Execute, 141-165 *)
Definition execute (n : nat) (d : dst) : res dst :=
  let! (lb, rb, d) := dmrg_init d in
  let! d := run [LoadM (lb + 1)] d in
  let! d := sweeps lb rb n d in
  let d := poll d in
  if emg d then Ok d
  else let! d := run [DumpM (lb + 1) true] d in run (post lb) d.
(** DMRGExecutor(mat_repr_mpo, params) of a process that has handled some signals already: a new MPS object and groups; the flags are
    static, so they are those left by whatever ran before *)
Definition executor (N : nat) (d : dst) : dst :=
  mkD (mkW T unit En N fnone 0 fnone fnone None None (dm T unit En (W d)) fnone fnone (tmp T unit En (W d)))
      (fun _ => []) (fun _ => []) (op d) (stp d) (emg d) (clk d).
End Dmrg.
