(** Preparation of the noised and DMRG runs: algorithm/vmps/vmps_init.h.

    Shapes are only seen through four tests, and the index combiner through two functions on neighbouring tensors:
    - [bigL a]: d0*d1 > Dmax; [smallL a]: d0*d1 > d2; [combL a b]: combiner of legs 0 and 1 of a, and (combiner * a) b (lines 178-197);
    - [bigR a]: d1*d2 > Dmax; [smallR a]: d1*d2 > d0; [combR b a]: b (a * combiner), and the combiner (lines 221-233). *)
From Coq Require Import List Arith Lia Bool.
From Verif Require Import Base Disk TwoSite.
Import ListNotations.

Section Init.
Variables T E En : Type.
Variables (dT : T) (dE : E) (triv : side -> E) (grow : side -> nat -> E -> T -> E) (solve : bool -> nat -> E -> T -> T -> E -> T * T * En).
Variables (canoL canoR : T -> T -> T * T).
Variables (bigL smallL bigR smallR : T -> bool) (combL combR : T -> T -> T * T).
Variable dbg : bool.
Notation world := (world T E En).
Notation exec := (exec T E En dT dE triv grow solve canoL canoR dbg).
Notation getM := (getM T E En). Notation putM := (putM T E En). Notation nm := (nm T E En).

(** lines 168-203; [n] iterations left, [lb]: left_boundary *)
Fixpoint left_loop (n i lb : nat) (w : world) : res (nat * world) :=
  match n with
  | O => Ok (lb, w)
  | S m =>
    let! w := exec [LoadM (i + 1); CanoL i] w in
    let! a := getM i w in
    if bigL a then Ok (i, w)
    else
      let! w := (if smallL a then
                   let! b := getM (i + 1) w in
                   let (a', b') := combL a b in
                   let! w := putM (i + 1) b' w in putM i a' w
                 else Ok w) in
      left_loop m (S i) (if m =? 0 then i else lb) w
  end.
(** lines 211-239 *)
Fixpoint right_loop (n i rb : nat) (w : world) : res (nat * world) :=
  match n with
  | O => Ok (rb, w)
  | S m =>
    let! w := exec [LoadM (i - 1); CanoR i] w in
    let! a := getM i w in
    if bigR a then Ok (i, w)
    else
      let! w := (if smallR a then
                   let! b := getM (i - 1) w in
                   let (b', a') := combR b a in
                   let! w := putM (i - 1) b' w in putM i a' w
                 else Ok w) in
      right_loop m (i - 1) (if m =? 0 then i else rb) w
  end.
(** lines 154-162 *)
Definition left_middle (N : nat) : nat := if Nat.even N then N / 2 - 1 else N / 2.
Definition right_middle (N : nat) : nat := N / 2.
Definition dumps (l : list nat) : list instr := map (fun i => DumpM i true) l.
(** CheckAndUpdateBoundaryMPSTensors, 140-246.  In the last loop right_boundary - 1 is unsigned: for 0 the loop does not run,
    for 1 it runs below zero. *)
Definition boundary (w : world) : res (nat * nat * world) :=
  let N := nm w in
  let! w := exec [EmptyM; LoadM 0] w in
  let! (lb, w) := left_loop (left_middle N) 0 0 w in
  let! w := exec (dumps (seq 0 (lb + 2)) ++ [LoadM (N - 1)]) w in
  let! (rb, w) := right_loop (N - 1 - right_middle N) (N - 1) 0 w in
  let! w := match rb with
            | O => Ok w
            | S O => Ub
            | S r => exec (dumps (rev (seq r (N - r)))) w
            end in
  let! w := exec [EmptyM] w in
  Ok (lb, rb, w).

(** NeedGenerateRightEnvs, 253-273 *)
Definition envs_missing (N lb rb : nat) (w : world) : bool :=
  negb (forallb (fun n => negb (isnull (dr T E En w n))) (seq (N - 1 - rb) (S (N - 1 - (lb + 1)) - (N - 1 - rb)))).
(** UpdateBoundaryEnvs, 283-341 *)
Definition update_boundary (N lb rb : nat) : list instr :=
  [EmptyM; LoadM (N - 1); SetAcc R (N - 1); FreeM (N - 1)] ++
  flat_map (fun i => [LoadM (N - i); GrowAcc R (N - i); FreeM (N - i)]) (seq 1 (N - rb - 1)) ++
  [WriteAcc R (N - rb - 1); LoadM rb; GrowAcc R rb; FreeM rb; WriteAcc R (N - rb);
   LoadM 0; SetAcc L 0; FreeM 0] ++
  flat_map (fun i => [LoadM i; GrowAcc L i; FreeM i]) (seq 0 lb) ++
  [WriteAcc L lb; EmptyM].
(** FiniteVMPSInit, 75-117 *)
Definition vmps_init (w : world) : res (nat * nat * world) :=
  let N := nm w in
  let! (lb, rb, w) := boundary w in
  let! w := (if tmp T E En w then (if envs_missing N lb rb w then exec (init_envs N (lb + 2)) w else Ok w)
             else exec (Mkdir :: init_envs N (lb + 2)) w) in
  let! w := exec (update_boundary N lb rb) w in
  Ok (lb, rb, w).
End Init.
