(** Specification of two-site TDVP: no files, no stored environments. *)
From Coq Require Import List Arith Bool QArith.
From Verif Require Import Base Disk SweepSpec Tdvp.
Import ListNotations.
Local Open Scope nat_scope.

(** one time step tau on N >= 3 sites: half steps to the right with each next site taken back, the last bond by a whole step,
    and the same backwards *)
Definition schedule (N : nat) (tau : Q) : list sub :=
  flat_map (fun i => [Two true i (tau / 2)%Q; One (i + 1) (- tau / 2)%Q]) (seq 0 (N - 2))
  ++ [Two false (N - 2) (tau * 2 / 2)%Q]
  ++ flat_map (fun j => [One j (- tau / 2)%Q; Two (j =? 1) (j - 1) (tau / 2)%Q]) (rev (seq 1 (N - 2))).
(** total time given to a bond, to a site *)
Definition qsum (l : list Q) : Q := fold_right Qplus 0%Q l.
Definition bond_time (l : nat) (s : list sub) : Q := qsum (map (fun x => match x with Two _ l' t => if l' =? l then t else 0%Q | One _ _ => 0%Q end) s).
Definition site_time (j : nat) (s : list sub) : Q := qsum (map (fun x => match x with One j' t => if j' =? j then t else 0%Q | Two _ _ _ => 0%Q end) s).
(** the same bond or site for the same time; the direction is only a gauge *)
Definition same_sub (a b : sub) : Prop :=
  match a, b with Two _ l t, Two _ l' t' => l = l' /\ (t == t')%Q | One j t, One j' t' => j = j' /\ (t == t')%Q | _, _ => False end.

Section Spec.
Variables T E M V : Type.
Variables (triv : side -> E) (grow : side -> nat -> E -> T -> E).
Variable evo : bool -> nat -> Q -> E -> T -> T -> E -> T * T.
Variable back : nat -> Q -> E -> T -> E -> T.
Variable N : nat.
Notation left_env := (left_env T E triv grow). Notation right_env := (right_env T E triv grow N).
(** a substep in the environments of all the other current tensors *)
Definition evolve (ts : nat -> T) (s : sub) : nat -> T :=
  match s with
  | Two rt l t => let (a, b) := evo rt l t (left_env ts l) (ts l) (ts (l + 1)) (right_env ts (N - (l + 2))) in fset (fset ts l a) (l + 1) b
  | One j t => fset ts j (back j t (left_env ts j) (ts j) (right_env ts (N - 1 - j)))
  end.
Definition tau_step (tau : Q) (ts : nat -> T) : nat -> T := fold_left evolve (schedule N tau) ts.
(** the operator at a site, the string on the sites before it *)
Definition acted (actO : T -> T) (actI : option (T -> T)) (site : nat) (ts : nat -> T) : nat -> T :=
  fun j => if j =? site then actO (ts j) else if j <? site then match actI with Some g => g (ts j) | None => ts j end else ts j.
(** the center moved from a site to site 0 *)
Fixpoint center0 (canoR : T -> T -> T * T) (site : nat) (ts : nat -> T) : nat -> T :=
  match site with O => ts | S k => center0 canoR k (let (a, b) := canoR (ts k) (ts (S k)) in fset (fset ts k a) (S k) b) end.
(** <initial| op at site i |state>: the contraction of everything left and right of the site *)
Variables (mtr mtl : M) (mgr : T -> T -> M -> M) (mgl : M -> T -> T -> M) (mval : M -> T -> T -> M -> V).
Fixpoint lefts (t1 t2 : nat -> T) (k : nat) : M := match k with O => mtl | S k => mgl (lefts t1 t2 k) (t2 k) (t1 k) end.
Fixpoint rights (t1 t2 : nat -> T) (k : nat) : M := match k with O => mtr | S k => mgr (t2 (N - 1 - k)) (t1 (N - 1 - k)) (rights t1 t2 k) end.
Definition overlap_at (t1 t2 : nat -> T) (i : nat) : V := mval (lefts t1 t2 i) (t2 i) (t1 i) (rights t1 t2 (N - 1 - i)).
(** state after k time steps *)
Fixpoint after (tau : Q) (k : nat) (ts : nat -> T) : nat -> T := match k with O => ts | S k => tau_step tau (after tau k ts) end.
End Spec.
