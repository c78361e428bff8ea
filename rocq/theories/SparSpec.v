(** Specification of the sparse matrix: a plain dense matrix and what each operation does to it. *)
From Coq Require Import List Arith Bool Permutation.
From Verif Require Import Base SparMat.
Import ListNotations.

Section Spec.
Variables (E : Type) (nullE : E) (eqE : E -> E -> bool).

Record dense : Type := mkDense { dr : nat; dc : nat; df : nat -> nat -> E }.
Definition zeros (r c : nat) : dense := mkDense r c (fun _ _ => nullE).

Inductive op : Type :=
| SetElem (r c : nat) (e : E)
| RemoveRow (r : nat) | RemoveCol (c : nat)
| SwapRows (a b : nat) | SwapCols (a b : nat)
| TransRows (p : list nat) | TransCols (p : list nat).

(** index of the remaining row number [x] after row [r] is gone *)
Definition past (r x : nat) : nat := if x <? r then x else S x.
Definition exch (a b x : nat) : nat := if x =? a then b else if x =? b then a else x.

(** arguments the caller may pass *)
Definition allowed (d : dense) (o : op) : Prop :=
  match o with
  | SetElem r c _ => r < dr d /\ c < dc d
  | RemoveRow r => r < dr d
  | RemoveCol c => c < dc d /\ 1 <= dr d
  | SwapRows a b => a < dr d /\ b < dr d
  | SwapCols a b => a < dc d /\ b < dc d
  | TransRows p => Permutation p (seq 0 (dr d))
  | TransCols p => Permutation p (seq 0 (dc d))
  end.
(** the effect; a matrix losing its last row or column becomes the 0 x 0 matrix *)
Definition effect (d : dense) (o : op) : dense :=
  match o with
  | SetElem r c e =>
      if eqE e nullE then d
      else mkDense (dr d) (dc d) (fun x y => if (x =? r) && (y =? c) then e else df d x y)
  | RemoveRow r =>
      if dr d =? 1 then zeros 0 0 else mkDense (dr d - 1) (dc d) (fun x y => df d (past r x) y)
  | RemoveCol c =>
      if dc d =? 1 then zeros 0 0 else mkDense (dr d) (dc d - 1) (fun x y => df d x (past c y))
  | SwapRows a b => mkDense (dr d) (dc d) (fun x y => df d (exch a b x) y)
  | SwapCols a b => mkDense (dr d) (dc d) (fun x y => df d x (exch a b y))
  | TransRows p => mkDense (dr d) (dc d) (fun x y => df d (nth x p 0) y)
  | TransCols p => mkDense (dr d) (dc d) (fun x y => df d x (nth y p 0))
  end.
Fixpoint allowed_all (d : dense) (h : list op) : Prop :=
  match h with [] => True | o :: t => allowed d o /\ allowed_all (effect d o) t end.
Definition effects (d : dense) (h : list op) : dense := fold_left effect h d.

(** the same history on the code's matrix *)
Definition exec1 (dbg : bool) (o : op) (m : mat E) : res (mat E) :=
  match o with
  | SetElem r c e => set_elem nullE eqE m r c e
  | RemoveRow r => remove_row dbg m r
  | RemoveCol c => remove_col dbg m c
  | SwapRows a b => swap_rows dbg m a b
  | SwapCols a b => swap_cols dbg m a b
  | TransRows p => transpose_rows dbg m p
  | TransCols p => transpose_cols dbg m p
  end.
Definition exec (dbg : bool) (h : list op) (m : mat E) : res (mat E) := for_each h (exec1 dbg) m.

(** what a user of the matrix can see *)
Definition shows (dbg : bool) (m : mat E) (d : dense) : Prop :=
  rows m = dr d /\ cols m = dc d /\
  (forall r c, r < dr d -> c < dc d -> get nullE m r c = Ok (df d r c) /\
     exists b, is_null m r c = Ok b /\ (b = true -> df d r c = nullE) /\ (b = false -> eqE (df d r c) nullE = false)) /\
  (forall r, r < dr d -> get_row nullE dbg m r = Ok (map (df d r) (seq 0 (dc d)))) /\
  (forall c, c < dc d -> get_col nullE dbg m c = Ok (map (fun r => df d r c) (seq 0 (dr d)))).
End Spec.
