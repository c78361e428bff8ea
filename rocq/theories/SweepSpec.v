(** Specification of variational sweeps: no files, no stored environments.  A chain is a function from sites to tensors. *)
From Coq Require Import List Arith Bool.
From Verif Require Import Base Disk.
Import ListNotations.

Section Spec.
Variables T E En : Type.
Variable triv : side -> E.
Variable grow : side -> nat -> E -> T -> E.
Variable solve : bool -> nat -> E -> T -> T -> E -> T * T * En.
Variable N : nat.
(** environment of the first [k] sites, of the last [k] sites *)
Fixpoint left_env (ts : nat -> T) (k : nat) : E := match k with O => triv L | S k => grow L k (left_env ts k) (ts k) end.
Fixpoint right_env (ts : nat -> T) (k : nat) : E := match k with O => triv R | S k => grow R (N - 1 - k) (right_env ts k) (ts (N - 1 - k)) end.
(** optimise the sites l, l+1 in the environments of all the other current tensors *)
Definition opt (b : bool * nat) (s : (nat -> T) * option En) : (nat -> T) * option En :=
  let (rt, l) := b in let (ts, _) := s in
  let '(x, y, e) := solve rt l (left_env ts l) (ts l) (ts (l + 1)) (right_env ts (N - (l + 2))) in
  (fset (fset ts l x) (l + 1) y, Some e).
Definition opts (bs : list (bool * nat)) (s : (nat -> T) * option En) : (nat -> T) * option En := fold_left (fun s b => opt b s) bs s.
(** bonds of a sweep over the sites lb .. rb: to the right up to the bond before the last, then back *)
Definition bonds (lb rb : nat) : list (bool * nat) :=
  map (fun i => (true, i)) (seq lb (rb - 1 - lb)) ++ map (fun i => (false, i - 1)) (rev (seq (lb + 2) (rb - 1 - lb))).
Fixpoint sweeps_spec (lb rb k : nat) (s : (nat -> T) * option En) : (nat -> T) * option En :=
  match k with O => s | S k => sweeps_spec lb rb k (opts (bonds lb rb) s) end.

(** *** what is on disk *)
Notation world := (world T E En).
Definition on_disk (ts : nat -> T) (w : world) : Prop := forall i, i < N -> dm T E En w i = Some (ts i).
Definition mem_empty (w : world) : Prop := forall i, i < N -> mm T E En w i = None.
(** right environments of the chain for up to [k] sites, left environment of [l] sites *)
Definition envs_ready (ts : nat -> T) (l k : nat) (w : world) : Prop :=
  (forall n, n <= k -> dr T E En w n = Some (right_env ts n)) /\ dl T E En w l = Some (left_env ts l).
End Spec.
