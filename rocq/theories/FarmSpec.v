(** What a master/worker exchange must do, in terms of the executions of Mpi.v only. *)
From Coq Require Import List Arith Permutation.
From Verif Require Import Mpi.
Import ListNotations.

(** Executions have at most [bound] steps.  A state that is not final can go on even if the library buffers nothing, so it never
    depends on buffering.  In the final states, where everybody has stopped and no message is left, [good] holds. *)
Definition completes {L V} (prog : nat -> L -> act L V) (P : nat) (init : nat -> L) (bound : nat) (good : (nat -> L) -> Prop) : Prop :=
  forall n s, steps L V prog P n (start init) s ->
    n <= bound /\ (final L V prog P s \/ exists s', receive L V prog P s s' \/ direct L V prog P s s') /\ (final L V prog P s -> good (loc s)).
(** nobody can move although somebody has not stopped *)
Definition stuck {L V} (prog : nat -> L -> act L V) (P : nat) (s : net L V) : Prop := ~ final L V prog P s /\ forall s', ~ step L V prog P s s'.
(** a sum in a commutative monoid does not depend on the order *)
Record monoid {R} (r0 : R) (radd : R -> R -> R) : Prop := mkMonoid {
  m_comm : forall x y, radd x y = radd y x;
  m_assoc : forall x y z, radd x (radd y z) = radd (radd x y) z;
  m_unit : forall x, radd r0 x = x }.
Definition msum {R} (r0 : R) (radd : R -> R -> R) (l : list R) : R := fold_right radd r0 l.
(** the sum of [h t] over the tasks 0 .. T-1 *)
Definition over_tasks {R} (r0 : R) (radd : R -> R -> R) (T : nat) (h : nat -> R) : R := msum r0 radd (map h (seq 0 T)).
(** one result of every task *)
Definition once {X} (T : nat) (f : nat -> X) (rs : list (nat * X)) : Prop := Permutation rs (map (fun t => (t, f t)) (seq 0 T)).
