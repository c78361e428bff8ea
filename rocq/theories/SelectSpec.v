(** Selection rules of the record of a TDVP run: operators that change the total quantum number by a definite amount. *)
From Coq Require Import List Arith Bool.
From Verif Require Import Base Legs GVec Cx CorrSpec.
Import ListNotations.
Local Open Scope nat_scope.

Section Spec.
Variables (G : Type) (qadd : G -> G -> G).
Variable ch : nat -> nat -> G.                                (* quantum number of the state s of site i *)
Variable p : nat.                                             (* dimension of a site *)
(** the operator [o] on site i turns a state with quantum number x into one with x + dq ([o s s']: from s to s') *)
Definition shifts (i : nat) (o : nat -> nat -> cx) (dq : G) : Prop := forall s s', s < p -> s' < p -> o s s' <> c0 -> ch i s' = qadd (ch i s) dq.
(** a string on the sites before i that changes none of their quantum numbers *)
Definition neutral (i : nat) (str : option (nat -> nat -> cx)) : Prop :=
  match str with Some g => forall j s s', j < i -> s < p -> s' < p -> g s s' <> c0 -> ch j s' = ch j s | None => True end.
End Spec.
