(** Specification side of FiniteMPS: amplitudes, canonical tensors, histories. *)
From Coq Require Import List Arith Bool ZArith.
From Verif Require Import Base FiniteMps.
Import ListNotations.

Section Spec.
Variables (R : Type) (r0 r1 : R) (radd rmul : R -> R -> R) (conj : R -> R).
Notation ten := (ten R).
Infix "*r" := rmul (at level 40).

(** sum over k = 0 .. n-1 *)
Fixpoint sumn (n : nat) (f : nat -> R) : R := match n with O => r0 | S k => radd (sumn k f) (f k) end.

(** product of the matrices A_k[s k] of a list of tensors whose first sits on site [k]; element (x, y) *)
Fixpoint mps_from (k : nat) (ts : list ten) (s : nat -> nat) (x y : nat) : R :=
  match ts with
  | [] => if x =? y then r1 else r0
  | t :: ts' => sumn (d2 t) (fun z => el t x (s k) z *r mps_from (S k) ts' s z y)
  end.
(** <s|MPS>: the outer bonds have dimension one *)
Definition mps_amp (ts : list ten) (s : nat -> nat) : R := mps_from 0 ts s 0 0.

(** neighbouring bonds match; left end [a], right end [b] *)
Fixpoint linked (a : nat) (ts : list ten) (b : nat) : Prop :=
  match ts with [] => a = b | t :: ts' => d0 t = a /\ linked (d2 t) ts' b end.
(** configuration of the physical legs *)
Definition config (ts : list ten) (s : nat -> nat) : Prop := forall i t, nth_error ts i = Some t -> s i < d1 t.

Definition delta (a b : nat) : R := if a =? b then r1 else r0.
(** sum over left and physical leg of conj(A) A is the identity, and mirrored *)
Definition left_canonical (t : ten) : Prop := forall k k', k < d2 t -> k' < d2 t ->
  sumn (d0 t) (fun l => sumn (d1 t) (fun s => conj (el t l s k) *r el t l s k')) = delta k k'.
Definition right_canonical (t : ten) : Prop := forall k k', k < d0 t -> k' < d0 t ->
  sumn (d2 t) (fun r => sumn (d1 t) (fun s => conj (el t k s r) *r el t k' s r)) = delta k k'.

(** the flags tell the truth *)
Definition truthful (st : fmps R) : Prop := forall i,
  (nth_error (types st) i = Some LEFT -> exists t, nth_error (tens st) i = Some (Some t) /\ left_canonical t) /\
  (nth_error (types st) i = Some RIGHT -> exists t, nth_error (tens st) i = Some (Some t) /\ right_canonical t).

(** all tensors in memory *)
Definition holds (st : fmps R) (ts : list ten) : Prop := tens st = map Some ts /\ length (types st) = length ts.

(** what the decompositions of the tensor library must satisfy: exact factorisation with a canonical factor *)
Definition qr_exact (qr : ten -> ten * mat2 R) : Prop := forall a, let (q, r) := qr a in
  d0 q = d0 a /\ d1 q = d1 a /\ d2 q = n0 r /\ n1 r = d2 a /\ left_canonical q /\
  forall x s y, x < d0 a -> s < d1 a -> y < d2 a -> el a x s y = sumn (n0 r) (fun k => el q x s k *r me r k y).
Definition svd_exact (svd1 : ten -> mat2 R * ten * list R) : Prop := forall a, let '(us, vt, _) := svd1 a in
  d1 vt = d1 a /\ d2 vt = d2 a /\ d0 vt = n1 us /\ n0 us = d0 a /\ right_canonical vt /\
  forall x s y, x < d0 a -> s < d1 a -> y < d2 a -> el a x s y = sumn (n1 us) (fun k => me us x k *r el vt k s y).

(** public operations of FiniteMPS that know the flags, and the inherited ones that do not *)
Inductive mop : Type :=
| MAssign (i : nat) (p : option ten)
| MCentralize (k : Z)
| MLeft (stop : nat) | MRight (stop : nat)
| MLeftTen (i : nat) | MRightTen (i : nat) (use_svd : bool)
| MReverse | MEntropy.
Variables (qr : ten -> ten * mat2 R) (svd1 : ten -> mat2 R * ten * list R) (normalize : ten -> ten).
Definition mexec (dbg : bool) (o : mop) (st : fmps R) : res (fmps R) :=
  match o with
  | MAssign i p => assign R i p st
  | MCentralize k => centralize R r0 radd rmul qr svd1 dbg k st
  | MLeft stop => left_cano R r0 radd rmul qr dbg stop st
  | MRight stop => right_cano R r0 radd rmul qr svd1 dbg stop st
  | MLeftTen i => lcan_ten R r0 radd rmul qr dbg i st
  | MRightTen i b => let! (st, _) := rcan_ten R r0 radd rmul qr svd1 dbg i b st in Ok st
  | MReverse => reverse R st
  | MEntropy => let! (st, _) := entropy R r0 radd rmul qr svd1 normalize dbg st in Ok st
  end.
End Spec.
