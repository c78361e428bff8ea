(** What the canonical forms and the truncation of a FiniteMPO are expected to do, in terms of the matrix elements of the operator. *)
From Coq Require Import List Arith Bool ZArith Reals.
From Verif Require Import Base FiniteMps FmpsSpec EffHamSpec FinMpo FinMpoSpec Cx GVec.
Import ListNotations.
Local Open Scope nat_scope.

Notation coper := (oper cx).
Definition csum_l {A} (l : list A) (f : A -> cx) : cx := fold_right (fun x a => cadd (f x) a) c0 l.
Notation ssum := (sumn cx c0 cadd).
(** matrix element of the chain from configuration c to c' *)
Definition melem (ts : list (ten4 cx)) : coper := elem cx c0 c1 cadd cmul ts.
(** Hilbert-Schmidt inner product of operators on sites of dimensions [ds], the trace of the dagger of the first times the second *)
Definition hs (ds : list nat) (A B : coper) : cx := csum_l (configs ds) (fun c => csum_l (configs ds) (fun c' => cmul (cconj (A c c')) (B c c'))).
(** squared 2-norm, squared distance *)
Definition hs2 (ds : list nat) (A : coper) : real := fst (hs ds A A).
Definition o_sub (A B : coper) : coper := fun c c' => csub (A c c') (B c c').
Definition hsdist2 (ds : list nat) (A B : coper) : real := hs2 ds (o_sub A B).
Definition same_oper (ds : list nat) (A B : coper) : Prop := forall c c', In c (configs ds) -> In c' (configs ds) -> A c c' = B c c'.

(** canonical tensors: the legs left (right) and both physical legs contracted with the conjugate give the identity *)
Definition left4 (t : ten4 cx) : Prop := forall k k', k < m3 t -> k' < m3 t ->
  ssum (m0 t) (fun l => ssum (m1 t) (fun s => ssum (m2 t) (fun s' => cmul (cconj (e4 t l s s' k)) (e4 t l s s' k')))) = delta cx c0 c1 k k'.
Definition right4 (t : ten4 cx) : Prop := forall k k', k < m0 t -> k' < m0 t ->
  ssum (m3 t) (fun r => ssum (m1 t) (fun s => ssum (m2 t) (fun s' => cmul (cconj (e4 t k s s' r)) (e4 t k' s s' r)))) = delta cx c0 c1 k k'.
(** squared norm of one tensor *)
Definition ten2 (t : ten4 cx) : real :=
  fst (ssum (m0 t) (fun a => ssum (m1 t) (fun s => ssum (m2 t) (fun s' => ssum (m3 t) (fun b => cmul (cconj (e4 t a s s' b)) (e4 t a s s' b)))))).
Definition nonzero4 (t : ten4 cx) : Prop := exists a s s' b, a < m0 t /\ s < m1 t /\ s' < m2 t /\ b < m3 t /\ e4 t a s s' b <> c0.
(** the flags of the object tell the truth *)
Definition truthful4 (st : fmpo cx) : Prop := forall i,
  (nth_error (mtypes st) i = Some LEFT -> exists t, nth_error (mtens st) i = Some (Some t) /\ left4 t) /\
  (nth_error (mtypes st) i = Some RIGHT -> exists t, nth_error (mtens st) i = Some (Some t) /\ right4 t).

(** decompositions of a tensor: exact QR from (left, in, out) to right; exact SVD from left to (in, out, right) *)
Definition qr4_exact (qr : ten4 cx -> ten4 cx * mat2 cx) : Prop := forall a, let (q, r) := qr a in
  m0 q = m0 a /\ m1 q = m1 a /\ m2 q = m2 a /\ m3 q = n0 r /\ n1 r = m3 a /\ left4 q /\
  forall x s s' y, x < m0 a -> s < m1 a -> s' < m2 a -> y < m3 a -> e4 a x s s' y = ssum (n0 r) (fun k => cmul (e4 q x s s' k) (me r k y)).
Definition svd4_exact (svd : ten4 cx -> mat2 cx * list real * ten4 cx) : Prop := forall a, let '(u, s, vt) := svd a in
  n0 u = m0 a /\ n1 u = length s /\ m0 vt = length s /\ m1 vt = m1 a /\ m2 vt = m2 a /\ m3 vt = m3 a /\ right4 vt /\
  forall x p q y, x < m0 a -> p < m1 a -> q < m2 a -> y < m3 a -> e4 a x p q y = ssum (length s) (fun k => cmul (cmul (me u x k) (cre (nth k s 0%R))) (e4 vt k p q y)).
Definition sq_sum (s : list real) : real := fold_right (fun x q => (x * x + q)%R) 0%R s.
(** Truncated SVD from left to (in, out, right) of a tensor that is not zero: the kept columns of u and rows of vt are orthonormal, the tensor projected on the
    rows of vt is u s, e is the discarded part of the squared norm, at most Dmax values are kept, and e exceeds trunc_err only if Dmax values are kept *)
Record truncated4 (terr : real) (Dmax : nat) (a : ten4 cx) (r : mat2 cx * list real * ten4 cx * real) : Prop := {
  t4_dims : let '(u, s, vt, e) := r in n0 u = m0 a /\ n1 u = length s /\ m0 vt = length s /\ m1 vt = m1 a /\ m2 vt = m2 a /\ m3 vt = m3 a;
  t4_right : let '(u, s, vt, e) := r in right4 vt;
  t4_left : let '(u, s, vt, e) := r in forall k, k < length s -> ssum (n0 u) (fun x => cmul (cconj (me u x k)) (me u x k)) = c1;
  t4_proj : let '(u, s, vt, e) := r in forall x k, x < m0 a -> k < length s ->
    ssum (m1 a) (fun p => ssum (m2 a) (fun q => ssum (m3 a) (fun y => cmul (e4 a x p q y) (cconj (e4 vt k p q y))))) = cmul (me u x k) (cre (nth k s 0%R));
  t4_err : let '(u, s, vt, e) := r in (0 <= e < 1)%R /\ sq_sum s = ((1 - e) * ten2 a)%R;
  t4_max : let '(u, s, vt, e) := r in length s <= Dmax /\ (length s < Dmax -> (e <= terr)%R)
}.
Definition good4 (terr : real) (Dmin Dmax : nat) (svd : real -> nat -> nat -> ten4 cx -> mat2 cx * list real * ten4 cx * real) : Prop :=
  forall a, nonzero4 a -> truncated4 terr Dmax a (svd terr Dmin Dmax a).
(** what remains of the squared norm *)
Definition remains (es : list real) : real := fold_right (fun e a => ((1 - e) * a)%R) 1%R es.
Definition lost_sum (es : list real) : real := fold_right (fun e a => (e + a)%R) 0%R es.
