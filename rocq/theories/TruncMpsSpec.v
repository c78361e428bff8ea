(** What TruncateMPS is expected to do, in terms of amplitudes. *)
From Coq Require Import List Arith Bool ZArith Reals.
From Verif Require Import Base FiniteMps FmpsSpec EffHamSpec Cx GVec.
Import ListNotations.
Local Open Scope nat_scope.

(** <s|psi> *)
Definition amplitude (ts : list (ten cx)) (s : list nat) : cx := mps_mat cx c0 c1 cadd cmul ts s 0 0.
(** all basis states of the chain *)
Definition basis (ts : list (ten cx)) : list (list nat) := configs (map (@d1 cx) ts).
Definition total (l : list (list nat)) (f : list nat -> cx) : cx := fold_right (fun s a => cadd (f s) a) c0 l.
(** <phi|psi>, for chains with the same physical legs *)
Definition inner (phi psi : list (ten cx)) : cx := total (basis psi) (fun s => cmul (cconj (amplitude phi s)) (amplitude psi s)).
(** the norm of psi *)
Definition norm (psi : list (ten cx)) : real := sqrt (fst (inner psi psi)).
(** squared distance of phi from psi divided by its norm *)
Definition distance2 (phi psi : list (ten cx)) : real :=
  fst (total (basis psi) (fun s => let d := csub (amplitude phi s) (cmul (cre (/ norm psi)) (amplitude psi s)) in cmul (cconj d) d)).

(** product of sqrt (1 - e) over the truncation errors, and their sum *)
Definition kept (es : list real) : real := fold_right (fun e a => (sqrt (1 - e) * a)%R) 1%R es.
Definition lost (es : list real) : real := fold_right (fun e a => (e + a)%R) 0%R es.

(** Truncated singular value decomposition of a tensor that is not zero, seen as a matrix from (left, physical) to right: the
    kept columns of u are orthonormal, the kept rows of vt are orthonormal, projecting on the columns of u gives s vt, the
    discarded part of the squared norm is e, at most Dmax values are kept, and e exceeds trunc_err only if Dmax values are kept.
    The order of the values, their optimality and the role of Dmin are not needed. *)
Record truncated_svd (terr : real) (Dmax : nat) (a : ten cx) (r : ten cx * list real * mat2 cx * real) : Prop := {
  tv_dims : let '(u, s, vt, e) := r in d0 u = d0 a /\ d1 u = d1 a /\ d2 u = length s /\ n0 vt = length s /\ n1 vt = d2 a;
  tv_left : let '(u, s, vt, e) := r in left_canonical cx c0 c1 cadd cmul cconj u;
  tv_right : let '(u, s, vt, e) := r in forall k, k < length s -> sumn cx c0 cadd (n1 vt) (fun y => cmul (cconj (me vt k y)) (me vt k y)) = c1;
  tv_proj : let '(u, s, vt, e) := r in forall k y, k < length s -> y < d2 a ->
    sumn cx c0 cadd (d0 a) (fun x => sumn cx c0 cadd (d1 a) (fun t => cmul (cconj (el u x t k)) (el a x t y))) = cmul (cre (nth k s 0%R)) (me vt k y);
  tv_err : let '(u, s, vt, e) := r in (0 <= e < 1)%R /\
    fold_right (fun x q => (x * x + q)%R) 0%R s =
      ((1 - e) * fst (sumn cx c0 cadd (d0 a) (fun x => sumn cx c0 cadd (d1 a) (fun t => sumn cx c0 cadd (d2 a) (fun y => cmul (cconj (el a x t y)) (el a x t y))))))%R;
  tv_max : let '(u, s, vt, e) := r in length s <= Dmax /\ (length s < Dmax -> (e <= terr)%R)
}.
Definition good_svd (terr : real) (Dmin Dmax : nat) (svd : real -> nat -> nat -> ten cx -> ten cx * list real * mat2 cx * real) : Prop :=
  forall a, (exists x t y, x < d0 a /\ t < d1 a /\ y < d2 a /\ el a x t y <> c0) -> truncated_svd terr Dmax a (svd terr Dmin Dmax a).
