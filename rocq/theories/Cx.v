(** Complex numbers as pairs of real numbers of the standard library, exact: QLTEN_Complex without rounding. *)
From Coq Require Import Reals.
Local Open Scope R_scope.

Definition cx : Type := R * R.
Definition c0 : cx := (0, 0).
Definition c1 : cx := (1, 0).
Definition cadd (x y : cx) : cx := (fst x + fst y, snd x + snd y).
Definition cmul (x y : cx) : cx := (fst x * fst y - snd x * snd y, fst x * snd y + snd x * fst y).
Definition csub (x y : cx) : cx := (fst x - fst y, snd x - snd y).
Definition copp (x : cx) : cx := (- fst x, - snd x).
Definition cconj (x : cx) : cx := (fst x, - snd x).
Definition cre (x : R) : cx := (x, 0).
Definition cph (d : R) (x : R) : cx := (cos (d * x), - sin (d * x)).
