(** What the Lanczos solvers rely on: finite sums, the tridiagonal matrix, the eigensystem LAPACK returns, spaces with a Hermitian form. *)
From Coq Require Import List Arith Ring_theory.
Import ListNotations.

Section Sum.
Variable R : Type.
Variables (r0 : R) (radd : R -> R -> R).
Fixpoint sumk (n : nat) (f : nat -> R) : R := match n with O => r0 | S k => radd (sumk k f) (f k) end.
(** over the pairs of two lists *)
Definition suml {A} (f : A -> R) (l : list A) : R := fold_right (fun x s => radd (f x) s) r0 l.
End Sum.

(** the real symmetric tridiagonal matrix with diagonal d and off-diagonal e *)
Definition trid {F} (z : F) (d e : list F) (i j : nat) : F :=
  if i =? j then nth i d z else if j =? i + 1 then nth i e z else if i =? j + 1 then nth j e z else z.

(** dv, z (row-major): an orthogonal matrix whose columns are eigenvectors, the first one with the lowest eigenvalue *)
Record eigensystem {F} (f0 f1 : F) (fadd fmul : F -> F -> F) (le : F -> F -> Prop) (d e dv z : list F) : Prop := {
  es_len : length dv = length d;
  es_zlen : length z = length d * length d;
  es_vec : forall i j, i < length d -> j < length d ->
    sumk F f0 fadd (length d) (fun k => fmul (trid f0 d e i k) (nth (k * length d + j) z f0)) = fmul (nth j dv f0) (nth (i * length d + j) z f0);
  es_cols : forall j k, j < length d -> k < length d ->
    sumk F f0 fadd (length d) (fun i => fmul (nth (i * length d + j) z f0) (nth (i * length d + k) z f0)) = if j =? k then f1 else f0;
  es_rows : forall i k, i < length d -> k < length d ->
    sumk F f0 fadd (length d) (fun j => fmul (nth (i * length d + j) z f0) (nth (k * length d + j) z f0)) = if i =? k then f1 else f0;
  es_low : forall j, j < length d -> le (nth 0 dv f0) (nth j dv f0) }.

(** LAPACK solves the tridiagonal problems with 2 to k vectors *)
Definition lapack_ok {F} (f0 f1 : F) (fadd fmul : F -> F -> F) (le : F -> F -> Prop) (stev : list F -> list F -> list F * list F)
    (als bes : nat -> list F) (k : nat) : Prop :=
  forall n, 2 <= n <= k -> let (dv, z) := stev (als n) (bes n) in eigensystem f0 f1 fadd fmul le (als n) (bes n) dv z.

(** the scalars: F are the real numbers inside K *)
Record scalars {F K} (f0 f1 : F) (fadd fmul fsub : F -> F -> F) (fopp : F -> F) (k0 k1 : K) (kadd kmul ksub : K -> K -> K) (kopp : K -> K)
    (r : F -> K) (conj : K -> K) (le : F -> F -> Prop) : Prop := {
  sc_f : ring_theory f0 f1 fadd fmul fsub fopp eq;
  sc_k : ring_theory k0 k1 kadd kmul ksub kopp eq;
  sc_0 : r f0 = k0; sc_1 : r f1 = k1;
  sc_add : forall x y, r (fadd x y) = kadd (r x) (r y);
  sc_mul : forall x y, r (fmul x y) = kmul (r x) (r y);
  sc_cadd : forall x y, conj (kadd x y) = kadd (conj x) (conj y);
  sc_cmul : forall x y, conj (kmul x y) = kmul (conj x) (conj y);
  sc_cc : forall x, conj (conj x) = x;
  sc_cr : forall x, conj (r x) = r x;
  sc_refl : forall x, le x x;
  sc_lea : forall x y u v, le x y -> le u v -> le (fadd x u) (fadd y v);
  sc_les : forall x y u, le x y -> le (fmul x (fmul u u)) (fmul y (fmul u u)) }.

(** [ip x y]: the contraction of x with the conjugate of y.  The operator is Hermitian, the vector operations act as their names say. *)
Record hermitian {F K V} (f0 : F) (k0 k1 : K) (kadd kmul ksub : K -> K -> K) (r : F -> K) (conj : K -> K) (ip : V -> V -> K)
    (isz : F -> bool) (mul : V -> V) (dot : V -> V -> F) (lc1 : F -> V -> V -> V) (lc2 : F -> V -> F -> V -> V -> V)
    (normalize : V -> V * F) (off rt : F -> F) : Prop := {
  he_conj : forall x y, conj (ip x y) = ip y x;
  he_mul : forall x y, ip (mul x) y = ip x (mul y);
  (* dot: the real part of ip *)
  he_dot : forall x y, conj (ip x y) = ip x y -> r (dot x y) = ip x y;
  he_lc1 : forall a q g x, ip (lc1 a q g) x = ksub (ip g x) (kmul (r a) (ip q x));
  he_lc2 : forall a q n q' g x, ip (lc2 a q n q' g) x = ksub (ksub (ip g x) (kmul (r a) (ip q x))) (kmul (r (rt n)) (ip q' x));
  (* v = |v| v', and v' is a unit vector unless v = 0 *)
  he_norm : forall v x, ip v x = kmul (r (snd (normalize v))) (ip (fst (normalize v)) x);
  he_unit : forall v, isz (snd (normalize v)) = false -> ip (fst (normalize v)) (fst (normalize v)) = k1;
  (* the square root of N[m] is the norm *)
  he_rt : forall v, rt (off (snd (normalize v))) = snd (normalize v);
  he_isz : forall n, isz n = true -> n = f0;
  he_nz : forall n k, isz n = false -> kmul (r n) k = k0 -> k = k0 }.
