(** A small instance of the Lanczos solvers. *)
From Coq Require Import List ZArith.
From Verif Require Import Base Lanczos.
Import ListNotations.

(** a 2x2 integer matrix, other objects on the heap; "norms" are squared and vectors are not rescaled *)
Local Open Scope Z_scope.
Definition tV : Type := Z * Z.
Definition tmul (v : tV) : tV := (fst v + 2 * snd v, 2 * fst v + snd v).
Definition tdot (v w : tV) : Z := fst v * fst w + snd v * snd w.
Definition tlc1 (a : Z) (q g : tV) : tV := (fst g - a * fst q, snd g - a * snd q).
Definition tlc2 (a : Z) (q : tV) (b : Z) (q' g : tV) : tV := tlc1 b q' (tlc1 a q g).
Definition tnorm (v : tV) : tV * Z := (v, tdot v v).
Definition tcomb (c : list Z) (l : list tV) : tV := fold_right (fun p s => (fst p * fst (snd p) + fst s, fst p * snd (snd p) + snd s)) (0, 0) (List.combine c l).
Definition tclose (x y : Z) : bool := x =? y.
Definition theap : heap tV Z := mkH tV Z [Some (7, 7); None; Some (1, 0); Some (9, 9)] [Some [5; 5]].
Definition toy_eig (maxit dim : nat) : res (lres Z * heap tV Z) :=
  eig_solver Z tV Z 0 (fun x => x * x) (Z.eqb 0) tmul tdot tlc1 tlc2 tnorm (fun v => v) (fun d e => fold_right Z.add 0 (d ++ e)) (fun d _ => d) tcomb tclose maxit dim 2 theap.
Definition toy_exp (maxit dim : nat) : res (xres * heap tV Z) :=
  exp_solver Z tV Z 0 (Z.eqb 0) tmul tdot tlc1 tlc2 tnorm tcomb 0 (fun d _ => d) (fun _ _ => true) (fun c _ => c) (fun s c => map (Z.mul s) c) (fun n a q => (n * a * fst q, n * a * snd q)) maxit dim 2 theap.
