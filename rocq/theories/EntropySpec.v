(** Entanglement of a pure state, from its amplitudes only. *)
From Coq Require Import List Arith Bool Reals.
From Verif Require Import Base FiniteMps FmpsSpec EffHamSpec Cx GVec.
Import ListNotations.
Local Open Scope nat_scope.

Definition tot {A} (l : list A) (f : A -> cx) : cx := fold_right (fun x a => cadd (f x) a) c0 l.
Section Spec.
Variables (psi : list nat -> cx) (ds : list nat) (i : nat).    (* amplitudes, physical dimensions, number of sites left of the cut *)
Definition left_states : list (list nat) := configs (firstn i ds).
Definition right_states : list (list nat) := configs (skipn i ds).
(** reduced density matrix of the sites left of the cut *)
Definition rho (c c' : list nat) : cx := tot right_states (fun e => cmul (psi (c ++ e)) (cconj (psi (c' ++ e)))).
(** its power n + 1 *)
Fixpoint rho_pow (n : nat) (c c' : list nat) : cx :=
  match n with O => rho c c' | S m => tot left_states (fun x => cmul (rho_pow m c x) (rho x c')) end.
(** the trace of its power n, n > 0 *)
Definition trace_pow (n : nat) : cx := tot left_states (fun c => rho_pow (n - 1) c c).
(** Renyi entropy of order n > 1 *)
Definition renyi (n : nat) : real := (ln (fst (trace_pow n)) / (1 - INR n))%R.
(** rho has the eigenvalues q with the orthonormal eigenvectors v 0, v 1, ... and no other eigenvalue but zero *)
Record spectral (q : list real) (v : nat -> list nat -> cx) : Prop := {
  sp_pos : Forall (fun x => (0 <= x)%R) q;
  sp_orth : forall j k, j < length q -> k < length q -> tot left_states (fun c => cmul (cconj (v j c)) (v k c)) = if j =? k then c1 else c0;
  sp_sum : forall c c', In c left_states -> In c' left_states ->
    rho c c' = tot (seq 0 (length q)) (fun j => cmul (cmul (cre (nth j q 0%R)) (v j c)) (cconj (v j c'))) }.
End Spec.
(** von Neumann entropy of eigenvalues *)
Definition von_neumann (q : list real) : real := fold_right (fun x a => ((if Req_EM_T x 0 then 0 else - x * ln x) + a)%R) 0%R q.
(** number of eigenvalues that are not zero *)
Definition rank (q : list real) : nat := length (filter (fun x => if Req_EM_T x 0 then false else true) q).

(** Singular value decomposition of a tensor seen as a matrix from left to (physical, right), as (u s, vt, s): exact, the rows of
    vt orthonormal, the columns of u s orthogonal with the norms s, which are not negative. *)
Record schmidt_svd (a : ten cx) (r : mat2 cx * ten cx * list cx) : Prop := {
  sv_dims : let '(us, vt, s) := r in n0 us = d0 a /\ n1 us = length s /\ d0 vt = length s /\ d1 vt = d1 a /\ d2 vt = d2 a;
  sv_right : let '(us, vt, s) := r in right_canonical cx c0 c1 cadd cmul cconj vt;
  sv_real : let '(us, vt, s) := r in Forall (fun x => (0 <= fst x)%R /\ snd x = 0%R) s;
  sv_left : let '(us, vt, s) := r in forall k k', k < length s -> k' < length s ->
    sumn cx c0 cadd (n0 us) (fun x => cmul (cconj (me us x k)) (me us x k')) = if k =? k' then cmul (nth k s c0) (nth k s c0) else c0;
  sv_prod : let '(us, vt, s) := r in forall x t y, x < d0 a -> t < d1 a -> y < d2 a ->
    el a x t y = sumn cx c0 cadd (n1 us) (fun k => cmul (me us x k) (el vt k t y)) }.
