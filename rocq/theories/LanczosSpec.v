(** The Lanczos recurrence as a mathematical sequence, where it stops, and what the solvers must leave on the heap. *)
From Coq Require Import List Arith Bool.
From Verif Require Import Base Lanczos.
Import ListNotations.

Section Spec.
Variables F V C : Type.
Variables (zeroF : F) (isz : F -> bool).
Variable mul : V -> V.
Variable dot : V -> V -> F.
Variable lc1 : F -> V -> V -> V.
Variable lc2 : F -> V -> F -> V -> V -> V.
Variable normalize : V -> V * F.
Variable off : F -> F.     (* how the norm enters the recurrence *)
Variable v0 : V.
(** (q_m, q_(m-1), norm of the m-th residual before it was normalized) *)
Fixpoint kr (m : nat) : V * V * F :=
  match m with
  | O => (fst (normalize v0), fst (normalize v0), zeroF)
  | S k =>
    let '(q, q', n) := kr k in
    let g := mul q in
    let w := if k =? 0 then lc1 (dot g q) q g else lc2 (dot g q) q (off n) q' g in
    (fst (normalize w), q, snd (normalize w))
  end.
Definition qv (m : nat) : V := fst (fst (kr m)).
Definition al (m : nat) : F := dot (mul (qv m)) (qv m).
Definition be (m : nat) : F := snd (kr (S m)).
Definition als (k : nat) : list F := map al (seq 0 k).
Definition bes (k : nat) : list F := map be (seq 0 (k - 1)).
Definition qvs (k : nat) : list V := map qv (seq 0 k).
(** the eigenvalue solver with k basis vectors *)
Variable tri_e : list F -> list F -> F.
Variable close : F -> F -> bool.
Variables maxit dim : nat.
Definition energy (k : nat) : F := if k =? 1 then al 0 else tri_e (als k) (bes k).
(** iteration m: the residual vanishes (the space has m vectors), or a stop criterion holds (m + 1 vectors) *)
Definition vanishes (m : nat) : bool := isz (be (m - 1)).
Definition satisfied (m : nat) : bool := close (energy m) (energy (m + 1)) || (m =? dim) || (m =? maxit - 1).
Definition running (stop : nat -> bool) (m : nat) : Prop := forall j, 1 <= j < m -> vanishes j = false /\ stop j = false.
(** the exponential: the coefficients of k vectors, the previous ones with a zero appended *)
Variable cz : C.
Variable tri_x : list F -> list F -> list C.
Variable far : list C -> list C -> bool.
Definition coefx (k : nat) : list C := if k =? 1 then [cz] else tri_x (als k) (bes k).
Definition xsatisfied (m : nat) : bool := negb (far (coefx m ++ [cz]) (coefx (m + 1))) || (m =? dim) || (m =? maxit - 1).

(** everything allocated is freed, the given state too; only the result stays; the rest of the heap is untouched *)
Definition cleaned (h0 : heap V C) (p0 : nat) (h : heap V C) (r : nat) (v : V) : Prop :=
  let L := length (cells _ _ h0) in
  (forall i, i < L -> i <> p0 -> nth_error (cells _ _ h) i = nth_error (cells _ _ h0) i) /\
  nth_error (cells _ _ h) p0 = Some None /\
  L <= r /\ nth_error (cells _ _ h) r = Some (Some v) /\
  (forall i w, L <= i -> nth_error (cells _ _ h) i = Some (Some w) -> i = r) /\
  (forall i, i < length (arrs _ _ h0) -> nth_error (arrs _ _ h) i = nth_error (arrs _ _ h0) i) /\
  (forall i l, length (arrs _ _ h0) <= i -> nth_error (arrs _ _ h) i <> Some (Some l)).
End Spec.
