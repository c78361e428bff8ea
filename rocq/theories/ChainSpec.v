(** States of a whole chain: norm, expectation value, Hermitian operators, canonical forms, moves of the orthogonality center. *)
From Coq Require Import List Arith Bool.
From Verif Require Import Base FiniteMps FmpsSpec EffHam EffHamSpec.
Import ListNotations.

Section Spec.
Variables (R : Type) (r0 r1 : R) (radd rmul : R -> R -> R) (conj : R -> R).
Infix "*r" := rmul (at level 40, left associativity).
Notation ten := (ten R).
Notation sumn := (sumn R r0 radd). Notation lsum := (lsum R r0 radd). Notation two_site := (two_site R r0 radd rmul).
Notation mps_mat := (mps_mat R r0 r1 radd rmul). Notation mpo_mat := (mpo_mat R r0 r1 radd rmul).
Notation left_canonical := (left_canonical R r0 r1 radd rmul conj). Notation right_canonical := (right_canonical R r0 r1 radd rmul conj).
(** <psi|psi> *)
Definition norm2 (ts : list ten) : R := lsum (configs (map (@d1 R) ts)) (fun c => conj (mps_mat ts c 0 0) *r mps_mat ts c 0 0).
(** the operator of the chain is Hermitian *)
Definition hermitian_mpo (ds : list nat) (ws : list (mposite R)) : Prop := forall c c', In c (configs ds) -> In c' (configs ds) ->
  mpo_mat ws c c' 0 0 = conj (mpo_mat ws c' c 0 0).
(** two chains have the same amplitudes *)
Definition same_state (ts ts' : list ten) : Prop := map (@d1 R) ts' = map (@d1 R) ts /\
  forall c, In c (configs (map (@d1 R) ts)) -> mps_mat ts' c 0 0 = mps_mat ts c 0 0.
(** H psi = lambda psi *)
Definition eigenstate (ts : list ten) (ws : list (mposite R)) (lambda : R) : Prop := forall c', In c' (configs (map (@d1 R) ts)) ->
  lsum (configs (map (@d1 R) ts)) (fun c => mpo_mat ws c c' 0 0 *r mps_mat ts c 0 0) = lambda *r mps_mat ts c' 0 0.

(** a two-site tensor is written exactly as a product of two tensors *)
Record splits (D0 p1 p2 D3 : nat) (g : nat -> nat -> nat -> nat -> R) (a b : ten) : Prop := {
  fa_0 : d0 a = D0; fa_1 : d1 a = p1; fa_m : d2 a = d0 b; fa_2 : d1 b = p2; fa_3 : d2 b = D3;
  fa_eq : forall x s s' y, x < D0 -> s < p1 -> s' < p2 -> y < D3 -> two_site a b x s s' y = g x s s' y }.
(** the decomposition after an update: exact, with the canonical factor on the side that is left behind *)
Definition exact_split (split : bool -> nat -> nat -> nat -> nat -> (nat -> nat -> nat -> nat -> R) -> ten * ten) : Prop :=
  forall rt D0 p1 p2 D3 g, let (a, b) := split rt D0 p1 p2 D3 g in
    splits D0 p1 p2 D3 g a b /\ (if rt then left_canonical a else right_canonical b).
(** a singular value decomposition without truncation *)
Definition exact_svd (svd : nat -> nat -> nat -> nat -> (nat -> nat -> nat -> nat -> R) -> ten * (nat -> nat -> R) * ten) : Prop :=
  forall D0 p1 p2 D3 g, let '(u, s, vt) := svd D0 p1 p2 D3 g in
    d0 u = D0 /\ d1 u = p1 /\ d1 vt = p2 /\ d2 vt = D3 /\ left_canonical u /\ right_canonical vt /\
    forall x s1 s2 y, x < D0 -> s1 < p1 -> s2 < p2 -> y < D3 ->
      sumn (d2 u) (fun k => sumn (d0 vt) (fun m => el u x s1 k *r s k m *r el vt m s2 y)) = g x s1 s2 y.
(** moves of the center on neighbouring tensors *)
Definition moves_right (f : ten -> ten -> ten * ten) : Prop := forall a b, d2 a = d0 b -> let (a', b') := f a b in
  splits (d0 a) (d1 a) (d1 b) (d2 b) (two_site a b) a' b' /\ left_canonical a'.
(** b = m b', and m goes to the left neighbour *)
Definition moves_left (f : ten -> ten -> ten * ten) : Prop := forall a b, d2 a = d0 b -> let (a', b') := f a b in
  exists m : nat -> nat -> R,
    d0 a' = d0 a /\ d1 a' = d1 a /\ d2 a' = d0 b' /\ d1 b' = d1 b /\ d2 b' = d2 b /\ right_canonical b' /\
    (forall x s k, x < d0 a -> s < d1 a -> k < d0 b' -> el a' x s k = sumn (d2 a) (fun j => el a x s j *r m j k)) /\
    (forall j s y, j < d0 b -> s < d1 b -> y < d2 b -> el b j s y = sumn (d0 b') (fun k => m j k *r el b' k s y)).

(** chains as functions from sites *)
Definition sites (N : nat) {A} (f : nat -> A) : list A := map f (seq 0 N).
(** every tensor left of the sites l, l+1 is left canonical, every tensor right of them right canonical *)
Definition mixed (N : nat) (ts : nat -> ten) (l : nat) : Prop :=
  (forall i, i < l -> left_canonical (ts i)) /\ (forall i, l + 1 < i < N -> right_canonical (ts i)).
End Spec.
