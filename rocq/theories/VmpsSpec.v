(** What the local steps of the VMPS algorithms should compute, in terms of amplitudes of the whole chain. *)
From Coq Require Import List Arith Bool.
From Verif Require Import Base FiniteMps FmpsSpec EffHam EffHamSpec Legs.
Import ListNotations.

Section Spec.
Variables (R : Type) (r0 r1 : R) (radd rmul : R -> R -> R) (conj : R -> R).
Infix "*r" := rmul (at level 40, left associativity).
Notation sumn := (sumn R r0 radd). Notation lsum := (lsum R r0 radd).
Notation gten := (gten R). Notation gd := (gd R). Notation ge := (ge R).
Notation mps_mat := (mps_mat R r0 r1 radd rmul). Notation mpo_mat := (mpo_mat R r0 r1 radd rmul).

(** an MPO tensor as a matrix of operators; no element is null *)
Definition site_of (w : gten) : mposite R :=
  mkMpo R (nth 0 (gd w) 0) (nth 3 (gd w) 0) (fun i j => Some (fun s s' => ge w [i; s; s'; j])).
(** tensors of the MPS and of the MPO on the same site: three and four legs, same physical dimension *)
Definition same_site (t w : gten) : Prop := exists a p b m n, gd t = [a; p; b] /\ gd w = [m; p; p; n].
(** an MPO tensor of VMPS and the MPO matrix of operators of DMRG stand for the same operators *)
Definition same_mpo (p : nat) (g : gten) (w : mposite R) : Prop :=
  gd g = [mrows w; p; p; mcols w] /\ forall i j s s', i < mrows w -> j < mcols w -> s < p -> s' < p -> ge g [i; s; s'; j] = mval R r0 w i j s s'.
(** part of a chain: bonds of the MPS from x to y, of the MPO from m to n *)
Definition part (x m : nat) (ts ws : list gten) (y n : nat) : Prop :=
  Forall2 same_site ts ws /\ fit R x (map (ten_of R) ts) y /\ wfit R m (map site_of ws) n.

(** the state of the whole chain that a tensor of one site stands for; H applied to it, projected on the basis of the two bonds.
    (for two sites: [whole] and [projected]) *)
Definition whole1 (tl tr : list (ten R)) (D0 D2 : nat) (x : nat -> nat -> nat -> R) (cl : list nat) (s : nat) (cr : list nat) : R :=
  sumn D0 (fun a => sumn D2 (fun b => mps_mat tl cl 0 a *r x a s b *r mps_mat tr cr b 0)).
Definition projected1 (tl tr : list (ten R)) (wl : list (mposite R)) (w : mposite R) (wr : list (mposite R)) (D0 p D2 : nat)
  (x : nat -> nat -> nat -> R) (a' s' b' : nat) : R :=
  let CL := configs (map (@d1 R) tl) in let CR := configs (map (@d1 R) tr) in
  lsum CL (fun cl' => lsum CR (fun cr' => conj (mps_mat tl cl' 0 a') *r conj (mps_mat tr cr' b' 0) *r
    lsum CL (fun cl => sumn p (fun s => lsum CR (fun cr =>
      mpo_mat (wl ++ [w] ++ wr) (cl ++ [s] ++ cr) (cl' ++ [s'] ++ cr') 0 0 *r whole1 tl tr D0 D2 x cl s cr))))).
(** a two-site tensor followed by a third site *)
Definition with_next (x : gten) (t : gten) (a s1 s2 s3 c : nat) : R := sumn (nth 3 (gd x) 0) (fun b => ge x [a; s1; s2; b] *r ge t [b; s3; c]).

(** sectors of a leg: (first index, number of indices), from their degeneracies *)
Fixpoint sectors (lo : nat) (degs : list nat) : list (nat * nat) :=
  match degs with [] => [] | n :: degs => (lo, n) :: sectors (lo + n) degs end.

(** the factors of a decomposition of [x] after [n] legs multiply to [y] (the exact decomposition: [y] is [x]) *)
Definition factors (svd : nat -> gten -> gten * gten * gten) (n : nat) (x y : gten) : Prop :=
  gd y = gd x /\
  let '(u, s, vt) := svd n x in exists K L, gd u = firstn n (gd x) ++ [K] /\ gd s = [K; L] /\ gd vt = L :: skipn n (gd x) /\
  forall i j, length i = n -> In (i ++ j) (configs (gd x)) -> ge y (i ++ j) = sumn K (fun k => sumn L (fun l => ge u (i ++ [k]) *r ge s [k; l] *r ge vt (l :: j))).
End Spec.
