(** What block operators and the effective Hamiltonian are, in terms of amplitudes: sums over configurations of products of matrices. *)
From Coq Require Import List Arith Bool.
From Verif Require Import Base FiniteMps FmpsSpec EffHam.
Import ListNotations.

Section Spec.
Variables (R : Type) (r0 r1 : R) (radd rmul : R -> R -> R) (conj : R -> R).
Infix "*r" := rmul (at level 40, left associativity).
Notation sumn := (sumn R r0 radd).
(** sum over the elements of a list *)
Definition lsum {A} (l : list A) (f : A -> R) : R := fold_right (fun x s => radd (f x) s) r0 l.
(** all configurations of sites with the given physical dimensions *)
Fixpoint configs (ds : list nat) : list (list nat) :=
  match ds with [] => [[]] | d :: ds => flat_map (fun s => map (cons s) (configs ds)) (seq 0 d) end.
(** element (x, y) of the product of the matrices that a configuration selects: MPS, MPO (null elements are 0) *)
Fixpoint mps_mat (ts : list (ten R)) (c : list nat) (x y : nat) : R :=
  match ts, c with
  | [], [] => delta R r0 r1 x y
  | t :: ts, s :: c => sumn (d2 t) (fun z => el t x s z *r mps_mat ts c z y)
  | _, _ => r0
  end.
Definition mval (w : mposite R) (i j s s' : nat) : R := match ent w i j with Some o => o s s' | None => r0 end.
Fixpoint mpo_mat (ws : list (mposite R)) (c c' : list nat) (x y : nat) : R :=
  match ws, c, c' with
  | [], [], [] => delta R r0 r1 x y
  | w :: ws, s :: c, s' :: c' => sumn (mcols w) (fun z => mval w x z s s' *r mpo_mat ws c c' z y)
  | _, _, _ => r0
  end.
(** MPS tensors and MPO matrices of consecutive sites fit together; every column and row that is used has an element *)
Fixpoint fit (x : nat) (ts : list (ten R)) (y : nat) : Prop := match ts with [] => x = y | t :: ts => d0 t = x /\ fit (d2 t) ts y end.
Fixpoint wfit (x : nat) (ws : list (mposite R)) (y : nat) : Prop := match ws with [] => x = y | w :: ws => mrows w = x /\ wfit (mcols w) ws y end.
Definition cols_used (w : mposite R) : Prop := forall j, j < mcols w -> exists i, i < mrows w /\ ent w i j <> None.
Definition rows_used (w : mposite R) : Prop := forall i, i < mrows w -> exists j, j < mcols w /\ ent w i j <> None.

(** operator of the block of the sites [ts], in the basis of its outer bond *)
Definition left_block (ts : list (ten R)) (ws : list (mposite R)) (i b b' : nat) : R :=
  lsum (configs (map (@d1 R) ts)) (fun c => lsum (configs (map (@d1 R) ts)) (fun c' =>
    mps_mat ts c 0 b *r mpo_mat ws c c' 0 i *r conj (mps_mat ts c' 0 b'))).
Definition right_block (ts : list (ten R)) (ws : list (mposite R)) (i a a' : nat) : R :=
  lsum (configs (map (@d1 R) ts)) (fun c => lsum (configs (map (@d1 R) ts)) (fun c' =>
    mps_mat ts c a 0 *r mpo_mat ws c c' i 0 *r conj (mps_mat ts c' a' 0))).
(** the state of the whole chain that a two-site tensor stands for *)
Definition whole (tl tr : list (ten R)) (D0 D3 : nat) (x : nat -> nat -> nat -> nat -> R) (cl : list nat) (s1 s2 : nat) (cr : list nat) : R :=
  sumn D0 (fun a => sumn D3 (fun b => mps_mat tl cl 0 a *r x a s1 s2 b *r mps_mat tr cr b 0)).
(** H applied to the state of the whole chain, projected on the basis of the two outer bonds: the operator of the whole chain is
    the product of all MPO matrices.  (first configuration: of the state; second: of the result) *)
Definition projected (tl tr : list (ten R)) (wl : list (mposite R)) (w1 w2 : mposite R) (wr : list (mposite R)) (D0 p1 p2 D3 : nat)
  (x : nat -> nat -> nat -> nat -> R) (a' s1' s2' b' : nat) : R :=
  let CL := configs (map (@d1 R) tl) in let CR := configs (map (@d1 R) tr) in
  lsum CL (fun cl' => lsum CR (fun cr' => conj (mps_mat tl cl' 0 a') *r conj (mps_mat tr cr' b' 0) *r
    lsum CL (fun cl => sumn p1 (fun s1 => sumn p2 (fun s2 => lsum CR (fun cr =>
      mpo_mat (wl ++ [w1; w2] ++ wr) (cl ++ [s1; s2] ++ cr) (cl' ++ [s1'; s2'] ++ cr') 0 0 *r whole tl tr D0 D3 x cl s1 s2 cr)))))).
(** expectation value of the operator of the chain in the state of the chain *)
Definition energy (ts : list (ten R)) (ws : list (mposite R)) : R :=
  let CS := configs (map (@d1 R) ts) in
  lsum CS (fun c' => lsum CS (fun c => conj (mps_mat ts c' 0 0) *r mpo_mat ws c c' 0 0 *r mps_mat ts c 0 0)).
(** two neighbouring tensors contracted *)
Definition two_site (t1 t2 : ten R) (a s1 s2 b : nat) : R := sumn (d2 t1) (fun m => el t1 a s1 m *r el t2 m s2 b).
(** inner product of two-site tensors *)
Definition dot4 (D0 p1 p2 D3 : nat) (x y : nat -> nat -> nat -> nat -> R) : R :=
  sumn D0 (fun a => sumn p1 (fun s1 => sumn p2 (fun s2 => sumn D3 (fun b => conj (x a s1 s2 b) *r y a s1 s2 b)))).
End Spec.
