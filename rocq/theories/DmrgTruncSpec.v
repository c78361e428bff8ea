(** What a DMRG update with truncation leaves: overlap, norm, energy, bond dimensions. *)
From Coq Require Import List Arith Bool Reals.
From Verif Require Import Base Disk SweepSpec FiniteMps FmpsSpec EffHam EffHamSpec ChainSpec LanczosSpec KrylovSpec Lanczos Cx DmrgUpdate DmrgVarSpec DmrgTrunc.
Import ListNotations.

(** an SVD that may drop singular values: u has orthonormal columns, vt orthonormal rows; the part y = u s vt of g that is kept is orthogonal to the rest;
    <y|y> = (1 - err) <g|g>, and something is kept *)
Definition trunc_svd (err : nat -> nat -> nat -> nat -> cten4 -> real) (svd : nat -> nat -> nat -> nat -> cten4 -> cten * (nat -> nat -> cx) * cten) : Prop :=
  forall D0 p1 p2 D3 g, let ip := v_ip D0 p1 p2 D3 in ip g g <> c0 -> let '(u, s, vt) := svd D0 p1 p2 D3 g in let d := err D0 p1 p2 D3 g in
    d0 u = D0 /\ d1 u = p1 /\ d1 vt = p2 /\ d2 vt = D3 /\ cleft u /\ cright vt /\
    let y := fun a s1 s2 b => FmpsSpec.sumn cx c0 cadd (d2 u) (fun k => FmpsSpec.sumn cx c0 cadd (d0 vt) (fun m => cmul (cmul (el u a s1 k) (s k m)) (el vt m s2 b))) in
    ip y g = ip y y /\ ip y y = cmul (cre (1 - d)) (ip g g) /\ (0 <= d < 1)%R.
(** at most [D] singular values are kept *)
Definition capped_svd (D : nat) (svd : nat -> nat -> nat -> nat -> cten4 -> cten * (nat -> nat -> cx) * cten) : Prop :=
  forall D0 p1 p2 D3 g, let '(u, _, vt) := svd D0 p1 p2 D3 g in d2 u <= D /\ d0 vt <= D.
(** a QR decomposition does not make more columns than the matrix has rows or columns; a combiner has one column for each row *)
Definition thin_right (f : cten -> cten -> cten * cten) : Prop := forall a b, d2 (fst (f a b)) <= d0 a * d1 a.
Definition thin_left (f : cten -> cten -> cten * cten) : Prop := forall a b, d0 (snd (f a b)) <= d1 b * d2 b /\ d0 (snd (f a b)) <= d0 b.
Definition full_right (f : cten -> cten -> cten * cten) : Prop := forall a b, d2 (fst (f a b)) = d0 a * d1 a.
Definition full_left (f : cten -> cten -> cten * cten) : Prop := forall a b, d0 (snd (f a b)) = d1 b * d2 b.

Section Spec.
Variable N : nat.
Variable ws : nat -> cmpo.
Variable ds : list nat.
Definition coef (ts : nat -> cten) (c : list nat) : cx := mps_mat cx c0 c1 cadd cmul (sites N ts) c 0 0.
(** <psi|phi> *)
Definition braket (ts ts' : nat -> cten) : cx := lsum cx c0 cadd (configs ds) (fun c => cmul (cconj (coef ts c)) (coef ts' c)).
(** <v|H|v> >= lam <v|v> for every vector *)
Definition spectrum_above (lam : real) : Prop := forall v : list nat -> cx,
  (lam * fst (lsum cx c0 cadd (configs ds) (fun c => cmul (cconj (v c)) (v c))) <= fst (lsum cx c0 cadd (configs ds) (fun c' => lsum cx c0 cadd (configs ds) (fun c =>
     cmul (cmul (cconj (v c')) (mpo_mat cx c0 c1 cadd cmul (sites N ws) c c' 0 0)) (v c)))))%R.
(** what an update leaves: the chain [ts'], energy [e] and truncation error [d] of the update, the chain [ph] before the truncation:
    <ts'|ts'> = 1 - d, <ph|ph> = 1, <ph|H|ph> = e, <ts'|ph> = 1 - d *)
Definition truncated (ts' : nat -> cten) (e d : real) (ph : nat -> cten) : Prop :=
  on_sites N ds ts' /\ (0 <= d < 1)%R /\ cnorm2 (sites N ts') = cre (1 - d) /\ on_sites N ds ph /\ energy_of N ws ph e /\ braket ts' ph = cre (1 - d).

Variables (stev : list real -> list real -> list real * list real) (close : real -> real -> bool) (maxit : nat) (size : nat -> nat -> nat -> nat -> nat).
Variables (svd : nat -> nat -> nat -> nat -> cten4 -> cten * (nat -> nat -> cx) * cten) (err : nat -> nat -> nat -> nat -> cten4 -> real).
Notation trivs := (fun s : side => triv_group cx c1).
Notation lenv := (left_env cten (list cop) trivs (d_grow ws)). Notation renv := (right_env cten (list cop) trivs (d_grow ws) N).
Notation opt := (opt cten (list cop) (res (real * real)) trivs (d_grow ws) (d_update_e ws stev close maxit size svd err) N).
(** LAPACK solves the problems along a sequence of updates *)
Fixpoint lapack_trunc (bs : list (bool * nat)) (s : (nat -> cten) * option (res (real * real))) : Prop :=
  match bs with
  | [] => True
  | b :: bs => let l := snd b in let ts := fst s in
      lapack_at ws stev close maxit size l (lenv ts l) (renv ts (N - (l + 2))) (ts l) (ts (l + 1)) /\ lapack_trunc bs (opt b s)
  end.
End Spec.
(** |Re <v|H|w>| <= h |v| |w| for all vectors *)
Definition op_bound (N : nat) (ws : nat -> cmpo) (ds : list nat) (h : real) : Prop := forall v w : list nat -> cx,
  (Rabs (fst (lsum cx c0 cadd (configs ds) (fun c' => lsum cx c0 cadd (configs ds) (fun c => cmul (cmul (cconj (v c')) (mpo_mat cx c0 c1 cadd cmul (sites N ws) c c' 0 0)) (w c))))) <=
   h * (sqrt (fst (lsum cx c0 cadd (configs ds) (fun c => cmul (cconj (v c)) (v c)))) * sqrt (fst (lsum cx c0 cadd (configs ds) (fun c => cmul (cconj (w c)) (w c))))))%R.
