(** What "the energy never rises" needs of the MPO, of the chain and of LAPACK. *)
From Coq Require Import List Arith Bool Reals.
From Verif Require Import Base Disk SweepSpec FiniteMps FmpsSpec EffHam EffHamSpec ChainSpec LanczosSpec KrylovSpec Lanczos Cx DmrgUpdate.
Import ListNotations.

Notation cnorm2 := (norm2 cx c0 c1 cadd cmul cconj). Notation cenergy := (EffHamSpec.energy cx c0 c1 cadd cmul cconj).
Notation cmixed := (mixed cx c0 c1 cadd cmul cconj). Notation csame := (same_state cx c0 c1 cadd cmul).
Notation cleft := (left_canonical cx c0 c1 cadd cmul cconj). Notation cright := (right_canonical cx c0 c1 cadd cmul cconj).
Section Spec.
Variable N : nat.
Variable ws : nat -> cmpo.
Variable ds : list nat.           (* physical dimensions *)
(** the matrices fit together, no used row or column is empty, and the operator of the chain is Hermitian *)
Record proper_mpo : Prop := {
  pm_fit : wfit cx 1 (sites N ws) 1;
  pm_cols : forall i, cols_used cx (ws i); pm_rows : forall i, rows_used cx (ws i);
  pm_pos : forall i, i + 1 < N -> 0 < mcols (ws i);
  pm_herm : hermitian_mpo cx c0 c1 cadd cmul cconj ds (sites N ws) }.
(** bonds of neighbours agree, outer bonds have dimension one *)
Definition on_sites (ts : nat -> cten) : Prop := fit cx 1 (sites N ts) 1 /\ map (@d1 cx) (sites N ts) = ds.
(** canonical form with center c *)
Definition centered (c : nat) (ts : nat -> cten) : Prop := (forall i, i < c -> cleft (ts i)) /\ (forall i, c < i < N -> cright (ts i)).
(** <psi|H|psi> / <psi|psi> *)
Definition expect (ts : nat -> cten) : real := (fst (cenergy (sites N ts) (sites N ws)) / fst (cnorm2 (sites N ts)))%R.
Definition normalized (ts : nat -> cten) : Prop := cnorm2 (sites N ts) = c1.
Definition nonzero (ts : nat -> cten) : Prop := cnorm2 (sites N ts) <> c0.
(** the energy [e] is the one of the chain, and the chain is normalized *)
Definition energy_of (ts : nat -> cten) (e : real) : Prop := normalized ts /\ cenergy (sites N ts) (sites N ws) = cre e.

Variables (stev : list real -> list real -> list real * list real) (close : real -> real -> bool) (maxit : nat) (size : nat -> nat -> nat -> nat -> nat).
(** the eigensystems that LAPACK returns while the update of bond l from the chain [ts] runs are correct *)
Definition lapack_at (l : nat) (gl gr : list cop) (t1 t2 : cten) : Prop :=
  let mul := fun x => match d_mul ws l gl gr t1 t2 x with Ok y => y | _ => x end in
  let n := v_normalize (d0 t1) (d1 t1) (d1 t2) (d2 t2) in let dot := v_dot (d0 t1) (d1 t1) (d1 t2) (d2 t2) in let v := d_init t1 t2 in
  forall r g, v_lanczos (d0 t1) (d1 t1) (d1 t2) (d2 t2) mul stev close maxit (size (d0 t1) (d1 t1) (d1 t2) (d2 t2)) v = Ok (r, g) ->
  lapack_ok 0%R 1%R Rplus Rmult Rle stev (als real cten4 0%R mul dot v_lc1 v_lc2 n (fun x => (x * x)%R) v) (bes real cten4 0%R mul dot v_lc1 v_lc2 n (fun x => (x * x)%R) v) (iters real r).
Variable split : bool -> nat -> nat -> nat -> nat -> cten4 -> cten * cten.
Notation trivs := (fun s : side => triv_group cx c1).
Notation upd := (d_update ws stev close maxit size split).
Notation lenv := (left_env cten (list cop) trivs (d_grow ws)). Notation renv := (right_env cten (list cop) trivs (d_grow ws) N).
Notation opt := (opt cten (list cop) (res real) trivs (d_grow ws) upd N).
(** along a sequence of updates *)
Fixpoint lapack_along (bs : list (bool * nat)) (s : (nat -> cten) * option (res real)) : Prop :=
  match bs with
  | [] => True
  | b :: bs => let l := snd b in let ts := fst s in
      lapack_at l (lenv ts l) (renv ts (N - (l + 2))) (ts l) (ts (l + 1)) /\ lapack_along bs (opt b s)
  end.
End Spec.
(** all the updates of n sweeps *)
Definition all_bonds (lb rb n : nat) : list (bool * nat) := concat (repeat (bonds lb rb) n).
