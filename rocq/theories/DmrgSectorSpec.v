(** Symmetry sectors for DMRG: block form of chains and of the decompositions of a run; totals and sectors are those of [SectorSpec]. *)
From Coq Require Import List Arith Bool Reals.
From Verif Require Import Base Disk SweepSpec FiniteMps FmpsSpec EffHam EffHamSpec ChainSpec Lanczos Cx DmrgUpdate DmrgVarSpec DmrgTrunc DmrgTruncSpec SectorSpec.
Import ListNotations.
Local Open Scope nat_scope.

Section Spec.
Variables (G : Type) (q0 : G) (qadd : G -> G -> G).
Variable ch : nat -> nat -> G.                                (* quantum number of the state s of site i *)
Variable N : nat.
Variable ws : nat -> cmpo.
Variable ds : list nat.
(** matrix elements between configurations with different quantum numbers vanish *)
Definition d_conserving : Prop := forall c c', In c (configs ds) -> In c' (configs ds) ->
  mpo_mat cx c0 c1 cadd cmul (sites N ws) c c' 0 0 <> c0 -> total G q0 qadd ch 0 c = total G q0 qadd ch 0 c'.
(** no state with the quantum number [q] has an energy below [lam] *)
Definition d_sector_bounded (q : G) (lam : real) : Prop := forall v : list nat -> cx, in_sector G q0 qadd ch ds q v ->
  (lam * fst (lsum cx c0 cadd (configs ds) (fun c => cmul (cconj (v c)) (v c))) <= fst (lsum cx c0 cadd (configs ds) (fun c' => lsum cx c0 cadd (configs ds) (fun c =>
     cmul (cmul (cconj (v c')) (mpo_mat cx c0 c1 cadd cmul (sites N ws) c c' 0 0)) (v c)))))%R.

(** bond indices carry quantum numbers ([bl] left, [br] right); an element does not vanish only if those of its indices add up *)
Definition d_lab3 (bl : nat -> G) (i : nat) (br : nat -> G) (t : cten) : Prop := forall a s b,
  a < d0 t -> s < d1 t -> b < d2 t -> el t a s b <> c0 -> qadd (bl a) (ch i s) = br b.
Definition d_lab4 (bl : nat -> G) (i : nat) (br : nat -> G) (D0 p1 p2 D3 : nat) (x : cten4) : Prop := forall a s t b,
  a < D0 -> s < p1 -> t < p2 -> b < D3 -> x a s t b <> c0 -> qadd (qadd (bl a) (ch i s)) (ch (i + 1) t) = br b.
(** a chain of such tensors; [be i]: the quantum numbers of the bond left of site i; [q]: what the whole chain adds *)
Definition d_blocks (be : nat -> nat -> G) (q : G) (ts : nat -> cten) : Prop :=
  (forall i, i < N -> d_lab3 (be i) i (be (i + 1)) (ts i)) /\ qadd (be 0 0) q = be N 0.
(** QR decompositions and combiners that keep this form: the bond between the two tensors gets new quantum numbers *)
Definition block_move (f : cten -> cten -> cten * cten) : Prop := forall bl m br i a b, d2 a = d0 b -> d_lab3 bl i m a -> d_lab3 m (i + 1) br b ->
  exists m', d_lab3 bl i m' (fst (f a b)) /\ d_lab3 m' (i + 1) br (snd (f a b)).

Variable svd : nat -> nat -> nat -> nat -> cten4 -> cten * (nat -> nat -> cx) * cten.
(** the factors of the tensor [x] of the sites i, i + 1 have the same structure; [m], [m']: quantum numbers of the two new indices *)
Definition d_keeps (bl : nat -> G) (i : nat) (br : nat -> G) (D0 p1 p2 D3 : nat) (x : cten4) (m m' : nat -> G) : Prop :=
  let '(u, s, vt) := svd D0 p1 p2 D3 x in d_lab3 bl i m u /\ d_lab3 m' (i + 1) br vt /\
  (forall k k', k < d2 u -> k' < d0 vt -> s k k' <> c0 -> m k = m' k').
Definition d_block_svd : Prop := forall bl i br D0 p1 p2 D3 x, v_ip D0 p1 p2 D3 x x <> c0 -> d_lab4 bl i br D0 p1 p2 D3 x -> exists m m', d_keeps bl i br D0 p1 p2 D3 x m m'.

Variables (stev : list real -> list real -> list real * list real) (close : real -> real -> bool) (maxit : nat) (size : nat -> nat -> nat -> nat -> nat).
Variable err : nat -> nat -> nat -> nat -> cten4 -> real.
Notation trivs := (fun s : side => triv_group cx c1).
Notation lenv := (left_env cten (list cop) trivs (d_grow ws)). Notation renv := (right_env cten (list cop) trivs (d_grow ws) N).
(** the tensor that an update decomposes *)
Definition d_solved (l : nat) (gl : list cop) (t1 t2 : cten) (gr : list cop) : res cten4 :=
  let mul := fun x => match d_mul ws l gl gr t1 t2 x with Ok y => y | _ => x end in
  let! (_, g) := v_lanczos (d0 t1) (d1 t1) (d1 t2) (d2 t2) mul stev close maxit (size (d0 t1) (d1 t1) (d1 t2) (d2 t2)) (d_init t1 t2) in Ok g.
(** the decompositions along a sequence of updates keep the quantum numbers of the bonds, which are [be] at the start *)
Fixpoint d_along (bs : list (bool * nat)) (ts : nat -> cten) (be : nat -> nat -> G) : Prop :=
  match bs with
  | [] => True
  | (rt, l) :: bs => let D0 := d0 (ts l) in let p1 := d1 (ts l) in let p2 := d1 (ts (l + 1)) in let D3 := d2 (ts (l + 1)) in
      forall x, d_solved l (lenv ts l) (ts l) (ts (l + 1)) (renv ts (N - (l + 2))) = Ok x -> v_ip D0 p1 p2 D3 x x <> c0 -> d_lab4 (be l) l (be (l + 2)) D0 p1 p2 D3 x ->
      exists m m', d_keeps (be l) l (be (l + 2)) D0 p1 p2 D3 x m m' /\
      d_along bs (fst (opt cten (list cop) (res (real * real)) trivs (d_grow ws) (d_update_e ws stev close maxit size svd err) N (rt, l) (ts, None))) (fset be (l + 1) (if rt then m else m'))
  end.
End Spec.
