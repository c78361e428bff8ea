(** Symmetry sectors: total quantum numbers, operators that conserve them, tensors whose elements vanish outside allowed blocks, decompositions that work block by block. *)
From Coq Require Import List Arith Bool QArith Qreals Reals.
From Verif Require Import Base Disk SweepSpec Tdvp TdvpSpec FiniteMps FmpsSpec EffHam EffHamSpec ChainSpec Lanczos Legs VmpsLocal VmpsSpec Cx GVec ChainUpdate DmrgVarSpec ConserveSpec CorrSpec TruncUpdate TruncSpec.
Import ListNotations.
Local Open Scope nat_scope.

(** quantum numbers (U(1), Z_n and their products) form a group *)
Record q_group {G : Type} (q0 : G) (qadd : G -> G -> G) (qopp : G -> G) : Prop := {
  qg_assoc : forall a b c, qadd a (qadd b c) = qadd (qadd a b) c;
  qg_l : forall a, qadd q0 a = a;
  qg_r : forall a, qadd a q0 = a;
  qg_inv_l : forall a, qadd (qopp a) a = q0;
  qg_inv_r : forall a, qadd a (qopp a) = q0 }.

Section Spec.
Variables (G : Type) (q0 : G) (qadd : G -> G -> G).
Variable ch : nat -> nat -> G.                                (* quantum number of the state s of site i *)
(** quantum number of a configuration of the sites i, i + 1, ... *)
Fixpoint total (i : nat) (c : list nat) : G := match c with [] => q0 | s :: c => qadd (ch i s) (total (S i) c) end.

Section Chain.
Variable N : nat.
Variable ws : nat -> cg.
Variable ds : list nat.
(** the operator of the chain conserves the total quantum number *)
Definition conserving : Prop := forall c c', In c (configs ds) -> In c' (configs ds) ->
  mpo_mat cx c0 c1 cadd cmul (map csite_of (sites N ws)) c c' 0 0 <> c0 -> total 0 c = total 0 c'.
(** a state has the quantum number [q] *)
Definition in_sector (q : G) (v : list nat -> cx) : Prop := forall c, In c (configs ds) -> v c <> c0 -> total 0 c = q.
(** no state with the quantum number [q] has an energy below [lam] *)
Definition sector_bounded (q : G) (lam : real) : Prop := forall v : list nat -> cx, in_sector q v ->
  (lam * fst (weight ds v) <= fst (lsum cx c0 cadd (configs ds) (fun c' => lsum cx c0 cadd (configs ds) (fun c =>
     cmul (cmul (cconj (v c')) (mpo_mat cx c0 c1 cadd cmul (map csite_of (sites N ws)) c c' 0 0)) (v c)))))%R.

(** bond indices carry quantum numbers ([bl] left, [br] right); an element does not vanish only if those of its indices add up *)
Definition labelled3 (bl : nat -> G) (i : nat) (br : nat -> G) (t : cg) : Prop := forall a s b,
  a < nth 0 (cgd t) 0 -> s < nth 1 (cgd t) 0 -> b < nth 2 (cgd t) 0 -> cge t [a; s; b] <> c0 -> qadd (bl a) (ch i s) = br b.
Definition labelled4 (bl : nat -> G) (i : nat) (br : nat -> G) (x : cg) : Prop := forall a s t b,
  a < nth 0 (cgd x) 0 -> s < nth 1 (cgd x) 0 -> t < nth 2 (cgd x) 0 -> b < nth 3 (cgd x) 0 -> cge x [a; s; t; b] <> c0 -> qadd (qadd (bl a) (ch i s)) (ch (i + 1) t) = br b.
(** a chain of such tensors; [be i]: the quantum numbers of the bond left of site i; [q]: what the whole chain adds *)
Definition blocks (be : nat -> nat -> G) (q : G) (ts : nat -> cg) : Prop :=
  (forall i, i < N -> labelled3 (be i) i (be (i + 1)) (ts i)) /\ qadd (be 0 0) q = be N 0.

Variable svd : nat -> cg -> cg * cg * cg.
(** the factors of the tensor [x] of the sites i, i + 1 have the same structure; [m], [m']: quantum numbers of the two new indices *)
Definition keeps_labels (bl : nat -> G) (i : nat) (br : nat -> G) (x : cg) (m m' : nat -> G) : Prop :=
  let '(u, s, vt) := svd 2 x in labelled3 bl i m u /\ labelled3 m' (i + 1) br vt /\
  (forall k k', k < nth 0 (cgd s) 0 -> k' < nth 1 (cgd s) 0 -> cge s [k; k'] <> c0 -> m k = m' k').
(** a decomposition that does so for all tensors that do not vanish and all quantum numbers *)
Definition live (x : cg) : Prop := length (cgd x) = 4 /\ g_ip (cgd x) (cge x) (cge x) <> c0.
Definition block_svd : Prop := forall bl i br x, live x -> labelled4 bl i br x -> exists m m', keeps_labels bl i br x m m'.

Variables (stev : list real -> list real -> list real * list real) (maxit : nat) (size : list nat -> nat) (err : cg -> real).
Notation lenv := (left_env (res cg) (res cg) w_triv (w_grow ws)). Notation renv := (right_env (res cg) (res cg) w_triv (w_grow ws) N).
Section Vmps.
Variable close : real -> real -> bool.
(** the tensor that an update decomposes *)
Definition v_solved (l : nat) (el a b er : res cg) : res cg :=
  let! el := el in let! a := a in let! b := b in let! er := er in
  let! x := gcontract cx c0 cadd cmul [2] [0] a b in
  let! (_, g) := g_lanczos (cgd x) (h_two ws l el er (cgd x)) stev close maxit (size (cgd x)) (cge x) in
  Ok (mkG cx (cgd x) g).
(** the decompositions along a sequence of updates keep the quantum numbers of the bonds, which are [be] at the start *)
Fixpoint along_blocks (bs : list (bool * nat)) (rs : nat -> res cg) (be : nat -> nat -> G) : Prop :=
  match bs with
  | [] => True
  | (rt, l) :: bs => forall x, v_solved l (lenv rs l) (rs l) (rs (l + 1)) (renv rs (N - (l + 2))) = Ok x -> live x -> labelled4 (be l) l (be (l + 2)) x ->
      exists m m', keeps_labels (be l) l (be (l + 2)) x m m' /\
      along_blocks bs (fst (opt (res cg) (res cg) (res (real * real)) w_triv (w_grow ws) (v_update_e ws stev maxit size svd err close) N (rt, l) (rs, None))) (fset be (l + 1) (if rt then m else m'))
  end.
End Vmps.
Section Tdvp.
Variable far : list cx -> list cx -> bool.
Definition t_solved (l : nat) (t : Q) (el a b er : res cg) : res cg :=
  let! el := el in let! a := a in let! b := b in let! er := er in
  let! x := gcontract cx c0 cadd cmul [2] [0] a b in
  let! (_, g) := g_expmv (cgd x) (h_two ws l el er (cgd x)) stev (Q2R t) far maxit (size (cgd x)) (cge x) in
  Ok (mkG cx (cgd x) g).
Notation evolve := (evolve (res cg) (res cg) w_triv (w_grow ws) (t_evo ws stev maxit size svd far) (t_back ws stev maxit size far) N).
Fixpoint along_subs (ss : list sub) (rs : nat -> res cg) (be : nat -> nat -> G) : Prop :=
  match ss with
  | [] => True
  | Two rt l t :: ss => forall x, t_solved l t (lenv rs l) (rs l) (rs (l + 1)) (renv rs (N - (l + 2))) = Ok x -> live x -> labelled4 (be l) l (be (l + 2)) x ->
      exists m m', keeps_labels (be l) l (be (l + 2)) x m m' /\ along_subs ss (evolve rs (Two rt l t)) (fset be (l + 1) (if rt then m else m'))
  | One j t :: ss => along_subs ss (evolve rs (One j t)) be
  end.
(** the substeps of k time steps *)
Definition substeps (tau : Q) (k : nat) : list sub := concat (repeat (schedule N tau) k).
End Tdvp.
(** a QR decomposition that keeps quantum numbers, those of the right index of [x] counted from the right end of the chain (transposed tensors) *)
Definition block_qr (qr : nat -> cg -> cg * cg) : Prop := forall (bl : nat -> G) i br x D p D2, cgd x = [D2; p; D] ->
  (forall a s b, a < D -> s < p -> b < D2 -> cge x [b; s; a] <> c0 -> qadd (bl a) (ch i s) = br b) ->
  exists m, let (q, r) := qr 2 x in
  (forall k s b, k < nth 2 (cgd q) 0 -> s < p -> b < D2 -> cge q [b; s; k] <> c0 -> qadd (m k) (ch i s) = br b) /\
  (forall k a, k < nth 2 (cgd q) 0 -> a < D -> cge r [k; a] <> c0 -> bl a = m k).
End Chain.
End Spec.
