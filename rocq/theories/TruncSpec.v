(** What a truncation leaves of a state: overlap, norm, bounds of the energy, bond dimensions. *)
From Coq Require Import List Arith Bool QArith Qreals Reals.
From Verif Require Import Base Disk SweepSpec Tdvp TdvpSpec FiniteMps FmpsSpec EffHam EffHamSpec ChainSpec Lanczos Legs VmpsLocal VmpsSpec Cx GVec ChainUpdate DmrgVarSpec ConserveSpec CorrSpec TruncUpdate.
Import ListNotations.
Local Open Scope nat_scope.

(** a decomposition that may drop singular values: the kept part [y] of [x] has isometries on both sides and is orthogonal to the rest;
    <y|y> = (1 - err) <x|x>, and something is kept *)
Definition trunc_gsvd (err : cg -> real) (svd : nat -> cg -> cg * cg * cg) : Prop := forall x D0 p1 p2 D3, cgd x = [D0; p1; p2; D3] ->
  let ip := g_ip (cgd x) in ip (cge x) (cge x) <> c0 ->
  exists y, factors cx c0 cadd cmul svd 2 x (mkG cx (cgd x) y) /\ (let '(u, _, vt) := svd 2 x in cleft (cten_of u) /\ cright (cten_of vt)) /\
  ip y (cge x) = ip y y /\ ip y y = cmul (cre (1 - err x)) (ip (cge x) (cge x)) /\ (0 <= err x < 1)%R.
(** at most [D] singular values are kept *)
Definition capped_gsvd (D : nat) (svd : nat -> cg -> cg * cg * cg) : Prop := forall x D0 p1 p2 D3, cgd x = [D0; p1; p2; D3] ->
  let '(u, _, vt) := svd 2 x in nth 2 (cgd u) 0 <= D /\ nth 0 (cgd vt) 0 <= D.

Section Spec.
Variable N : nat.
Variable ws : nat -> cg.
Variable ds : list nat.
(** <psi|phi> *)
Definition chain_overlap (ts ts' : nat -> cg) : cx := lsum cx c0 cadd (configs ds) (fun c => cmul (cconj (amp N ts c)) (amp N ts' c)).
(** the spectrum of the operator of the chain is not below [lam]: <v|H|v> >= lam <v|v> for every vector *)
Definition bounded_below (lam : real) : Prop := forall v : list nat -> cx,
  (lam * fst (weight ds v) <= fst (lsum cx c0 cadd (configs ds) (fun c' => lsum cx c0 cadd (configs ds) (fun c =>
     cmul (cmul (cconj (v c')) (mpo_mat cx c0 c1 cadd cmul (map csite_of (sites N ws)) c c' 0 0)) (v c)))))%R.
(** dimension of the bond between the sites l and l + 1 *)
Definition bond_dim (ts : nat -> cg) (l : nat) : nat := nth 2 (cgd (ts l)) 0.
(** what an update leaves: the chain [ts'], energy [e] and truncation error [d] of the update, the chain [ph] before the truncation:
    <ts'|ts'> = 1 - d, <ph|ph> = 1, <ph|H|ph> = e, <ts'|ph> = 1 - d *)
Definition left_by (ts' : nat -> cg) (e d : real) (ph : nat -> cg) : Prop :=
  chain N ws ds ts' /\ (0 <= d < 1)%R /\ sq_norm N ts' = cre (1 - d) /\ chain N ws ds ph /\ has_energy N ws ph e /\ chain_overlap ts' ph = cre (1 - d).
(** <psi|psi> is multiplied by [k] *)
Definition scaled (k : real) (ts' ts : nat -> cg) : Prop := (0 < k <= 1)%R /\ sq_norm N ts' = cmul (cre k) (sq_norm N ts).

Variables (stev : list real -> list real -> list real * list real) (maxit : nat) (size : list nat -> nat) (svd : nat -> cg -> cg * cg * cg) (err : cg -> real).
Notation lenv := (left_env (res cg) (res cg) w_triv (w_grow ws)). Notation renv := (right_env (res cg) (res cg) w_triv (w_grow ws) N).
Section Vmps.
Variable close : real -> real -> bool.
(** LAPACK solves the problems along a sequence of updates of bonds *)
Definition bond_lapack (l : nat) (rs : nat -> res cg) : Prop := forall el a b er x, lenv rs l = Ok el -> rs l = Ok a -> rs (l + 1) = Ok b -> renv rs (N - (l + 2)) = Ok er ->
  gcontract cx c0 cadd cmul [2] [0] a b = Ok x -> eig_lapack_ok stev maxit size close (cgd x) (h_two ws l el er (cgd x)) (cge x).
Fixpoint along_lapack (bs : list (bool * nat)) (rs : nat -> res cg) : Prop :=
  match bs with
  | [] => True
  | q :: bs => bond_lapack (snd q) rs /\ along_lapack bs (fst (opt (res cg) (res cg) (res (real * real)) w_triv (w_grow ws) (v_update_e ws stev maxit size svd err close) N q (rs, None)))
  end.
End Vmps.
Section Tdvp.
Variable far : list cx -> list cx -> bool.
Notation evo := (t_evo ws stev maxit size svd far). Notation back := (t_back ws stev maxit size far).
Notation evolve := (evolve (res cg) (res cg) w_triv (w_grow ws) evo back N). Notation after := (after (res cg) (res cg) w_triv (w_grow ws) evo back N).
(** the part of <psi|psi> that the truncation of a substep keeps; of several substeps; of k time steps *)
Definition kept (s : sub) (rs : nat -> res cg) : real :=
  match s with
  | Two _ l t => match t_err ws stev maxit size err far l t (lenv rs l) (rs l) (rs (l + 1)) (renv rs (N - (l + 2))) with Ok e => (1 - e)%R | _ => 0%R end
  | One _ _ => 1%R
  end.
Fixpoint kept_all (ss : list sub) (rs : nat -> res cg) : real :=
  match ss with [] => 1%R | s :: ss => (kept s rs * kept_all ss (evolve rs s))%R end.
Fixpoint kept_steps (tau : Q) (k : nat) (rs : nat -> res cg) : real :=
  match k with O => 1%R | S k => (kept_steps tau k rs * kept_all (schedule N tau) (after tau k rs))%R end.
End Tdvp.
End Spec.
