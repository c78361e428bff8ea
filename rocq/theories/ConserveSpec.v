(** What "time evolution keeps norm and energy" and "VMPS never raises the energy" speak about: chains of tensors with legs. *)
From Coq Require Import List Arith Bool QArith Qreals Reals.
From Verif Require Import Base Disk SweepSpec Tdvp TdvpSpec FiniteMps FmpsSpec EffHam EffHamSpec ChainSpec LanczosSpec KrylovSpec Lanczos Legs VmpsLocal VmpsSpec Cx GVec ChainUpdate DmrgVarSpec.
Import ListNotations.
Local Open Scope nat_scope.
Notation cten_of := (ten_of cx). Notation csite_of := (site_of cx). Notation cpart := (part cx).

Section Spec.
Variable N : nat.
Variable ws : nat -> cg.
Variable ds : list nat.           (* physical dimensions *)
(** the tensors of the states and of the MPO fit together; outer bonds have dimension one *)
Definition chain (ts : nat -> cg) : Prop := cpart 1 1 (sites N ts) (sites N ws) 1 1 /\ map (@d1 cx) (map cten_of (sites N ts)) = ds.
Definition hermitian_chain : Prop := hermitian_mpo cx c0 c1 cadd cmul cconj ds (map csite_of (sites N ws)).
(** <psi|psi>, <psi|H|psi> *)
Definition sq_norm (ts : nat -> cg) : cx := cnorm2 (map cten_of (sites N ts)).
Definition energy_val (ts : nat -> cg) : cx := cenergy (map cten_of (sites N ts)) (map csite_of (sites N ws)).
(** canonical form with center c, or with center l or l+1 *)
Definition center_at (c : nat) (ts : nat -> cg) : Prop := centered N c (fun i => cten_of (ts i)).
Definition mixed_at (l : nat) (ts : nat -> cg) : Prop := cmixed N (fun i => cten_of (ts i)) l.
(** <psi|H|psi> / <psi|psi>; [e] is the energy of the normalized chain *)
Definition energy_ratio (ts : nat -> cg) : real := (fst (energy_val ts) / fst (sq_norm ts))%R.
Definition has_energy (ts : nat -> cg) (e : real) : Prop := sq_norm ts = c1 /\ energy_val ts = cre e.
(** the tensors of a run, none of which is undefined, are [ts] *)
Definition holds (rs : nat -> res cg) (ts : nat -> cg) : Prop := forall i, i < N -> rs i = Ok (ts i).
(** a decomposition of states of two sites without truncation *)
Definition exact_gsvd (svd : nat -> cg -> cg * cg * cg) : Prop := forall x D0 p1 p2 D3, cgd x = [D0; p1; p2; D3] ->
  factors cx c0 cadd cmul svd 2 x x /\ let '(u, _, vt) := svd 2 x in cleft (cten_of u) /\ cright (cten_of vt).
(** a QR decomposition of tensors of one site, the first two legs are the rows *)
Definition exact_qr (qr : nat -> cg -> cg * cg) : Prop := forall x a p b, cgd x = [a; p; b] -> let (q, r) := qr 2 x in
  exists K, cgd q = [a; p; K] /\ cgd r = [K; b] /\ cleft (cten_of q) /\
  forall i j k, i < a -> j < p -> k < b -> cge x [i; j; k] = sumn cx c0 cadd K (fun m => cmul (cge q [i; j; m]) (cge r [m; k])).

Variables (stev : list real -> list real -> list real * list real) (maxit : nat) (size : list nat -> nat) (svd : nat -> cg -> cg * cg * cg).
(** LAPACK solves the eigenvalue problems that occur while the exponential of the operator [mul] acts on [v] (vectors with legs [ls]) *)
Definition exp_lapack_ok (far : list cx -> list cx -> bool) (ls : list nat) (mul : cvec -> cvec) (t : Q) (v : cvec) : Prop :=
  forall r g, g_expmv ls mul stev (Q2R t) far maxit (size ls) v = Ok (r, g) ->
  let lc2 := g_lc2 (fun x => x) in
  lapack_ok 0%R 1%R Rplus Rmult Rle stev (als real cvec 0%R mul (g_dot ls) g_lc1 lc2 (g_normalize ls) (fun x => x) v)
    (bes real cvec 0%R mul (g_dot ls) g_lc1 lc2 (g_normalize ls) (fun x => x) v) (xiters r).
Definition eig_lapack_ok (close : real -> real -> bool) (ls : list nat) (mul : cvec -> cvec) (v : cvec) : Prop :=
  forall r g, g_lanczos ls mul stev close maxit (size ls) v = Ok (r, g) ->
  let lc2 := g_lc2 sqrt in
  lapack_ok 0%R 1%R Rplus Rmult Rle stev (als real cvec 0%R mul (g_dot ls) g_lc1 lc2 (g_normalize ls) (fun x => (x * x)%R) v)
    (bes real cvec 0%R mul (g_dot ls) g_lc1 lc2 (g_normalize ls) (fun x => (x * x)%R) v) (iters real r).
Notation lenv := (left_env (res cg) (res cg) w_triv (w_grow ws)). Notation renv := (right_env (res cg) (res cg) w_triv (w_grow ws) N).
Section Tdvp.
Variable far : list cx -> list cx -> bool.
Notation evolve := (evolve (res cg) (res cg) w_triv (w_grow ws) (t_evo ws stev maxit size svd far) (t_back ws stev maxit size far) N).
(** at a substep from the tensors [rs] *)
Definition sub_lapack (s : sub) (rs : nat -> res cg) : Prop :=
  match s with
  | Two _ l t => forall el a b er x, lenv rs l = Ok el -> rs l = Ok a -> rs (l + 1) = Ok b -> renv rs (N - (l + 2)) = Ok er ->
      gcontract cx c0 cadd cmul [2] [0] a b = Ok x -> exp_lapack_ok far (cgd x) (h_two ws l el er (cgd x)) t (cge x)
  | One j t => forall el a er, lenv rs j = Ok el -> rs j = Ok a -> renv rs (N - 1 - j) = Ok er ->
      exp_lapack_ok far (cgd a) (h_one ws j el er (cgd a)) t (cge a)
  end.
Fixpoint subs_lapack (ss : list sub) (rs : nat -> res cg) : Prop :=
  match ss with [] => True | s :: ss => sub_lapack s rs /\ subs_lapack ss (evolve rs s) end.
(** in k time steps *)
Fixpoint steps_lapack (tau : Q) (k : nat) (rs : nat -> res cg) : Prop :=
  match k with
  | O => True
  | S k => steps_lapack tau k rs /\
      subs_lapack (schedule N tau) (after (res cg) (res cg) w_triv (w_grow ws) (t_evo ws stev maxit size svd far) (t_back ws stev maxit size far) N tau k rs)
  end.
End Tdvp.
Section Vmps.
Variable close : real -> real -> bool.
Notation opt := (opt (res cg) (res cg) (res real) w_triv (w_grow ws) (v_update ws stev maxit size svd close) N).
(** along a sequence of updates of bonds *)
Fixpoint opts_lapack (bs : list (bool * nat)) (s : (nat -> res cg) * option (res real)) : Prop :=
  match bs with
  | [] => True
  | q :: bs => let l := snd q in let rs := fst s in
      (forall el a b er x, lenv rs l = Ok el -> rs l = Ok a -> rs (l + 1) = Ok b -> renv rs (N - (l + 2)) = Ok er ->
         gcontract cx c0 cadd cmul [2] [0] a b = Ok x -> eig_lapack_ok close (cgd x) (h_two ws l el er (cgd x)) (cge x)) /\ opts_lapack bs (opt q s)
  end.
End Vmps.
End Spec.
