(** Properties C62 to C64: the local steps of the VMPS algorithms. *)
From Coq Require Import List Arith Lia Bool ZArith Ring Permutation.
From Verif Require Import Base FiniteMps FmpsSpec FmpsFacts FmpsInst EffHam EffHamSpec EffHamFacts EffHamInst FinMpo FinMpoSpec Legs VmpsLocal VmpsSpec VmpsEnv VmpsHeff VmpsShift VmpsState VmpsTasks VmpsDmrg VmpsInst.
Import ListNotations.
Local Open Scope nat_scope.

Section Vmps.
Variables (R : Type) (r0 r1 : R) (radd rmul rsub : R -> R -> R) (ropp conj : R -> R).
Hypothesis Rth : ring_theory r0 r1 radd rmul rsub ropp (@eq R).
Hypothesis conj0 : conj r0 = r0.
Hypothesis conj1 : conj r1 = r1.
Hypothesis conj_add : forall x y, conj (radd x y) = radd (conj x) (conj y).
Hypothesis conj_mul : forall x y, conj (rmul x y) = rmul (conj x) (conj y).
Infix "*r" := rmul (at level 40, left associativity).
Notation gten := (gten R). Notation gd := (gd R). Notation ge := (ge R). Notation ten_of := (ten_of R). Notation site_of := (site_of R).
Notation sumn := (sumn R r0 radd). Notation mps_mat := (mps_mat R r0 r1 radd rmul). Notation whole := (whole R r0 r1 radd rmul).
Notation left_env := (lenvs_from R r0 radd rmul conj (trivial_env R r0 r1 1 1)). Notation right_env := (renvs_from R r0 radd rmul conj (trivial_env R r0 r1 1 1)).
Notation mul2 := (mul2 R r0 radd rmul). Notation mul1 := (mul1 R r0 radd rmul).
Notation update_lenv := (update_lenv R r0 radd rmul conj). Notation update_renv := (update_renv R r0 radd rmul conj).
Notation energy := (energy R r0 r1 radd rmul conj).
Notation expand1_r := (expand1_r R r0 radd rmul). Notation expand1_l := (expand1_l R r0 radd rmul). Notation expand2_l := (expand2_l R r0 radd rmul).
Notation expand2_r := (expand2_r R r0 radd rmul).
Notation factors := (factors R r0 radd rmul). Notation split2 := (split2 R r0 radd rmul). Notation split1 := (split1 R r0 radd rmul).
(** a chain of tensors is a state of sites of dimensions [ds]; its amplitudes *)
Notation on := (fun ds ts => state_on R ds (map ten_of ts)). Notation amp := (fun ts => amp R r0 r1 radd rmul (map ten_of ts)).

(** ** C62: what the environments and effective Hamiltonians are *)
(** every cut around two sites, every two-site tensor: the environments exist, and the effective Hamiltonian applied to the tensor is the
    operator of the whole chain applied to the state that the tensor stands for, in the basis of the two outer bonds *)
Theorem C62_two_site_effective_hamiltonian : forall tl tr wl wr w1 w2 D0 p1 p2 D3, cut2 R tl tr wl wr w1 w2 D0 p1 p2 D3 ->
  exists l r, left_env tl wl = Ok l /\ right_env tr wr = Ok r /\
  forall x, gd x = [D0; p1; p2; D3] -> exists y, mul2 l w1 w2 r x = Ok y /\ gd y = gd x /\
  forall a' s1' s2' b', a' < D0 -> b' < D3 ->
    ge y [a'; s1'; s2'; b'] = projected R r0 r1 radd rmul conj (map ten_of tl) (map ten_of tr) (map site_of wl) (site_of w1) (site_of w2) (map site_of wr) D0 p1 p2 D3 (elems4 R x) a' s1' s2' b'.
Proof. exact (mul2_projected R r0 r1 radd rmul rsub ropp Rth conj conj0 conj1 conj_add conj_mul). Qed.
(** the same around one site *)
Theorem C62_single_site_effective_hamiltonian : forall tl tr wl wr w D0 p D2, cut1 R tl tr wl wr w D0 p D2 ->
  exists l r, left_env tl wl = Ok l /\ right_env tr wr = Ok r /\
  forall x, gd x = [D0; p; D2] -> exists y, mul1 l w r x = Ok y /\ gd y = gd x /\
  forall a' s' b', a' < D0 -> b' < D2 ->
    ge y [a'; s'; b'] = projected1 R r0 r1 radd rmul conj (map ten_of tl) (map ten_of tr) (map site_of wl) (site_of w) (map site_of wr) D0 p D2 (elems3 R x) a' s' b'.
Proof. exact (mul1_projected R r0 r1 radd rmul rsub ropp Rth conj conj0 conj1 conj_add conj_mul). Qed.
(** the energies computed at any cut are the expectation value of the whole chain *)
Theorem C62_energy_any_two_sites : forall tl t1 t2 tr wl w1 w2 wr D0 p1 D p2 D3, cut2 R tl tr wl wr w1 w2 D0 p1 p2 D3 -> gd t1 = [D0; p1; D] -> gd t2 = [D; p2; D3] ->
  exists l r, left_env tl wl = Ok l /\ right_env tr wr = Ok r /\
  energy2 R r0 radd rmul conj l w1 w2 r t1 t2 = Ok (energy (map ten_of (tl ++ [t1; t2] ++ tr)) (map site_of (wl ++ [w1; w2] ++ wr))).
Proof. exact (energy2_ok R r0 r1 radd rmul rsub ropp Rth conj conj0 conj1 conj_add conj_mul). Qed.
Theorem C62_energy_any_site : forall tl t tr wl w wr D0 p D2, cut1 R tl tr wl wr w D0 p D2 -> gd t = [D0; p; D2] ->
  exists l r, left_env tl wl = Ok l /\ right_env tr wr = Ok r /\
  energy1 R r0 radd rmul conj l w r t = Ok (energy (map ten_of (tl ++ [t] ++ tr)) (map site_of (wl ++ [w] ++ wr))).
Proof. exact (energy1_ok R r0 r1 radd rmul rsub ropp Rth conj conj0 conj1 conj_add conj_mul). Qed.
(** VMPS with MPO tensors and DMRG with MPO matrices of operators apply the same effective Hamiltonian *)
Theorem C62_same_as_dmrg : forall tl tr gl gr g1 g2 wl wr w1 w2 D0 p1 p2 D3, cut2 R tl tr gl gr g1 g2 D0 p1 p2 D3 -> cut R (map ten_of tl) (map ten_of tr) wl w1 w2 wr D0 D3 ->
  Forall2 (fun pg w => same_mpo R r0 (fst pg) (snd pg) w) (combine (map (@d1 R) (map ten_of tl) ++ [p1; p2] ++ map (@d1 R) (map ten_of tr)) (gl ++ [g1; g2] ++ gr)) (wl ++ [w1; w2] ++ wr) ->
  exists l r bl br, left_env tl gl = Ok l /\ right_env tr gr = Ok r /\
    left_ops R r0 radd rmul conj (triv_group R r1) (map ten_of tl) wl = Ok bl /\ right_ops R r0 r1 radd rmul conj (map ten_of tr) wr = Ok br /\
  forall x, gd x = [D0; p1; p2; D3] -> exists y z, mul2 l g1 g2 r x = Ok y /\ eff_mul R r0 radd rmul bl br w1 w2 D0 p1 p2 D3 (elems4 R x) = Ok z /\
  forall a s1 s2 b, a < D0 -> s1 < p1 -> s2 < p2 -> b < D3 -> ge y [a; s1; s2; b] = z a s1 s2 b.
Proof. exact (vmps_dmrg R r0 r1 radd rmul rsub ropp Rth conj conj0 conj1 conj_add conj_mul). Qed.

(** ** C63: noise and hand-over *)
(** single-site noise to the right and to the left, any noise, any environment and MPO tensors with fitting legs: the bond grows, no
    amplitude changes *)
Theorem C63_single_site_noise_right : forall tl gs next tr ds h0 h1 noise D0 M0 p D2 M1 q D3, on ds (tl ++ [gs; next] ++ tr) ->
  gd gs = [D0; p; D2] -> gd next = [D2; q; D3] -> gd h0 = [D0; M0; D0] -> gd h1 = [M0; p; p; M1] ->
  exists a b, expand1_r h0 h1 gs next noise = Ok (a, b) /\ gd a = [D0; p; D2 + D2 * M1] /\ gd b = [D2 + D2 * M1; q; D3] /\
  on ds (tl ++ [a; b] ++ tr) /\ forall c, In c (configs ds) -> amp (tl ++ [a; b] ++ tr) c = amp (tl ++ [gs; next] ++ tr) c.
Proof. exact (expand1_r_keeps R r0 r1 radd rmul rsub ropp Rth). Qed.
Theorem C63_single_site_noise_left : forall tl gs next tr ds h1 h2 noise D M0 q D0 p M1 D2, on ds (tl ++ [next; gs] ++ tr) ->
  gd gs = [D0; p; D2] -> gd next = [D; q; D0] -> gd h2 = [D2; M1; D2] -> gd h1 = [M0; p; p; M1] ->
  exists a b, expand1_l h1 h2 gs next noise = Ok (a, b) /\ gd a = [D0 + D0 * M0; p; D2] /\ gd b = [D; q; D0 + D0 * M0] /\
  on ds (tl ++ [b; a] ++ tr) /\ forall c, In c (configs ds) -> amp (tl ++ [b; a] ++ tr) c = amp (tl ++ [next; gs] ++ tr) c.
Proof. exact (expand1_l_keeps R r0 r1 radd rmul rsub ropp Rth). Qed.
(** what is added to the bond: contracted with the environment on its other side it is the noise times the effective Hamiltonian applied to the tensor *)
Theorem C63_single_site_noise_right_is_H : forall h0 h1 h2 gs next noise D0 M0 p D2 M1 q D3 a b y, gd gs = [D0; p; D2] -> gd next = [D2; q; D3] -> gd h0 = [D0; M0; D0] -> gd h1 = [M0; p; p; M1] -> gd h2 = [D2; M1; D2] ->
  expand1_r h0 h1 gs next noise = Ok (a, b) -> mul1 h0 h1 h2 gs = Ok y ->
  forall x s z, sumn D2 (fun k => sumn M1 (fun m => ge a [x; s; D2 + (k * M1 + m)] *r ge h2 [z; m; k])) = noise *r ge y [x; s; z].
Proof. exact (expand1_r_adds R r0 r1 radd rmul rsub ropp Rth). Qed.
Theorem C63_single_site_noise_left_is_H : forall h0 h1 h2 gs next noise D0 M0 p D2 M1 q D a b y, gd gs = [D0; p; D2] -> gd next = [D; q; D0] -> gd h0 = [D0; M0; D0] -> gd h1 = [M0; p; p; M1] -> gd h2 = [D2; M1; D2] ->
  expand1_l h1 h2 gs next noise = Ok (a, b) -> mul1 h0 h1 h2 gs = Ok y ->
  forall x s z, sumn D0 (fun k => sumn M0 (fun m => ge h0 [x; m; k] *r ge a [D0 + (k * M0 + m); s; z])) = noise *r ge y [x; s; z].
Proof. exact (expand1_l_adds R r0 r1 radd rmul rsub ropp Rth). Qed.
(** two-site noise: the optimised tensor of two sites and the tensor next to it.  [mock] is the third factor of the decomposition of the
    MPO tensor that is used when the bond points inwards; any tensor with fitting legs *)
Theorem C63_two_site_noise_right : forall mock norm h0 h1 h2 gs next noise D0 M0 p1 M1 p2 M2 D3 q D4,
  gd h0 = [D0; M0; D0] -> gd h1 = [M0; p1; p1; M1] -> gd h2 = [M1; p2; p2; M2] -> gd gs = [D0; p1; p2; D3] -> gd next = [D3; q; D4] ->
  (norm = false -> forall t, gd t = [M2; M1; p2; p2] -> exists K, gd (mock t) = [K; M1; p2; p2]) ->
  exists K a b, expand2_r mock norm h0 h1 h2 gs next noise = Ok (a, b) /\ gd a = [D0; p1; p2; D3 + K] /\ gd b = [D3 + K; q; D4] /\
  forall tl tr cl s1 s2 cr, whole tl (ten_of b :: tr) D0 (D3 + K) (elems4 R a) cl s1 s2 cr = whole tl (ten_of next :: tr) D0 D3 (elems4 R gs) cl s1 s2 cr.
Proof. exact (expand2_r_keeps R r0 r1 radd rmul rsub ropp Rth). Qed.
Theorem C63_two_site_noise_left : forall h1 h2 h3 gs next noise D0 M0 p1 M1 p2 M2 D3 q D,
  gd h1 = [M0; p1; p1; M1] -> gd h2 = [M1; p2; p2; M2] -> gd h3 = [D3; M2; D3] -> gd gs = [D0; p1; p2; D3] -> gd next = [D; q; D0] ->
  exists a b, expand2_l h1 h2 h3 gs next noise = Ok (a, b) /\ gd a = [D0 + D0 * M0; p1; p2; D3] /\ gd b = [D; q; D0 + D0 * M0] /\
  forall tl tr cl s0 s1 s2 cr, fit R 1 tl D -> length cl = length tl ->
    whole (tl ++ [ten_of b]) tr (D0 + D0 * M0) D3 (elems4 R a) (cl ++ [s0]) s1 s2 cr = whole (tl ++ [ten_of next]) tr D0 D3 (elems4 R gs) (cl ++ [s0]) s1 s2 cr.
Proof. exact (expand2_l_keeps R r0 r1 radd rmul rsub ropp Rth). Qed.
Theorem C63_two_site_noise_right_is_H : forall mock h0 h1 h2 h3 gs next noise D0 M0 p1 M1 p2 M2 D3 q D4 a b y,
  gd h0 = [D0; M0; D0] -> gd h1 = [M0; p1; p1; M1] -> gd h2 = [M1; p2; p2; M2] -> gd h3 = [D3; M2; D3] -> gd gs = [D0; p1; p2; D3] -> gd next = [D3; q; D4] ->
  expand2_r mock true h0 h1 h2 gs next noise = Ok (a, b) -> mul2 h0 h1 h2 h3 gs = Ok y ->
  forall x s t z, sumn D3 (fun k => sumn M2 (fun m => ge a [x; s; t; D3 + (k * M2 + m)] *r ge h3 [z; m; k])) = noise *r ge y [x; s; t; z].
Proof. exact (expand2_r_adds R r0 r1 radd rmul rsub ropp Rth). Qed.
Theorem C63_two_site_noise_left_is_H : forall h0 h1 h2 h3 gs next noise D0 M0 p1 M1 p2 M2 D3 q D a b y,
  gd h0 = [D0; M0; D0] -> gd h1 = [M0; p1; p1; M1] -> gd h2 = [M1; p2; p2; M2] -> gd h3 = [D3; M2; D3] -> gd gs = [D0; p1; p2; D3] -> gd next = [D; q; D0] ->
  expand2_l h1 h2 h3 gs next noise = Ok (a, b) -> mul2 h0 h1 h2 h3 gs = Ok y ->
  forall x s t z, sumn D0 (fun k => sumn M0 (fun m => ge h0 [x; m; k] *r ge a [D0 + (k * M0 + m); s; t; z])) = noise *r ge y [x; s; t; z].
Proof. exact (expand2_l_adds R r0 r1 radd rmul rsub ropp Rth). Qed.
(** hand-over: a decomposition whose factors multiply to [y] (exact: [y = x]; truncated: what is kept) leaves the chain in the state that [y]
    stands for, in both directions *)
Theorem C63_two_site_hand_over : forall svd dir x y D0 p1 p2 D3, gd x = [D0; p1; p2; D3] -> factors svd 2 x y ->
  exists a b K, split2 svd dir x = Ok (a, b) /\ gd a = [D0; p1; K] /\ gd b = [K; p2; D3] /\
  forall tl tr cl s1 s2 cr, fit R 1 tl D0 -> length cl = length tl -> s1 < p1 -> s2 < p2 ->
    mps_mat (tl ++ [ten_of a; ten_of b] ++ tr) (cl ++ [s1; s2] ++ cr) 0 0 = whole tl tr D0 D3 (elems4 R y) cl s1 s2 cr.
Proof. exact (split2_ok R r0 r1 radd rmul rsub ropp Rth). Qed.
Theorem C63_single_site_hand_over_right : forall svd tl t y next tr ds D0 p D q D3, gd t = [D0; p; D] -> gd next = [D; q; D3] -> on ds (tl ++ [t; next] ++ tr) -> factors svd 2 t y ->
  exists a b K, split1 svd true t next = Ok (a, b) /\ gd a = [D0; p; K] /\ gd b = [K; q; D3] /\ on ds (tl ++ [a; b] ++ tr) /\
  forall c, In c (configs ds) -> amp (tl ++ [a; b] ++ tr) c = amp (tl ++ [y; next] ++ tr) c.
Proof. exact (split1_r_ok R r0 r1 radd rmul rsub ropp Rth). Qed.
Theorem C63_single_site_hand_over_left : forall svd tl t y next tr ds D0 p D q D3, gd t = [D0; p; D] -> gd next = [D3; q; D0] -> on ds (tl ++ [next; t] ++ tr) -> factors svd 1 t y ->
  exists a b K, split1 svd false t next = Ok (a, b) /\ gd a = [K; p; D] /\ gd b = [D3; q; K] /\ on ds (tl ++ [b; a] ++ tr) /\
  forall c, In c (configs ds) -> amp (tl ++ [b; a] ++ tr) c = amp (tl ++ [next; y] ++ tr) c.
Proof. exact (split1_l_ok R r0 r1 radd rmul rsub ropp Rth). Qed.

(** ** C64: the steps divided into tasks *)
(** any numbers of states per sector, tasks in any order *)
Theorem C64_left_environment : forall (e t w : gten) degs tasks D M p D' M', gd e = [D; M; D] -> gd t = [D; p; D'] -> gd w = [M; p; p; M'] ->
  fold_right Nat.add 0 degs = D' -> Permutation tasks (sectors 0 degs) ->
  exists e' e1, update_lenv e t w = Ok e' /\ mpi_lenv R r0 radd rmul conj e t w tasks = Ok e1 /\ gd e1 = gd e' /\ forall a' j a, a < D' -> ge e1 [a'; j; a] = ge e' [a'; j; a].
Proof. exact (mpi_lenv_ok R r0 r1 radd rmul rsub ropp Rth conj). Qed.
Theorem C64_right_environment : forall (e t w : gten) degs tasks D M p D' M', gd e = [D; M; D] -> gd t = [D'; p; D] -> gd w = [M'; p; p; M] ->
  fold_right Nat.add 0 degs = D' -> Permutation tasks (sectors 0 degs) ->
  exists e' e1, update_renv e t w = Ok e' /\ mpi_renv R r0 radd rmul conj e t w tasks = Ok e1 /\ gd e1 = gd e' /\ forall a' j a, a' < D' -> ge e1 [a'; j; a] = ge e' [a'; j; a].
Proof. exact (mpi_renv_ok R r0 r1 radd rmul rsub ropp Rth conj). Qed.
(** [jobs]: what each worker did; [re] is Real, of which only additivity is used; the second result is the overlap that Lanczos uses *)
Theorem C64_effective_hamiltonian : forall re, re r0 = r0 -> (forall x y, re (radd x y) = radd (re x) (re y)) ->
  forall (h0 h1 h2 h3 x : gten) degs jobs arrived k D0 M0 p1 M1 p2 M2 D3, gd h0 = [D0; M0; D0] -> gd h1 = [M0; p1; p1; M1] -> gd h2 = [M1; p2; p2; M2] -> gd h3 = [D3; M2; D3] -> gd x = [D0; p1; p2; D3] ->
  fold_right Nat.add 0 degs = D0 -> Permutation arrived (sectors 0 degs) -> Permutation (concat jobs) (sectors 0 degs) ->
  exists y y1 v, mul2 h0 h1 h2 h3 x = Ok y /\ mpi_mul2 R r0 radd rmul conj re h0 h1 h2 h3 x jobs arrived k = Ok (y1, v) /\ gd y1 = gd y /\
  (forall a s t b, a < D0 -> ge y1 [a; s; t; b] = ge y [a; s; t; b]) /\
  v = re (sumn D0 (fun a => sumn p1 (fun s => sumn p2 (fun t => sumn D3 (fun b => ge y [a; s; t; b] *r conj (ge x [a; s; t; b])))))).
Proof. exact (mpi_mul2_ok R r0 r1 radd rmul rsub ropp Rth conj). Qed.
End Vmps.

(** a chain of four sites meets the hypotheses; energies at several cuts agree with each other and with DMRG's, and are not zero *)
Example C62_example : cut2 Z (firstn 1 v_ts) (skipn 3 v_ts) (firstn 1 v_ws) (skipn 3 v_ws) (v_w 1) (v_w 2) 2 2 2 2 /\ cut1 Z (firstn 1 v_ts) (skipn 2 v_ts) (firstn 1 v_ws) (skipn 2 v_ws) (v_w 1) 2 2 3 /\
  Forall2 (fun pg w => same_mpo Z 0%Z (fst pg) (snd pg) w) (combine [2; 2; 2; 2] v_ws) e_ws /\
  exists v, (0 < Z.abs v)%Z /\ map v_energy2 [0; 1] = [Ok v; Ok v] /\ map v_energy1 [1; 2] = [Ok v; Ok v] /\ map e_val [0; 1; 2] = [Ok v; Ok v; Ok v].
Proof. exact (conj v_cut2 (conj v_cut1 (conj v_same v_energies))). Qed.
(** noise 5 adds elements that are not zero; an exact decomposition exists *)
Example C63_example : state_on Z [2; 2; 2; 2] (map (ten_of Z) v_ts) /\
  (exists a b, expand1_r Z 0%Z Z.add Z.mul v_l1 (v_w 1) (v_t 1) (v_t 2) 5%Z = Ok (a, b) /\ gd Z a = [2; 2; 12] /\ ge Z a [0; 0; 4] <> 0%Z) /\
  (exists a b, expand1_l Z 0%Z Z.add Z.mul (v_w 1) v_r1 (v_t 1) (v_t 0) 5%Z = Ok (a, b) /\ gd Z a = [8; 2; 3] /\ ge Z a [4; 0; 0] <> 0%Z) /\
  (exists a b, expand2_r Z 0%Z Z.add Z.mul (fun t => t) true v_l1 (v_w 1) (v_w 2) v_x (v_t 3) 5%Z = Ok (a, b) /\ gd Z a = [2; 2; 2; 8] /\ ge Z a [0; 0; 0; 3] <> 0%Z) /\
  (exists a b, expand2_l Z 0%Z Z.add Z.mul (v_w 1) (v_w 2) v_r2 v_x (v_t 0) 5%Z = Ok (a, b) /\ gd Z a = [8; 2; 2; 2] /\ ge Z a [4; 0; 0; 0] <> 0%Z) /\
  (factors Z 0%Z Z.add Z.mul v_svd 2 v_x v_x /\ factors Z 0%Z Z.add Z.mul v_svd 2 (v_t 1) (v_t 1) /\ factors Z 0%Z Z.add Z.mul v_svd 1 (v_t 1) (v_t 1)) /\
  exists a b, split2 Z 0%Z Z.add Z.mul v_svd true v_x = Ok (a, b) /\ gd Z a = [2; 2; 4] /\ Z.eqb (ge Z b [3; 1; 1]) 0%Z = false.
Proof. exact (conj v_state (conj v_noise_1r (conj v_noise_1l (conj v_noise_2r (conj v_noise_2l (conj v_factors v_split)))))). Qed.
Example C64_example : sectors 0 [1; 2] = [(0, 1); (1, 2)] /\
  exists e e1, (let! e := update_lenv Z 0%Z Z.add Z.mul zconj v_l1 (v_t 1) (v_w 1) in let! e1 := mpi_lenv Z 0%Z Z.add Z.mul zconj v_l1 (v_t 1) (v_w 1) [(1, 2); (0, 1)] in Ok (e, e1)) = Ok (e, e1) /\
  Z.eqb (ge Z e1 [0; 1; 2]) (ge Z e [0; 1; 2]) = true /\ Z.eqb (ge Z e [0; 1; 2]) 0%Z = false.
Proof. exact (conj v_sectors v_tasks). Qed.
Print Assumptions C62_two_site_effective_hamiltonian.
Print Assumptions C62_single_site_effective_hamiltonian.
Print Assumptions C62_energy_any_two_sites.
Print Assumptions C62_energy_any_site.
Print Assumptions C62_same_as_dmrg.
Print Assumptions C63_single_site_noise_right.
Print Assumptions C63_single_site_noise_left.
Print Assumptions C63_single_site_noise_right_is_H.
Print Assumptions C63_single_site_noise_left_is_H.
Print Assumptions C63_two_site_noise_right.
Print Assumptions C63_two_site_noise_left.
Print Assumptions C63_two_site_noise_right_is_H.
Print Assumptions C63_two_site_noise_left_is_H.
Print Assumptions C63_two_site_hand_over.
Print Assumptions C63_single_site_hand_over_right.
Print Assumptions C63_single_site_hand_over_left.
Print Assumptions C64_left_environment.
Print Assumptions C64_right_environment.
Print Assumptions C64_effective_hamiltonian.
