(** The local update of the noised two-site sweeps and the preparation with numbers: algorithm/vmps/two_site_update_noise_finite_vmps_impl.h
    142-174, 180-197 and 212-395, algorithm/vmps/vmps_init.h 168-239, finite_mps.h 193-222.

    Simplifications: the real numbers of the standard library (no rounding); LAPACK ([stev]), the decompositions ([svd], [qr], [mock] for the V
    that mock_qlten::SVD gives), the comparison with a tolerance in the solver ([close]) and the number of stored elements of a tensor ([size]) are
    parameters; quantum numbers and index directions are left out, so that the two decisions of the code that read them are parameters
    ([covered], [normal]).  A tensor that cannot be computed (legs that do not fit) is [Ub]. *)
From Coq Require Import List Arith Bool Reals.
From Verif Require Import Base Disk FiniteMps FmpsSpec EffHam Legs VmpsLocal Lanczos Krylov Cx GVec ChainUpdate SingleUpdate.
Import ListNotations.
Local Open Scope nat_scope.

Section Update.
Variables alpha dec inc mx : real.                                      (* sweep_params.alpha, noise_decrease, noise_increase, max_noise *)
Variable ws : nat -> cg.                                                (* the MPO *)
Variable stev : list real -> list real -> list real * list real.
Variables (maxit : nat) (size : list nat -> nat).                       (* lancz_params.max_iterations, size() of the state *)
Variable svd : nat -> cg -> cg * cg * cg.
Variable close : real -> real -> bool.
(** IsQNCovered of the sectors of the outer bonds, 289-328 (which one is to cover the other depends on the direction) *)
Variable covered : bool -> cg -> cg -> bool.
(** gs_vec->GetIndex(3).GetDir() == OUT, 453 *)
Variable normal : cg -> bool.
Variable mock : cg -> cg.
(** need_expand, 284-329 *)
Definition n_expand (rt : bool) (n : real) (a b : cg) : bool := if rlt (Rabs n) (/ 10 ^ 10) then false else negb (covered rt a b).
(** expansion (TwoSiteFiniteVMPSExpand, modelled in VmpsLocal), SVD and hand-over, 331-390: (left tensor, right tensor, tensor of the next site) *)
Definition n_hand (rt need : bool) (el w1 w2 er g c : cg) (n : real) : res (cg * cg * cg) :=
  let! (x, z) := (if need then if rt then expand2_r cx c0 cadd cmul mock (normal g) el w1 w2 g c (cre n) else expand2_l cx c0 cadd cmul w1 w2 er g c (cre n) else Ok (g, c)) in
  let! (a, b) := split2 cx c0 cadd cmul svd rt x in
  Ok (a, b, z).
(** energy, noise rule (the same as in single-site sweeps: 156-166, 182-188), solver, expansion, hand-over *)
Definition n_update (rt : bool) (l : nat) (el a b er c : res cg) (s : res s1st) : res cg * res cg * res cg * res s1st :=
  match (let! el := el in let! a := a in let! b := b in let! er := er in let! c := c in let! s := s in
         let! act := energy2 cx c0 cadd cmul cconj el (ws l) (ws (l + 1)) er a b in
         let n := s_rule alpha dec inc mx s (fst act) in
         let! x := gcontract cx c0 cadd cmul [2] [0] a b in
         let! _ := mul2 cx c0 cadd cmul el (ws l) (ws (l + 1)) er x in
         let! (r, g) := g_lanczos (cgd x) (h_two ws l el er (cgd x)) stev close maxit (size (cgd x)) (cge x) in
         let! (a', b', c') := n_hand rt (n_expand rt n a b) el (ws l) (ws (l + 1)) er (mkG cx (cgd x) g) c n in
         Ok (a', b', c', mkS1 n (eng real r) (fst act)))
  with Ok (a, b, c, s) => (Ok a, Ok b, Ok c, Ok s) | Ub => (Ub, Ub, Ub, Ub) | Abort => (Abort, Abort, Abort, Abort) end.
(** the noise that a sweep starts with, lines 111-113: noises[k] if there is one *)
Definition n_preset (noises : list real) (k : nat) : option (res s1st) := option_map s_preset (nth_error noises k).
End Update.

Section Prep.
(** LeftCanonicalizeTen, finite_mps.h 193-222 with QR, on two neighbours *)
Variable qr : nat -> cg -> cg * cg.
Definition n_lcano (a b : res cg) : res cg * res cg :=
  both (let! a := a in let! b := b in
        let (q, r) := qr 2 a in
        let! b' := gcontract cx c0 cadd cmul [1] [0] r b in
        Ok (q, b')).
(** IndexCombine of two legs: the pairs of values are numbered by the third leg (here in lexicographic order) *)
Definition n_comb (d e : nat) : cg := mkG cx [d; e; d * e] (fun x => if (fused_1 (nth 2 x 0) e =? nth 0 x 0) && (fused_2 (nth 2 x 0) e =? nth 1 x 0) then c1 else c0).
(** vmps_init.h 175-197; 216-233 *)
Definition n_big (i j Dmax : nat) (t : res cg) : bool := match t with Ok t => Dmax <? nth i (cgd t) 0 * nth j (cgd t) 0 | _ => false end.
Definition n_small (i j k : nat) (t : res cg) : bool := match t with Ok t => nth k (cgd t) 0 <? nth i (cgd t) 0 * nth j (cgd t) 0 | _ => false end.
Definition n_combL (a b : res cg) : res cg * res cg :=
  both (let! a := a in let! b := b in
        let comb := n_comb (nth 0 (cgd a) 0) (nth 1 (cgd a) 0) in
        let! t := gcontract cx c0 cadd cmul [0; 1] [0; 1] comb a in
        let! b' := gcontract cx c0 cadd cmul [1] [0] t b in
        Ok (comb, b')).
Definition n_combR (b a : res cg) : res cg * res cg :=
  both (let! b := b in let! a := a in
        let! comb := gtrans cx [2; 0; 1] (n_comb (nth 1 (cgd a) 0) (nth 2 (cgd a) 0)) in
        let! t := gcontract cx c0 cadd cmul [1; 2] [1; 2] a (gdag cx cconj comb) in
        let! b' := gcontract cx c0 cadd cmul [2] [0] b t in
        Ok (b', comb)).
End Prep.
