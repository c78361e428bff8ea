(** C65, C66: what the Lanczos solvers compute, in exact arithmetic. *)
From Coq Require Import List Arith Bool Lia Reals Lra.
From Verif Require Import Base Lanczos LanczosSpec Krylov KrylovSpec KrylovRun Cx KrylovInst.
Import ListNotations.

Section Krylov.
Variables F K V : Type.
Variables (f0 f1 : F) (fadd fmul fsub : F -> F -> F) (fopp : F -> F) (k0 k1 : K) (kadd kmul ksub : K -> K -> K) (kopp : K -> K).
Variables (r : F -> K) (conj : K -> K) (le : F -> F -> Prop) (ip : V -> V -> K).
Variables (isz : F -> bool) (mul : V -> V) (dot : V -> V -> F) (lc1 : F -> V -> V -> V) (lc2 : F -> V -> F -> V -> V -> V).
Variable normalize : V -> V * F.
Variable stev : list F -> list F -> list F * list F.
Hypothesis SC : scalars f0 f1 fadd fmul fsub fopp k0 k1 kadd kmul ksub kopp r conj le.
Variables maxit dim : nat.

(** ** C65: the eigenvalue solver *)
Section Eig.
Variables (sq rt : F -> F) (copy : V -> V) (comb : list F -> list V -> V) (close : F -> F -> bool).
Hypothesis HE : hermitian f0 k0 k1 kadd kmul ksub r conj ip isz mul dot lc1 lc2 normalize sq rt.
Hypothesis copy_id : forall v, copy v = v.
Hypothesis comb_ok : forall c l x, ip (comb c l) x = suml K k0 kadd (fun p => kmul (r (fst p)) (ip (snd p) x)) (List.combine c l).
Notation solver := (eig_solver F V F f0 sq isz mul dot lc1 lc2 normalize copy (gs_eng F f0 stev) (gs_vec F f0 stev) comb close maxit dim).
Notation vanishes v0 := (vanishes F V f0 isz mul dot lc1 lc2 normalize sq v0).
Notation als v0 := (als F V f0 mul dot lc1 lc2 normalize sq v0).
Notation bes v0 := (bes F V f0 mul dot lc1 lc2 normalize sq v0).
Notation lapack_ok v0 := (lapack_ok f0 f1 fadd fmul le stev (als v0) (bes v0)).

(** the returned vector g is normalized, the returned energy is <g|H|g>, and it is not above the energy of the normalized initial state u *)
Theorem C65_energy_belongs_to_the_vector : forall h p v0 res h', nth_error (cells V F h) p = Some (Some v0) -> isz (snd (normalize v0)) = false ->
  2 <= maxit -> solver p h = Ok (res, h') -> lapack_ok v0 (iters F res) ->
  exists g, nth_error (cells V F h') (gs F res) = Some (Some g) /\ ip g g = k1 /\ ip (mul g) g = r (eng F res) /\
    let u := fst (normalize v0) in le (eng F res) (dot (mul u) u).
Proof. exact (eig_energy F K V f0 f1 fadd fmul fsub fopp k0 k1 kadd kmul ksub kopp r conj le ip isz mul dot lc1 lc2 normalize stev SC maxit dim sq rt copy comb close HE copy_id comb_ok). Qed.
(** if the residual of the last vector vanishes, the vector is an eigenvector: H g = energy g *)
Theorem C65_eigenvector_when_residual_vanishes : forall h p v0 res h', nth_error (cells V F h) p = Some (Some v0) -> isz (snd (normalize v0)) = false ->
  2 <= maxit -> solver p h = Ok (res, h') -> lapack_ok v0 (iters F res) -> vanishes v0 (iters F res) = true ->
  exists g, nth_error (cells V F h') (gs F res) = Some (Some g) /\ forall x, ip (mul g) x = kmul (r (eng F res)) (ip g x).
Proof. exact (eig_vec F K V f0 f1 fadd fmul fsub fopp k0 k1 kadd kmul ksub kopp r conj le ip isz mul dot lc1 lc2 normalize stev SC maxit dim sq rt copy comb close HE copy_id comb_ok). Qed.
End Eig.

(** ** C66: the exponential *)
Section Exp.
Variables (ph : F -> K) (comb : list K -> list V -> V) (far : list K -> list K -> bool) (diff : list K -> list K -> list K).
Notation off := (fun x : F => x).
Hypothesis HE : hermitian f0 k0 k1 kadd kmul ksub r conj ip isz mul dot lc1 lc2 normalize off off.
Hypothesis ph_unit : forall x, kmul (ph x) (conj (ph x)) = k1.
Hypothesis comb_ok : forall c l x, ip (comb c l) x = suml K k0 kadd (fun p => kmul (fst p) (ip (snd p) x)) (List.combine c l).
Hypothesis diff_len : forall c d, length (diff c d) = length c.
Notation tri_x := (expme1 F K f0 k0 kadd kmul r ph stev).
Notation vanishes v0 := (vanishes F V f0 isz mul dot lc1 lc2 normalize off v0).
Notation als v0 := (als F V f0 mul dot lc1 lc2 normalize off v0).
Notation bes v0 := (bes F V f0 mul dot lc1 lc2 normalize off v0).
Notation lapack_ok v0 := (lapack_ok f0 f1 fadd fmul le stev (als v0) (bes v0)).
Section Serial.
Variable phase : F -> F -> V -> V.
Hypothesis phase_ok : forall n a q x, ip (phase n a q) x = kmul (kmul (r n) (ph a)) (ip q x).
Notation solver := (exp_solver F V K f0 isz mul dot lc1 lc2 normalize comb k0 tri_x far diff (vscale F K kmul r) phase maxit dim).
(** whatever the number of vectors, the step keeps the norm and the energy of the state *)
Theorem C66_step_keeps_norm_and_energy : forall h p v0 res h', nth_error (cells V K h) p = Some (Some v0) -> isz (snd (normalize v0)) = false ->
  2 <= maxit -> solver p h = Ok (res, h') -> lapack_ok v0 (xiters res) ->
  exists g, nth_error (cells V K h') (expmv res) = Some (Some g) /\ ip g g = ip v0 v0 /\ ip (mul g) g = ip (mul v0) v0.
Proof. exact (exp_keeps F K V f0 f1 fadd fmul fsub fopp k0 k1 kadd kmul ksub kopp r conj le ip isz mul dot lc1 lc2 normalize stev SC maxit dim ph comb far diff HE ph_unit comb_ok diff_len phase phase_ok). Qed.
(** if the residual of the last vector vanishes, the result is exp(-i step H) of the state: the state is a sum of eigenvectors w_j with
    eigenvalues d_j, and the result is the sum of the exp(-i step d_j) w_j *)
Theorem C66_exact_when_residual_vanishes : forall h p v0 res h', nth_error (cells V K h) p = Some (Some v0) -> isz (snd (normalize v0)) = false ->
  2 <= maxit -> solver p h = Ok (res, h') -> lapack_ok v0 (xiters res) -> vanishes v0 (xiters res) = true ->
  exists g (k : nat) (d : nat -> F) (w : nat -> V), nth_error (cells V K h') (expmv res) = Some (Some g) /\
  (forall x, ip v0 x = sumk K k0 kadd k (fun j => ip (w j) x)) /\
  (forall j, j < k -> forall x, ip (mul (w j)) x = kmul (r (d j)) (ip (w j) x)) /\
  (forall x, ip g x = sumk K k0 kadd k (fun j => kmul (ph (d j)) (ip (w j) x))).
Proof. exact (exp_exact F K V f0 f1 fadd fmul fsub fopp k0 k1 kadd kmul ksub kopp r conj le ip isz mul dot lc1 lc2 normalize stev SC maxit dim ph comb far diff HE ph_unit comb_ok diff_len phase phase_ok). Qed.
End Serial.
(** the distributed solver returns a state of norm one whatever the norm of the given one *)
Section Mpi.
Variable phase1 : F -> V -> V.
Hypothesis phase1_ok : forall a q x, ip (phase1 a q) x = kmul (ph a) (ip q x).
Notation solver := (mpi_exp_solver F V K f0 isz mul dot lc1 lc2 normalize comb k0 tri_x far diff phase1 maxit dim).
Theorem C66_mpi_norm_refuted : forall h p v0 res h', nth_error (cells V K h) p = Some (Some v0) -> isz (snd (normalize v0)) = false ->
  2 <= maxit -> solver p h = Ok (res, h') -> lapack_ok v0 (xiters res) ->
  exists g, nth_error (cells V K h') (expmv res) = Some (Some g) /\ ip g g = k1 /\ ip v0 v0 = kmul (r (snd (normalize v0))) (r (snd (normalize v0))).
Proof. exact (mpi_norm F K V f0 f1 fadd fmul fsub fopp k0 k1 kadd kmul ksub kopp r conj le ip isz mul dot lc1 lc2 normalize stev SC maxit dim ph comb far diff HE ph_unit comb_ok diff_len phase1 phase1_ok). Qed.
End Mpi.
End Exp.
End Krylov.

Local Open Scope R_scope.
(** the state (2, 0) and the operator that exchanges the components: two vectors, energy -1; all the hypotheses hold *)
Example C65_case : forall close maxit dim, (2 <= maxit)%nat ->
  scalars 0 1 Rplus Rmult Rminus Ropp (0, 0) (1, 0) cadd cmul csub copp cre cconj Rle /\
  hermitian 0 (0, 0) (1, 0) cadd cmul csub cre cconj kip kz kmulv kdot klc1 (klc2 sqrt) knormalize (fun x => x * x) sqrt /\
  (exists res h, k_eig close maxit dim = Ok (res, h) /\ iters R res = 2%nat /\ eng R res = - (1) /\
    lapack_ok 0 1 Rplus Rmult Rle kstev (als R kV 0 kmulv kdot klc1 (klc2 sqrt) knormalize (fun x => x * x) kv0) (bes R kV 0 kmulv kdot klc1 (klc2 sqrt) knormalize (fun x => x * x) kv0) (iters R res) /\
    vanishes R kV 0 kz kmulv kdot klc1 (klc2 sqrt) knormalize (fun x => x * x) kv0 (iters R res) = true) /\
  nth_error (cells kV R kheapr) 1 = Some (Some kv0) /\ kz (snd (knormalize kv0)) = false.
Proof.
  intros close maxit dim HM. split; [exact k_scalars|]. split; [exact (k_hermitian _ _ sq_rt)|]. split; [|split; [reflexivity|rewrite kn0; apply kz_nz; cbn [snd]; lra]].
  destruct (k_eig_run close maxit dim HM) as [res [h [A [B C]]]]. exists res, h. rewrite B. split; [exact A|]. split; [reflexivity|]. split; [exact C|].
  split; [exact (k_lapack _ _)|exact (k_van2 _ _ sq_rt)].
Qed.
(** the step of length d of the same state; the distributed step gives norm 1 where the norm was 4 *)
Example C66_case : forall d far maxit dim, (2 <= maxit)%nat ->
  hermitian 0 (0, 0) (1, 0) cadd cmul csub cre cconj kip kz kmulv kdot klc1 (klc2 (fun x => x)) knormalize (fun x => x) (fun x => x) /\
  (forall x, cmul (cph d x) (cconj (cph d x)) = (1, 0)) /\
  (exists res h, k_exp d far maxit dim = Ok (res, h) /\ xiters res = 2%nat /\
    lapack_ok 0 1 Rplus Rmult Rle kstev (als R kV 0 kmulv kdot klc1 (klc2 (fun x => x)) knormalize (fun x => x) kv0) (bes R kV 0 kmulv kdot klc1 (klc2 (fun x => x)) knormalize (fun x => x) kv0) (xiters res) /\
    vanishes R kV 0 kz kmulv kdot klc1 (klc2 (fun x => x)) knormalize (fun x => x) kv0 (xiters res) = true /\
    exists g, nth_error (cells kV cx h) (expmv res) = Some (Some g) /\ kip g g = (4, 0)) /\
  (exists res h g, k_mpi d far maxit dim = Ok (res, h) /\ nth_error (cells kV cx h) (expmv res) = Some (Some g) /\ kip g g = (1, 0)).
Proof.
  intros d far maxit dim HM.
  assert (NZ : kz (snd (knormalize kv0)) = false) by (rewrite kn0; apply kz_nz; cbn [snd]; lra).
  pose proof (k_hermitian (fun x => x) (fun x => x) (fun x _ => eq_refl)) as HE.
  split; [exact HE|]. split; [apply kph_unit|]. split.
  - destruct (k_x_run d far maxit dim (vscale R cx cmul cre) (kphase d) (fun s c => map_length _ c) HM) as [res [h [A B]]]. exists res, h. split; [exact A|]. split; [exact B|].
    assert (L := k_lapack (fun x => x) (fun x => x)). rewrite B. split; [exact L|]. split; [exact (k_van2 _ _ (fun x _ => eq_refl))|].
    rewrite <- B in L. destruct (C66_step_keeps_norm_and_energy R cx kV 0 1 Rplus Rmult Rminus Ropp (0, 0) (1, 0) cadd cmul csub copp cre cconj Rle kip kz kmulv kdot klc1 (klc2 (fun x => x)) knormalize kstev k_scalars maxit dim
      (cph d) kcomb far kdiff HE (kph_unit d) kcomb_ok kdiff_len (kphase d) (kphase_ok d) kheap 1 kv0 res h eq_refl NZ HM A L) as [g [G1 [G2 _]]].
    exists g. split; [exact G1|]. rewrite G2. unfold kv0, kip, cadd, cmul, cconj. cbn [fst snd]. f_equal; ring.
  - destruct (k_x_run d far maxit dim (fun _ c => c) (fun _ a q => ksc (cph d a) q) (fun s c => eq_refl) HM) as [res [h [A B]]]. exists res, h.
    assert (L := k_lapack (fun x => x) (fun x => x)). rewrite <- B in L.
    destruct (C66_mpi_norm_refuted R cx kV 0 1 Rplus Rmult Rminus Ropp (0, 0) (1, 0) cadd cmul csub copp cre cconj Rle kip kz kmulv kdot klc1 (klc2 (fun x => x)) knormalize kstev k_scalars maxit dim
      (cph d) kcomb far kdiff HE (kph_unit d) kcomb_ok kdiff_len (fun a q => ksc (cph d a) q) (kphase1_ok d) kheap 1 kv0 res h eq_refl NZ HM A L) as [g [G1 [G2 _]]].
    exists g. auto.
Qed.

Print Assumptions C65_energy_belongs_to_the_vector.
Print Assumptions C65_eigenvector_when_residual_vanishes.
Print Assumptions C66_step_keeps_norm_and_energy.
Print Assumptions C66_exact_when_residual_vanishes.
Print Assumptions C66_mpi_norm_refuted.
Print Assumptions C66_case.
