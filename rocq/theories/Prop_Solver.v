(** C40-C42: the Lanczos solvers and the quantum number cover test. *)
From Coq Require Import List Arith Bool Lia ZArith Sorting.Permutation Sorting.Sorted.
From Verif Require Import Base Lanczos LanczosSpec LanczosEig LanczosExp LanczosInst Cover CoverFacts.
Import ListNotations.

(** ** C40, C41.  The numerical operations are arbitrary total functions. *)
Section Eigen.
Variables F V C : Type.
Variables (zeroF : F) (sq : F -> F) (isz : F -> bool).
Variable mul : V -> V.
Variable dot : V -> V -> F.
Variable lc1 : F -> V -> V -> V.
Variable lc2 : F -> V -> F -> V -> V -> V.
Variable normalize : V -> V * F.
Variable copy : V -> V.
Hypothesis copy_id : forall v, copy v = v.
Variable tri_e : list F -> list F -> F.
Variable tri_v : list F -> list F -> list C.
Variable comb : list C -> list V -> V.
Variable close : F -> F -> bool.
Variables maxit dim : nat.
Notation solver := (eig_solver F V C zeroF sq isz mul dot lc1 lc2 normalize copy tri_e tri_v comb close maxit dim).
Notation vanishes v0 := (vanishes F V zeroF isz mul dot lc1 lc2 normalize sq v0).
Notation satisfied v0 := (satisfied F V zeroF mul dot lc1 lc2 normalize sq v0 tri_e close maxit dim).
Notation energy v0 := (energy F V zeroF mul dot lc1 lc2 normalize sq v0 tri_e).
Notation ground v0 := (ground F V C zeroF sq mul dot lc1 lc2 normalize tri_v comb v0).
(** C40: it ends at the first iteration m < max_iterations whose residual vanishes or that meets a stop criterion, without any access
    outside an array, and returns the energy of the recurrence *)
Theorem C40_eigensolver_stays_in_its_arrays : forall h p v0, nth_error (cells V C h) p = Some (Some v0) -> 2 <= maxit ->
  exists m r h', solver p h = Ok (r, h') /\ 1 <= m < maxit /\ (forall j, 1 <= j < m -> vanishes v0 j = false /\ satisfied v0 j = false) /\
  (vanishes v0 m = true /\ iters F r = m /\ eng F r = energy v0 m \/
   vanishes v0 m = false /\ satisfied v0 m = true /\ iters F r = m + 1 /\ eng F r = energy v0 (m + 1)).
Proof.
  intros h p v0 HP HM. destruct (eig_solver_ok F V C zeroF sq isz mul dot lc1 lc2 normalize copy copy_id tri_e tri_v comb close v0 maxit dim h p HP HM) as [m [r [h' [A1 [A2 [A3 A4]]]]]].
  exists m, r, h'. split; [exact A4|]. split; [exact A1|]. split; [exact A2|]. destruct A3 as [[B1 [B2 [B3 _]]]|[B1 [B2 [B3 [B4 _]]]]]; [left|right]; auto.
Qed.
Theorem C40_eigensolver_few_iterations_refuted : forall h p v0, nth_error (cells V C h) p = Some (Some v0) ->
  maxit = 0 \/ maxit = 1 /\ vanishes v0 1 = false -> solver p h = Ub.
Proof.
  intros h p v0 HP [H|[H1 H2]]; [exact (eig_solver_0 F V C zeroF sq isz mul dot lc1 lc2 normalize copy tri_e tri_v comb close v0 maxit dim h p HP H)|
    exact (eig_solver_1 F V C zeroF sq isz mul dot lc1 lc2 normalize copy tri_e tri_v comb close v0 maxit dim h p HP H1 H2)].
Qed.
(** C41: everything the solver allocated and the given initial state are freed (freeing twice is undefined), except the result, which is
    the combination of the basis; nothing else on the heap changes *)
Theorem C41_eigensolver_frees : forall h p v0 r h', nth_error (cells V C h) p = Some (Some v0) -> 2 <= maxit -> solver p h = Ok (r, h') ->
  cleaned V C h p h' (gs F r) (ground v0 (iters F r)).
Proof.
  intros h p v0 r h' HP HM HR. destruct (eig_solver_ok F V C zeroF sq isz mul dot lc1 lc2 normalize copy copy_id tri_e tri_v comb close v0 maxit dim h p HP HM) as [m [r1 [h1 [A1 [A2 [A3 A4]]]]]].
  rewrite A4 in HR. injection HR as <- <-. destruct A3 as [[B1 [B2 [B3 B4]]]|[B1 [B2 [B3 [B4 B5]]]]]; [rewrite B2; exact B4|rewrite B3; exact B5].
Qed.
End Eigen.
Section Expo.
Variables F V C : Type.
Variables (zeroF : F) (isz : F -> bool).
Variable mul : V -> V.
Variable dot : V -> V -> F.
Variable lc1 : F -> V -> V -> V.
Variable lc2 : F -> V -> F -> V -> V -> V.
Variable normalize : V -> V * F.
Variable comb : list C -> list V -> V.
Variable cz : C.
Variable tri_x : list F -> list F -> list C.
Variable far : list C -> list C -> bool.
Variable diff : list C -> list C -> list C.
Variable scale : F -> list C -> list C.
Variable phase : F -> F -> V -> V.
Hypothesis tri_len : forall d e, length (tri_x d e) = length d.
Hypothesis diff_len : forall c d, length (diff c d) = length c.
Hypothesis scale_len : forall s c, length (scale s c) = length c.
Variables maxit dim : nat.
Notation off := (fun x : F => x).
Notation solver := (exp_solver F V C zeroF isz mul dot lc1 lc2 normalize comb cz tri_x far diff scale phase maxit dim).
Notation vanishes v0 := (vanishes F V zeroF isz mul dot lc1 lc2 normalize off v0).
Notation xsatisfied v0 := (xsatisfied F V C zeroF mul dot lc1 lc2 normalize off v0 maxit dim cz tri_x far).
Notation qvs v0 := (qvs F V zeroF mul dot lc1 lc2 normalize off v0).
Notation al v0 := (al F V zeroF mul dot lc1 lc2 normalize off v0).
Notation qv v0 := (qv F V zeroF mul dot lc1 lc2 normalize off v0).
Notation als v0 := (als F V zeroF mul dot lc1 lc2 normalize off v0).
Notation bes v0 := (bes F V zeroF mul dot lc1 lc2 normalize off v0).
Theorem C40_exponential_stays_in_its_arrays : forall h p v0, nth_error (cells V C h) p = Some (Some v0) -> 2 <= maxit ->
  exists m r h', solver p h = Ok (r, h') /\ 1 <= m < maxit /\ (forall j, 1 <= j < m -> vanishes v0 j = false /\ xsatisfied v0 j = false) /\
  (vanishes v0 m = true /\ xiters r = m \/ vanishes v0 m = false /\ xsatisfied v0 m = true /\ xiters r = m + 1).
Proof.
  intros h p v0 HP HM. destruct (exp_solver_ok F V C zeroF isz mul dot lc1 lc2 normalize comb cz tri_x far diff scale phase tri_len diff_len scale_len v0 maxit dim h p HP HM) as [m [r [h' [A1 [A2 [A3 A4]]]]]].
  exists m, r, h'. split; [exact A4|]. split; [exact A1|]. split; [exact A2|]. destruct A3 as [[B1 [B2 B3]]|[B1 [B2 [B3 B4]]]]; [left|right]; auto.
Qed.
Theorem C40_exponential_few_iterations_refuted : forall h p v0, nth_error (cells V C h) p = Some (Some v0) ->
  maxit = 0 \/ maxit = 1 /\ vanishes v0 1 = false -> solver p h = Ub.
Proof.
  intros h p v0 HP [H|[H1 H2]]; [exact (exp_solver_0 F V C zeroF isz mul dot lc1 lc2 normalize comb cz tri_x far diff scale phase v0 maxit dim h p HP H)|
    exact (exp_solver_1 F V C zeroF isz mul dot lc1 lc2 normalize comb cz tri_x far diff scale phase v0 maxit dim h p HP H1 H2)].
Qed.
(** C41: the result is, with k basis vectors, the norm of the initial state times the combination with the exponential's coefficients
    (for k = 1 a phase); all else is freed *)
Theorem C41_exponential_frees : forall h p v0 r h', nth_error (cells V C h) p = Some (Some v0) -> 2 <= maxit -> solver p h = Ok (r, h') ->
  cleaned V C h p h' (expmv r) (let n0 := snd (normalize v0) in let k := xiters r in
    if k =? 1 then phase n0 (al v0 0) (qv v0 0) else comb (scale n0 (tri_x (als v0 k) (bes v0 k))) (qvs v0 k)).
Proof.
  intros h p v0 r h' HP HM HR. destruct (exp_solver_ok F V C zeroF isz mul dot lc1 lc2 normalize comb cz tri_x far diff scale phase tri_len diff_len scale_len v0 maxit dim h p HP HM) as [m [r1 [h1 [A1 [A2 [A3 A4]]]]]].
  rewrite A4 in HR. injection HR as <- <-. destruct A3 as [[B1 [B2 B3]]|[B1 [B2 [B3 B4]]]].
  - rewrite B2. unfold evolved0, coefx in B3. cbv zeta. destruct (Nat.eqb_spec m 1); exact B3.
  - rewrite B3. unfold evolved, coefx in B4. cbv zeta. destruct (Nat.eqb_spec (m + 1) 1); [lia|exact B4].
Qed.
End Expo.

(** a run with two vectors stopped by the dimension, a run cut by max_iterations, and too few iterations *)
Example C40_case : (exists r h', toy_eig 9 1 = Ok (r, h') /\ iters Z r = 2) /\ (exists r h', toy_eig 4 100 = Ok (r, h') /\ iters Z r = 4) /\ toy_eig 1 9 = Ub /\ toy_eig 0 9 = Ub.
Proof. repeat split; try (do 2 eexists; split; [vm_compute; reflexivity|reflexivity]); vm_compute; reflexivity. Qed.
Example C41_case : (exists r h', toy_exp 4 100 = Ok (r, h') /\ xiters r = 4 /\ nth_error (cells _ _ h') 0 = Some (Some (7, 7)%Z) /\ nth_error (cells _ _ h') 2 = Some None /\ expmv r = 8) /\ toy_exp 1 9 = Ub.
Proof. split; [do 2 eexists; split; [vm_compute; reflexivity|vm_compute; auto]|vm_compute; reflexivity]. Qed.

(** ** C42: IsQNCovered *)
Section Cov.
Variable Q : Type.
Variable hash : Q -> nat.
Variable sort : list nat -> list nat.
Hypothesis sort_sorted : forall l, Sorted Nat.le (sort l).
Hypothesis sort_perm : forall l, Permutation l (sort l).
Variable Qeq : forall x y : Q, {x = y} + {x <> y}.
Theorem C42_answer_is_multiset_inclusion : forall s1 s2 b, (forall x y, In x (s1 ++ s2) -> In y (s1 ++ s2) -> hash x = hash y -> x = y) -> is_covered Q hash sort s1 s2 = Ok b ->
  (b = true <-> forall q, count_occ Qeq s2 q <= count_occ Qeq s1 q).
Proof. exact (covered_iff Q hash sort sort_sorted sort_perm Qeq). Qed.
Theorem C42_answers : forall s1 s2, s1 <> [] -> s2 <> [] -> NoDup (map hash s2) -> exists b, is_covered Q hash sort s1 s2 = Ok b.
Proof. exact (covered_defined Q hash sort sort_sorted sort_perm). Qed.
End Cov.
(** a sector repeated in the second list, or an empty second list, can make the walk leave the first list; equal hashes give wrong answers *)
Theorem C42_repeated_or_empty_refuted : (forall l, Sorted Nat.le (isort l)) /\ (forall l, Permutation l (isort l)) /\
  is_covered nat (fun q => q) isort [1; 1; 5] [1; 5; 5] = Ub /\ is_covered nat (fun q => q) isort [1] [] = Ub.
Proof. split; [exact isort_sorted|]. split; [exact isort_perm|]. split; reflexivity. Qed.
Theorem C42_collisions_refuted : is_covered nat (fun q => q mod 4) isort [1; 2] [5] = Ok true /\ ~ (forall q, count_occ Nat.eq_dec [5] q <= count_occ Nat.eq_dec [1; 2] q).
Proof. split; [reflexivity|]. intros H. specialize (H 5). cbn in H. lia. Qed.
Example C42_case : is_covered nat (fun q => q) isort [4; 1; 5; 2; 2] [5; 2] = Ok true /\ is_covered nat (fun q => q) isort [4; 1; 5; 2] [5; 3] = Ok false /\ NoDup (map (fun q => q) [5; 2]).
Proof. split; [reflexivity|]. split; [reflexivity|]. repeat constructor; cbn; lia. Qed.

Print Assumptions C40_eigensolver_stays_in_its_arrays.
Print Assumptions C40_eigensolver_few_iterations_refuted.
Print Assumptions C40_exponential_stays_in_its_arrays.
Print Assumptions C40_exponential_few_iterations_refuted.
Print Assumptions C41_eigensolver_frees.
Print Assumptions C41_exponential_frees.
Print Assumptions C42_answer_is_multiset_inclusion.
Print Assumptions C42_answers.
Print Assumptions C42_repeated_or_empty_refuted.
Print Assumptions C42_collisions_refuted.
