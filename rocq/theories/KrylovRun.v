(** The solvers return what the recurrence and the tridiagonal problem give. *)
From Coq Require Import List Arith Bool Lia Ring Ring_theory.
From Verif Require Import Base Lanczos LanczosSpec LanczosEig LanczosExp Krylov KrylovSpec KrylovFacts KrylovMain.
Import ListNotations.

Section Krylov.
Variables F K V : Type.
Variables (f0 f1 : F) (fadd fmul fsub : F -> F -> F) (fopp : F -> F) (k0 k1 : K) (kadd kmul ksub : K -> K -> K) (kopp : K -> K).
Variables (r : F -> K) (conj : K -> K) (le : F -> F -> Prop) (ip : V -> V -> K).
Variables (isz : F -> bool) (mul : V -> V) (dot : V -> V -> F) (lc1 : F -> V -> V -> V) (lc2 : F -> V -> F -> V -> V -> V).
Variable normalize : V -> V * F.
Variable stev : list F -> list F -> list F * list F.
Hypothesis SC : scalars f0 f1 fadd fmul fsub fopp k0 k1 kadd kmul ksub kopp r conj le.
Variables maxit dim : nat.
Section Eig.
Variables (sq rt : F -> F) (copy : V -> V) (comb : list F -> list V -> V) (close : F -> F -> bool).
Hypothesis HE : hermitian f0 k0 k1 kadd kmul ksub r conj ip isz mul dot lc1 lc2 normalize sq rt.
Hypothesis copy_id : forall v, copy v = v.
Hypothesis comb_ok : forall c l x, ip (comb c l) x = suml K k0 kadd (fun p => kmul (r (fst p)) (ip (snd p) x)) (List.combine c l).
Notation solver := (eig_solver F V F f0 sq isz mul dot lc1 lc2 normalize copy (gs_eng F f0 stev) (gs_vec F f0 stev) comb close maxit dim).
Notation vanishes v0 := (vanishes F V f0 isz mul dot lc1 lc2 normalize sq v0).
Notation als v0 := (als F V f0 mul dot lc1 lc2 normalize sq v0).
Notation bes v0 := (bes F V f0 mul dot lc1 lc2 normalize sq v0).
Notation lapack_ok v0 := (lapack_ok f0 f1 fadd fmul le stev (als v0) (bes v0)).

Lemma eig_all : forall h p v0 res h', nth_error (cells V F h) p = Some (Some v0) -> isz (snd (normalize v0)) = false ->
  2 <= maxit -> solver p h = Ok (res, h') -> lapack_ok v0 (iters F res) ->
  exists g, nth_error (cells V F h') (gs F res) = Some (Some g) /\ ip g g = k1 /\ ip (mul g) g = r (eng F res) /\
    (let u := fst (normalize v0) in le (eng F res) (dot (mul u) u)) /\
    (vanishes v0 (iters F res) = true -> forall x, ip (mul g) x = kmul (r (eng F res)) (ip g x)).
Proof.
  intros h p v0 res h' HP NZ HM HR HL.
  destruct (eig_solver_ok F V F f0 sq isz mul dot lc1 lc2 normalize copy copy_id (gs_eng F f0 stev) (gs_vec F f0 stev) comb close v0 maxit dim h p HP HM) as [m [r1 [h1 [A1 [A2 [A3 A4]]]]]].
  rewrite A4 in HR. injection HR as -> ->.
  assert (X : cleaned V F h p h' (gs F res) (ground F V F f0 sq mul dot lc1 lc2 normalize (gs_vec F f0 stev) comb v0 (iters F res)) /\
    eng F res = energy F V f0 mul dot lc1 lc2 normalize sq v0 (gs_eng F f0 stev) (iters F res) /\ 0 < iters F res /\
    forall j, j + 1 < iters F res -> isz (be F V f0 mul dot lc1 lc2 normalize sq v0 j) = false).
  { destruct A3 as [[B1 [B2 [B3 B4]]]|[B1 [B2 [B3 [B4 B5]]]]].
    - rewrite B2. split; [exact B4|]. split; [exact B3|]. split; [lia|]. intros j Hj. destruct (A2 (j + 1)) as [J _]; [lia|]. unfold LanczosSpec.vanishes in J. replace (j + 1 - 1) with j in J by lia. exact J.
    - rewrite B3. split; [exact B5|]. split; [exact B4|]. split; [lia|]. intros j Hj. assert (J : vanishes v0 (j + 1) = false) by (destruct (Nat.eq_dec (j + 1) m) as [->|]; [exact B1|apply A2; lia]).
      unfold LanczosSpec.vanishes in J. replace (j + 1 - 1) with j in J by lia. exact J. }
  destruct X as [X1 [X2 [X3 X4]]]. exists (ground F V F f0 sq mul dot lc1 lc2 normalize (gs_vec F f0 stev) comb v0 (iters F res)).
  split; [apply X1|]. rewrite X2.
  destruct (ground_ok F K V f0 f1 fadd fmul fsub fopp k0 k1 kadd kmul ksub kopp r conj le ip isz mul dot lc1 lc2 normalize sq rt SC HE v0 NZ stev comb comb_ok (iters F res) X4 X3) as [C1 [C2 [C3 C4]]]; [intros N1; apply HL; lia|]. auto.
Qed.
Lemma eig_energy : forall h p v0 res h', nth_error (cells V F h) p = Some (Some v0) -> isz (snd (normalize v0)) = false ->
  2 <= maxit -> solver p h = Ok (res, h') -> lapack_ok v0 (iters F res) ->
  exists g, nth_error (cells V F h') (gs F res) = Some (Some g) /\ ip g g = k1 /\ ip (mul g) g = r (eng F res) /\
    let u := fst (normalize v0) in le (eng F res) (dot (mul u) u).
Proof. intros h p v0 res h' HP NZ HM HR HL. destruct (eig_all h p v0 res h' HP NZ HM HR HL) as [g [A [B [C [D _]]]]]. exists g. auto. Qed.
Lemma eig_vec : forall h p v0 res h', nth_error (cells V F h) p = Some (Some v0) -> isz (snd (normalize v0)) = false ->
  2 <= maxit -> solver p h = Ok (res, h') -> lapack_ok v0 (iters F res) -> vanishes v0 (iters F res) = true ->
  exists g, nth_error (cells V F h') (gs F res) = Some (Some g) /\ forall x, ip (mul g) x = kmul (r (eng F res)) (ip g x).
Proof. intros h p v0 res h' HP NZ HM HR HL HV. destruct (eig_all h p v0 res h' HP NZ HM HR HL) as [g [A [B [C [D E]]]]]. exists g. auto. Qed.
End Eig.
Section Exp.
Variables (ph : F -> K) (comb : list K -> list V -> V) (far : list K -> list K -> bool) (diff : list K -> list K -> list K).
Notation off := (fun x : F => x).
Hypothesis HE : hermitian f0 k0 k1 kadd kmul ksub r conj ip isz mul dot lc1 lc2 normalize off off.
Hypothesis ph_unit : forall x, kmul (ph x) (conj (ph x)) = k1.
Hypothesis comb_ok : forall c l x, ip (comb c l) x = suml K k0 kadd (fun p => kmul (fst p) (ip (snd p) x)) (List.combine c l).
Hypothesis diff_len : forall c d, length (diff c d) = length c.
Notation tri_x := (expme1 F K f0 k0 kadd kmul r ph stev).
Notation vanishes v0 := (vanishes F V f0 isz mul dot lc1 lc2 normalize off v0).
Notation als v0 := (als F V f0 mul dot lc1 lc2 normalize off v0).
Notation bes v0 := (bes F V f0 mul dot lc1 lc2 normalize off v0).
Notation lapack_ok v0 := (lapack_ok f0 f1 fadd fmul le stev (als v0) (bes v0)).

Lemma tx_len : forall d e, length (tri_x d e) = length d.
Proof. intros. unfold expme1. destruct (stev d e). rewrite map_length, seq_length. reflexivity. Qed.
Section Any.
Variables (scale : F -> list K -> list K) (phase : F -> F -> V -> V).
Hypothesis scale_len : forall s c, length (scale s c) = length c.
Lemma exp_vec : forall h p v0 res h', nth_error (cells V K h) p = Some (Some v0) -> 2 <= maxit ->
  exp_solver F V K f0 isz mul dot lc1 lc2 normalize comb k0 tri_x far diff scale phase maxit dim p h = Ok (res, h') ->
  0 < xiters res /\ (forall j, j + 1 < xiters res -> isz (be F V f0 mul dot lc1 lc2 normalize off v0 j) = false) /\
  nth_error (cells V K h') (expmv res) = Some (Some (if xiters res =? 1 then phase (snd (normalize v0)) (al F V f0 mul dot lc1 lc2 normalize off v0 0) (qv F V f0 mul dot lc1 lc2 normalize off v0 0)
    else comb (scale (snd (normalize v0)) (tri_x (als v0 (xiters res)) (bes v0 (xiters res)))) (qvs F V f0 mul dot lc1 lc2 normalize off v0 (xiters res)))).
Proof.
  intros h p v0 res h' HP HM HR.
  destruct (exp_solver_ok F V K f0 isz mul dot lc1 lc2 normalize comb k0 tri_x far diff scale phase tx_len diff_len scale_len v0 maxit dim h p HP HM) as [m [r1 [h1 [A1 [A2 [A3 A4]]]]]].
  rewrite A4 in HR. injection HR as -> ->.
  destruct A3 as [[B1 [B2 B3]]|[B1 [B2 [B3 B4]]]].
  - rewrite B2. split; [lia|]. split.
    + intros j Hj. destruct (A2 (j + 1)) as [J _]; [lia|]. unfold LanczosSpec.vanishes in J. replace (j + 1 - 1) with j in J by lia. exact J.
    + unfold evolved0, coefx in B3. destruct (Nat.eqb_spec m 1); apply B3.
  - rewrite B3. split; [lia|]. split.
    + intros j Hj. assert (J : vanishes v0 (j + 1) = false) by (destruct (Nat.eq_dec (j + 1) m) as [->|]; [exact B1|apply A2; lia]).
      unfold LanczosSpec.vanishes in J. replace (j + 1 - 1) with j in J by lia. exact J.
    + unfold evolved, coefx in B4. destruct (Nat.eqb_spec (m + 1) 1); [lia|apply B4].
Qed.
End Any.
Section Serial.
Variable phase : F -> F -> V -> V.
Hypothesis phase_ok : forall n a q x, ip (phase n a q) x = kmul (kmul (r n) (ph a)) (ip q x).
Notation solver := (exp_solver F V K f0 isz mul dot lc1 lc2 normalize comb k0 tri_x far diff (vscale F K kmul r) phase maxit dim).
Lemma vs_len : forall s c, length (vscale F K kmul r s c) = length c.
Proof. intros. apply map_length. Qed.
Lemma exp_keeps : forall h p v0 res h', nth_error (cells V K h) p = Some (Some v0) -> isz (snd (normalize v0)) = false ->
  2 <= maxit -> solver p h = Ok (res, h') -> lapack_ok v0 (xiters res) ->
  exists g, nth_error (cells V K h') (expmv res) = Some (Some g) /\ ip g g = ip v0 v0 /\ ip (mul g) g = ip (mul v0) v0.
Proof.
  intros h p v0 res h' HP NZ HM HR HL. destruct (exp_vec _ phase vs_len h p v0 res h' HP HM HR) as [X1 [X2 X3]]. eexists. split; [exact X3|].
  destruct (evolved_modes F K V f0 f1 fadd fmul fsub fopp k0 k1 kadd kmul ksub kopp r conj le ip isz mul dot lc1 lc2 normalize off off SC HE v0 NZ stev ph ph_unit comb comb_ok (fun _ => phase (snd (normalize v0))) (snd (normalize v0)) (fun _ => phase_ok _) (xiters res) X2 X1) as [_ [_ [_ [_ [_ [_ [N [E _]]]]]]]]; [intros N1; apply HL; lia|].
  destruct (init_norm F K V f0 f1 fadd fmul fsub fopp k0 k1 kadd kmul ksub kopp r conj le ip isz mul dot lc1 lc2 normalize off off SC HE v0 NZ) as [I1 I2]. rewrite I1, I2. split; [exact N|exact E].
Qed.
Lemma exp_exact : forall h p v0 res h', nth_error (cells V K h) p = Some (Some v0) -> isz (snd (normalize v0)) = false ->
  2 <= maxit -> solver p h = Ok (res, h') -> lapack_ok v0 (xiters res) -> vanishes v0 (xiters res) = true ->
  exists g (k : nat) (d : nat -> F) (w : nat -> V), nth_error (cells V K h') (expmv res) = Some (Some g) /\
  (forall x, ip v0 x = sumk K k0 kadd k (fun j => ip (w j) x)) /\
  (forall j, j < k -> forall x, ip (mul (w j)) x = kmul (r (d j)) (ip (w j) x)) /\
  (forall x, ip g x = sumk K k0 kadd k (fun j => kmul (ph (d j)) (ip (w j) x))).
Proof.
  intros h p v0 res h' HP NZ HM HR HL HV. destruct (exp_vec _ phase vs_len h p v0 res h' HP HM HR) as [X1 [X2 X3]]. eexists. exists (xiters res).
  destruct (evolved_exact F K V f0 f1 fadd fmul fsub fopp k0 k1 kadd kmul ksub kopp r conj le ip isz mul dot lc1 lc2 normalize off off SC HE v0 NZ stev ph ph_unit comb comb_ok (fun _ => phase (snd (normalize v0))) (snd (normalize v0)) (fun _ => phase_ok _) (xiters res) X2 X1) as [d [w [W1 [W2 W3]]]]; [intros N1; apply HL; lia|exact HV|reflexivity|].
  exists d, w. split; [exact X3|]. split; [exact W1|]. split; [exact W2|exact W3].
Qed.
End Serial.
Section Mpi.
Variable phase1 : F -> V -> V.
Hypothesis phase1_ok : forall a q x, ip (phase1 a q) x = kmul (ph a) (ip q x).
Notation solver := (mpi_exp_solver F V K f0 isz mul dot lc1 lc2 normalize comb k0 tri_x far diff phase1 maxit dim).
Add Ring KK : (sc_k _ _ _ _ _ _ _ _ _ _ _ _ _ _ _ SC).
Lemma mpi_norm : forall h p v0 res h', nth_error (cells V K h) p = Some (Some v0) -> isz (snd (normalize v0)) = false ->
  2 <= maxit -> solver p h = Ok (res, h') -> lapack_ok v0 (xiters res) ->
  exists g, nth_error (cells V K h') (expmv res) = Some (Some g) /\ ip g g = k1 /\ ip v0 v0 = kmul (r (snd (normalize v0))) (r (snd (normalize v0))).
Proof.
  intros h p v0 res h' HP NZ HM HR HL. destruct (exp_vec (fun _ c => c) (fun _ a q => phase1 a q) (fun _ _ => eq_refl) h p v0 res h' HP HM HR) as [X1 [X2 X3]]. eexists. split; [exact X3|].
  assert (P : forall n a q x, ip ((fun (_ a : F) (q : V) => phase1 a q) n a q) x = kmul (kmul (r f1) (ph a)) (ip q x)).
  { intros. cbv beta. rewrite phase1_ok, (sc_1 _ _ _ _ _ _ _ _ _ _ _ _ _ _ _ SC). ring. }
  destruct (evolved_modes F K V f0 f1 fadd fmul fsub fopp k0 k1 kadd kmul ksub kopp r conj le ip isz mul dot lc1 lc2 normalize off off SC HE v0 NZ stev ph ph_unit comb comb_ok (fun _ a q => phase1 a q) f1 P (xiters res) X2 X1) as [_ [_ [_ [_ [_ [_ [N [E _]]]]]]]]; [intros N1; apply HL; lia|].
  destruct (init_norm F K V f0 f1 fadd fmul fsub fopp k0 k1 kadd kmul ksub kopp r conj le ip isz mul dot lc1 lc2 normalize off off SC HE v0 NZ) as [I1 I2]. split; [|exact I1].
  assert (V1 : forall c, vscale F K kmul r f1 c = c).
  { intros c. unfold vscale. rewrite (sc_1 _ _ _ _ _ _ _ _ _ _ _ _ _ _ _ SC). rewrite (map_ext _ (fun x => x)) by (intros; ring). apply map_id. }
  rewrite V1 in N. rewrite N. rewrite (sc_1 _ _ _ _ _ _ _ _ _ _ _ _ _ _ _ SC). ring.
Qed.
End Mpi.
End Exp.
End Krylov.
