(** Tensors with four legs are an inner product space on which a projected Hermitian operator acts; one update lowers the energy. *)
From Coq Require Import List Arith Bool Lia Reals Lra Psatz Ring_theory.
From Verif Require Import Base FiniteMps FmpsSpec FmpsFacts EffHam EffHamSpec EffHamFacts ChainSpec ChainFacts Lanczos LanczosSpec LanczosEig Krylov KrylovSpec KrylovRun Cx KrylovInst DmrgUpdate.
Import ListNotations.

Lemma cx_ring : ring_theory c0 c1 cadd cmul csub copp (@eq cx).
Proof. exact (sc_k _ _ _ _ _ _ _ _ _ _ _ _ _ _ _ k_scalars). Qed.
Lemma cconj0 : cconj c0 = c0. Proof. unfold cconj, c0, c1. cbn [fst snd]. f_equal. ring. Qed.
Lemma cconj1 : cconj c1 = c1. Proof. unfold cconj, c0, c1. cbn [fst snd]. f_equal. ring. Qed.
Lemma cconj_add : forall x y, cconj (cadd x y) = cadd (cconj x) (cconj y). Proof. exact (sc_cadd _ _ _ _ _ _ _ _ _ _ _ _ _ _ _ k_scalars). Qed.
Lemma cconj_mul : forall x y, cconj (cmul x y) = cmul (cconj x) (cconj y). Proof. exact (sc_cmul _ _ _ _ _ _ _ _ _ _ _ _ _ _ _ k_scalars). Qed.
Lemma cconj_conj : forall x, cconj (cconj x) = x. Proof. exact (sc_cc _ _ _ _ _ _ _ _ _ _ _ _ _ _ _ k_scalars). Qed.
Add Ring cxring : cx_ring.
Notation csum := (FmpsSpec.sumn cx c0 cadd).
Notation cdot4 := (dot4 cx c0 cadd cmul cconj).

Lemma csum_ext : forall n f g, (forall i, i < n -> f i = g i) -> csum n f = csum n g.
Proof. exact (sumn_ext cx c0 cadd). Qed.
Lemma csum_lin : forall n k m f g, csum n (fun i => cadd (cmul k (f i)) (cmul m (g i))) = cadd (cmul k (csum n f)) (cmul m (csum n g)).
Proof. induction n as [|n IH]; intros; cbn [FmpsSpec.sumn]; [ring|]. rewrite IH. ring. Qed.
Lemma csum_pos : forall n f, (forall i, i < n -> (0 <= fst (f i))%R) -> (0 <= fst (csum n f))%R /\ (fst (csum n f) = 0%R -> forall i, i < n -> fst (f i) = 0%R).
Proof.
  induction n as [|n IH]; intros f H; cbn [FmpsSpec.sumn]; [split; [change (0 <= 0)%R; lra|lia]|]. destruct (IH f) as [A B]; [auto|]. pose proof (H n (Nat.lt_succ_diag_r n)) as P.
  change (fst (cadd (csum n f) (f n))) with (fst (csum n f) + fst (f n))%R. split; [lra|]. intros E i Hi. destruct (Nat.eq_dec i n) as [->|]; [lra|]. apply B; [lra|lia].
Qed.
Lemma sq_pos : forall z, (0 <= fst (cmul z (cconj z)))%R /\ (fst (cmul z (cconj z)) = 0%R -> z = c0).
Proof. intros [a b]. unfold cmul, cconj. cbn [fst snd]. split; [nra|]. intros E. assert (a = 0%R) by nra. assert (b = 0%R) by nra. subst. reflexivity. Qed.

Section Vec.
Variables D0 p1 p2 D3 : nat.
Notation ip := (v_ip D0 p1 p2 D3). Notation dot := (v_dot D0 p1 p2 D3). Notation normalize := (v_normalize D0 p1 p2 D3).
Lemma ip_dot4 : forall x y, ip x y = cdot4 D0 p1 p2 D3 y x.
Proof. intros x y. unfold v_ip, dot4. do 4 (apply csum_ext; intros). ring. Qed.
Lemma ip_conj : forall x y, cconj (ip x y) = ip y x.
Proof. intros x y. rewrite !ip_dot4. apply (dot4_conj cx c0 c1 cadd cmul csub copp cx_ring cconj cconj0 cconj_add cconj_mul cconj_conj). Qed.
Lemma ip_lin : forall k m x y z, ip (fun a b c d => cadd (cmul k (x a b c d)) (cmul m (y a b c d))) z = cadd (cmul k (ip x z)) (cmul m (ip y z)).
Proof.
  intros k m x y z. unfold v_ip. do 3 (rewrite <- csum_lin; apply csum_ext; intros). rewrite <- csum_lin. apply csum_ext. intros. ring.
Qed.
Lemma ip_ext : forall x x' y, (forall a s1 s2 b, a < D0 -> s1 < p1 -> s2 < p2 -> b < D3 -> x a s1 s2 b = x' a s1 s2 b) -> ip x y = ip x' y.
Proof. intros x x' y H. unfold v_ip. do 4 (apply csum_ext; intros). rewrite H by auto. reflexivity. Qed.
Lemma ip_lc1 : forall a q g x, ip (v_lc1 a q g) x = csub (ip g x) (cmul (cre a) (ip q x)).
Proof.
  intros a q g x. transitivity (ip (fun i j k l => cadd (cmul c1 (g i j k l)) (cmul (copp (cre a)) (q i j k l))) x).
  - apply ip_ext. intros. unfold v_lc1. ring.
  - rewrite ip_lin. ring.
Qed.
Lemma ip_scale : forall a q x, ip (v_scale a q) x = cmul (cre a) (ip q x).
Proof.
  intros a q x. transitivity (ip (fun i j k l => cadd (cmul (cre a) (q i j k l)) (cmul c0 (q i j k l))) x).
  - apply ip_ext. intros. unfold v_scale. ring.
  - rewrite ip_lin. ring.
Qed.
Lemma ip_comb : forall c l x, ip (v_comb c l) x = suml cx c0 cadd (fun p => cmul (cre (fst p)) (ip (snd p) x)) (List.combine c l).
Proof.
  intros c l x. unfold v_comb, suml. induction (List.combine c l) as [|p q IH]; cbn [fold_right].
  - transitivity (ip (v_scale 0 (fun _ _ _ _ => c0)) x).
    + apply ip_ext. intros. unfold v_scale. change (cre 0) with c0. ring.
    + rewrite ip_scale. change (cre 0) with c0. ring.
  - rewrite <- IH. transitivity (ip (fun i j k m => cadd (cmul (cre (fst p)) (snd p i j k m)) (cmul c1 (fold_right (fun (p : real * cten4) s => cadd (cmul (cre (fst p)) (snd p i j k m)) s) c0 q))) x).
    + apply ip_ext. intros. ring.
    + rewrite (ip_lin (cre (fst p)) c1 (snd p) (fun i j k m => fold_right (fun (p : real * cten4) s => cadd (cmul (cre (fst p)) (snd p i j k m)) s) c0 q)). ring.
Qed.
Lemma dot_pos : forall v, (0 <= dot v v)%R /\ (dot v v = 0%R -> forall a s1 s2 b, a < D0 -> s1 < p1 -> s2 < p2 -> b < D3 -> v a s1 s2 b = c0).
Proof.
  intros v. unfold v_dot, v_ip.
  assert (P3 : forall a s1 s2, (0 <= fst (csum D3 (fun b => cmul (v a s1 s2 b) (cconj (v a s1 s2 b)))))%R) by (intros; apply csum_pos; intros; apply sq_pos).
  assert (P2 : forall a s1, (0 <= fst (csum p2 (fun s2 => csum D3 (fun b => cmul (v a s1 s2 b) (cconj (v a s1 s2 b))))))%R) by (intros; apply csum_pos; intros; apply P3).
  assert (P1 : forall a, (0 <= fst (csum p1 (fun s1 => csum p2 (fun s2 => csum D3 (fun b => cmul (v a s1 s2 b) (cconj (v a s1 s2 b)))))))%R) by (intros; apply csum_pos; intros; apply P2).
  split; [apply csum_pos; intros; apply P1|]. intros E a s1 s2 b Ha H1 H2 Hb. apply sq_pos.
  match type of E with fst (csum _ ?f) = _ => pose proof (proj2 (csum_pos D0 f (fun i _ => P1 i)) E a Ha) as E1 end. cbv beta in E1.
  match type of E1 with fst (csum _ ?f) = _ => pose proof (proj2 (csum_pos p1 f (fun i _ => P2 a i)) E1 s1 H1) as E2 end. cbv beta in E2.
  match type of E2 with fst (csum _ ?f) = _ => pose proof (proj2 (csum_pos p2 f (fun i _ => P3 a s1 i)) E2 s2 H2) as E3 end. cbv beta in E3.
  match type of E3 with fst (csum _ ?f) = _ => exact (proj2 (csum_pos D3 f (fun i _ => proj1 (sq_pos _))) E3 b Hb) end.
Qed.
Lemma dot_re : forall x y, cconj (ip x y) = ip x y -> cre (dot x y) = ip x y.
Proof. intros x y H. apply (f_equal snd) in H. unfold v_dot. destruct (ip x y) as [a b]. unfold cconj, cre in *. cbn [fst snd] in *. f_equal. lra. Qed.
Lemma dot_self : forall x, cre (dot x x) = ip x x.
Proof. intros x. apply dot_re. apply ip_conj. Qed.
Lemma ip_zero : forall v x, dot v v = 0%R -> ip v x = c0.
Proof.
  intros v x E. transitivity (ip (v_scale 0 v) x).
  - apply ip_ext. intros. rewrite (proj2 (dot_pos v) E) by auto. unfold v_scale. change (cre 0) with c0. ring.
  - rewrite ip_scale. change (cre 0) with c0. ring.
Qed.
Lemma zero_true : forall x, is_zero x = true -> x = 0%R. Proof. exact kz_true. Qed.
Lemma zero_false : forall x, is_zero x = false -> x <> 0%R. Proof. exact kz_false. Qed.
Lemma zero_0 : is_zero 0 = true. Proof. exact kz_0. Qed.
Lemma norm_of : forall v x, ip v x = cmul (cre (snd (normalize v))) (ip (fst (normalize v)) x).
Proof.
  intros v x. unfold v_normalize. pose proof (dot_pos v) as [P _]. destruct (is_zero (sqrt (dot v v))) eqn:E; cbn [fst snd].
  - apply zero_true in E. apply sqrt_eq_0 in E; [|exact P]. rewrite (ip_zero v x E). change (cre 0) with c0. ring.
  - apply zero_false in E. rewrite ip_scale. transitivity (cmul (cre (sqrt (dot v v) * / sqrt (dot v v))) (ip v x)).
    + rewrite Rinv_r by exact E. change (cre 1) with c1. ring.
    + rewrite (sc_mul _ _ _ _ _ _ _ _ _ _ _ _ _ _ _ k_scalars). ring.
Qed.
Lemma norm_unit : forall v, is_zero (snd (normalize v)) = false -> ip (fst (normalize v)) (fst (normalize v)) = c1.
Proof.
  intros v. unfold v_normalize. pose proof (dot_pos v) as [P _]. destruct (is_zero (sqrt (dot v v))) eqn:E; cbn [fst snd]; [rewrite zero_0; discriminate|]. intros _. apply zero_false in E.
  rewrite ip_scale, <- (ip_conj (v_scale (/ sqrt (dot v v)) v) v), ip_scale, cconj_mul, ip_conj, (sc_cr _ _ _ _ _ _ _ _ _ _ _ _ _ _ _ k_scalars), <- dot_self.
  rewrite <- !(sc_mul _ _ _ _ _ _ _ _ _ _ _ _ _ _ _ k_scalars). change c1 with (cre 1). f_equal. rewrite <- (sqrt_sqrt (dot v v)) at 3 by exact P. field. exact E.
Qed.
Lemma norm_nonneg : forall v, (0 <= snd (normalize v))%R.
Proof. intros v. unfold v_normalize. destruct (is_zero _); cbn [snd]; [lra|apply sqrt_pos]. Qed.
Lemma norm_sq : forall v, cmul (cre (snd (normalize v))) (cre (snd (normalize v))) = ip v v.
Proof.
  intros v. rewrite <- (sc_mul _ _ _ _ _ _ _ _ _ _ _ _ _ _ _ k_scalars), <- dot_self. f_equal. unfold v_normalize. pose proof (dot_pos v) as [P _]. destruct (is_zero (sqrt (dot v v))) eqn:E; cbn [snd]; [|apply sqrt_sqrt; exact P].
  apply zero_true in E. apply sqrt_eq_0 in E; [|exact P]. rewrite E. ring.
Qed.
Lemma norm_nz : forall v, ip v v <> c0 -> is_zero (snd (normalize v)) = false.
Proof. intros v H. destruct (is_zero (snd (normalize v))) eqn:E; [|reflexivity]. apply zero_true in E. exfalso. apply H. rewrite <- norm_sq, E. change (cre 0) with c0. ring. Qed.

(** the space with an operator that is Hermitian on it *)
Variable mul : cten4 -> cten4.
Hypothesis mul_h : forall x y, ip (mul x) y = ip x (mul y).
Lemma v_hermitian : hermitian 0%R c0 c1 cadd cmul csub cre cconj ip is_zero mul dot v_lc1 v_lc2 normalize (fun x => (x * x)%R) sqrt.
Proof.
  split.
  - exact ip_conj.
  - exact mul_h.
  - exact dot_re.
  - exact ip_lc1.
  - intros a q n q' g x. unfold v_lc2. rewrite !ip_lc1. ring.
  - exact norm_of.
  - exact norm_unit.
  - intros v. apply sqrt_square. apply norm_nonneg.
  - exact zero_true.
  - intros n k H E. apply zero_false in H. assert (E1 := f_equal fst E). assert (E2 := f_equal snd E). unfold cmul, cre, c0 in *. cbn [fst snd] in *. destruct k as [a b]. cbn [fst snd] in *. f_equal; nra.
Qed.
Variables (stev : list real -> list real -> list real * list real) (close : real -> real -> bool) (maxit dim : nat).
Hypothesis Hmax : 2 <= maxit.
(** the run of the solver from [v]: LAPACK solves the problems it is given *)
Definition lapack_good (v : cten4) : Prop := forall r g, v_lanczos D0 p1 p2 D3 mul stev close maxit dim v = Ok (r, g) ->
  lapack_ok 0%R 1%R Rplus Rmult Rle stev (als real cten4 0%R mul dot v_lc1 v_lc2 normalize (fun x => (x * x)%R) v) (bes real cten4 0%R mul dot v_lc1 v_lc2 normalize (fun x => (x * x)%R) v) (iters real r).
Lemma lanczos_ok : forall v, ip v v <> c0 -> lapack_good v -> exists r g, v_lanczos D0 p1 p2 D3 mul stev close maxit dim v = Ok (r, g) /\
  ip g g = c1 /\ ip (mul g) g = cre (eng real r) /\ (eng real r * dot v v <= fst (ip (mul v) v))%R.
Proof.
  intros v NZ HL. pose proof (norm_nz v NZ) as IZ.
  destruct (eig_solver_ok real cten4 real 0%R (fun x => (x * x)%R) is_zero mul dot v_lc1 v_lc2 normalize (fun x => x) (fun _ => eq_refl) (gs_eng real 0%R stev) (gs_vec real 0%R stev) v_comb close v maxit dim (mkH cten4 real [Some v] []) 0 eq_refl Hmax)
    as [m [r [h [_ [_ [_ RUN]]]]]].
  assert (X : exists g, rd cten4 real (gs real r) h = Ok g).
  { destruct (eig_solver_ok real cten4 real 0%R (fun x => (x * x)%R) is_zero mul dot v_lc1 v_lc2 normalize (fun x => x) (fun _ => eq_refl) (gs_eng real 0%R stev) (gs_vec real 0%R stev) v_comb close v maxit dim (mkH cten4 real [Some v] []) 0 eq_refl Hmax)
      as [m' [r' [h' [_ [_ [O RUN']]]]]]. rewrite RUN in RUN'. injection RUN' as <- <-. unfold rd.
    destruct O as [[_ [_ [_ O]]]|[_ [_ [_ [_ O]]]]]; destruct O as [_ [_ [_ [O _]]]]; rewrite O; eexists; reflexivity. }
  destruct X as [g G]. assert (RL : v_lanczos D0 p1 p2 D3 mul stev close maxit dim v = Ok (r, g)) by (unfold v_lanczos; rewrite RUN; cbn [bind]; rewrite G; reflexivity).
  exists r, g. split; [exact RL|].
  destruct (eig_energy real cx cten4 0%R 1%R Rplus Rmult Rminus Ropp c0 c1 cadd cmul csub copp cre cconj Rle ip is_zero mul dot v_lc1 v_lc2 normalize stev k_scalars maxit dim (fun x => (x * x)%R) sqrt (fun x => x) v_comb close v_hermitian (fun _ => eq_refl) ip_comb
    (mkH cten4 real [Some v] []) 0 v r h eq_refl IZ Hmax RUN (HL r g RL)) as [g' [G1 [G2 [G3 G4]]]].
  unfold rd in G. rewrite G1 in G. injection G as <-. split; [exact G2|]. split; [exact G3|].
  set (u := fst (normalize v)) in *. set (n := snd (normalize v)) in *. cbv zeta in G4.
  assert (E1 : ip (mul v) v = cmul (cmul (cre n) (cre n)) (ip (mul u) u)).
  { rewrite mul_h, norm_of. fold u n. rewrite <- (mul_h u v), <- (ip_conj v (mul u)), (norm_of v (mul u)), cconj_mul, ip_conj, (sc_cr _ _ _ _ _ _ _ _ _ _ _ _ _ _ _ k_scalars). fold u n. ring. }
  assert (E2 : cre (dot (mul u) u) = ip (mul u) u) by (apply dot_re; rewrite ip_conj; symmetry; apply mul_h).
  assert (E3 : (dot v v = n * n)%R). { pose proof (norm_sq v) as S. rewrite <- dot_self, <- (sc_mul _ _ _ _ _ _ _ _ _ _ _ _ _ _ _ k_scalars) in S. fold n in S. unfold cre in S. injection S as S. symmetry. exact S. }
  rewrite E1, <- E2, <- !(sc_mul _ _ _ _ _ _ _ _ _ _ _ _ _ _ _ k_scalars). unfold cre. cbn [fst]. rewrite E3. nra.
Qed.
End Vec.
