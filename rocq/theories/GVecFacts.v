(** Tensors with any legs are an inner product space; what the two solvers give on it. *)
From Coq Require Import List Arith Bool Lia Reals Lra Psatz Ring_theory.
From Verif Require Import Base FiniteMps FmpsSpec EffHamSpec Legs ChainFacts Lanczos LanczosSpec LanczosEig LanczosExp Krylov KrylovSpec KrylovRun Cx KrylovInst DmrgStep GVec.
Import ListNotations.
Add Ring cxring : cx_ring.
Notation cgsum := (gsum cx c0 cadd).

Lemma gsum_ext : forall ds f g, (forall k, In k (configs ds) -> f k = g k) -> cgsum ds f = cgsum ds g.
Proof.
  induction ds as [|d ds IH]; intros f g H; cbn [gsum configs] in *; [apply H; left; reflexivity|]. apply csum_ext. intros i Hi. apply IH. intros k Ik. apply H. apply in_flat_map. exists i. split; [apply in_seq; lia|]. apply in_map. exact Ik.
Qed.
Lemma gsum_lin : forall ds k m f g, cgsum ds (fun i => cadd (cmul k (f i)) (cmul m (g i))) = cadd (cmul k (cgsum ds f)) (cmul m (cgsum ds g)).
Proof. induction ds as [|d ds IH]; intros; cbn [gsum]; [reflexivity|]. rewrite <- csum_lin. apply csum_ext. intros i _. rewrite IH. reflexivity. Qed.
Lemma gsum_conj : forall ds f, cconj (cgsum ds f) = cgsum ds (fun k => cconj (f k)).
Proof. induction ds as [|d ds IH]; intros f; cbn [gsum]; [reflexivity|]. rewrite (conj_sumn cx c0 cadd cconj cconj0 cconj_add). apply csum_ext. intros i _. apply IH. Qed.
Lemma gsum_pos : forall ds f, (forall k, (0 <= fst (f k))%R) -> (0 <= fst (cgsum ds f))%R /\ (fst (cgsum ds f) = 0%R -> forall k, In k (configs ds) -> fst (f k) = 0%R).
Proof.
  induction ds as [|d ds IH]; intros f H; cbn [gsum configs]; [split; [apply H|]; intros E k [<-|[]]; exact E|].
  assert (P : forall i, i < d -> (0 <= fst (cgsum ds (fun k => f (i :: k))))%R) by (intros i _; apply IH; auto).
  destruct (csum_pos d (fun i => cgsum ds (fun k => f (i :: k))) P) as [A B]. split; [exact A|]. intros E k Ik. apply in_flat_map in Ik. destruct Ik as [i [Ii Ik]]. apply in_map_iff in Ik. destruct Ik as [k' [<- Ik]]. apply in_seq in Ii.
  apply (proj2 (IH (fun k => f (i :: k)) (fun k => H (i :: k)))); [|exact Ik]. apply B; [exact E|lia].
Qed.

Section Vec.
Variable ds : list nat.
Notation ip := (g_ip ds). Notation dot := (g_dot ds). Notation normalize := (g_normalize ds).
Lemma g_conj : forall x y, cconj (ip x y) = ip y x.
Proof. intros x y. unfold g_ip. rewrite gsum_conj. apply gsum_ext. intros. rewrite cconj_mul, cconj_conj. ring. Qed.
Lemma g_lin : forall k m x y z, ip (fun a => cadd (cmul k (x a)) (cmul m (y a))) z = cadd (cmul k (ip x z)) (cmul m (ip y z)).
Proof. intros k m x y z. unfold g_ip. rewrite <- gsum_lin. apply gsum_ext. intros. ring. Qed.
Lemma g_ext : forall x x' y, (forall k, In k (configs ds) -> x k = x' k) -> ip x y = ip x' y.
Proof. intros x x' y H. unfold g_ip. apply gsum_ext. intros k Ik. rewrite H by auto. reflexivity. Qed.
Lemma g_ext2 : forall x y y', (forall k, In k (configs ds) -> y k = y' k) -> ip x y = ip x y'.
Proof. intros x y y' H. rewrite <- (g_conj y x), <- (g_conj y' x). f_equal. apply g_ext. exact H. Qed.
Lemma ip_lc1' : forall a q g x, ip (g_lc1 a q g) x = csub (ip g x) (cmul (cre a) (ip q x)).
Proof.
  intros a q g x. transitivity (ip (fun k => cadd (cmul c1 (g k)) (cmul (copp (cre a)) (q k))) x).
  - apply g_ext. intros. unfold g_lc1. ring.
  - rewrite g_lin. ring.
Qed.
Lemma ip_scale' : forall a q x, ip (g_scale a q) x = cmul a (ip q x).
Proof.
  intros a q x. transitivity (ip (fun k => cadd (cmul a (q k)) (cmul c0 (q k))) x).
  - apply g_ext. intros. unfold g_scale. ring.
  - rewrite g_lin. ring.
Qed.
Lemma ip_comb' : forall c l x, ip (g_comb c l) x = suml cx c0 cadd (fun p => cmul (fst p) (ip (snd p) x)) (List.combine c l).
Proof.
  intros c l x. unfold g_comb, suml. induction (List.combine c l) as [|p q IH]; cbn [fold_right].
  - transitivity (ip (g_scale c0 (fun _ => c0)) x).
    + apply g_ext. intros. unfold g_scale. ring.
    + rewrite ip_scale'. ring.
  - rewrite <- IH. transitivity (ip (fun k => cadd (cmul (fst p) (snd p k)) (cmul c1 (fold_right (fun (p : cx * cvec) s => cadd (cmul (fst p) (snd p k)) s) c0 q))) x).
    + apply g_ext. intros. ring.
    + rewrite (g_lin (fst p) c1 (snd p) (fun k => fold_right (fun (p : cx * cvec) s => cadd (cmul (fst p) (snd p k)) s) c0 q)). ring.
Qed.
Lemma ip_combr : forall c l x, ip (g_comb (map cre c) l) x = suml cx c0 cadd (fun p => cmul (cre (fst p)) (ip (snd p) x)) (List.combine c l).
Proof. intros c l x. rewrite ip_comb'. revert l. induction c as [|a c IH]; intros [|b l]; try reflexivity. cbn [map List.combine suml fold_right fst snd]. f_equal. apply IH. Qed.
Lemma g_pos : forall v, (0 <= dot v v)%R /\ (dot v v = 0%R -> forall k, In k (configs ds) -> v k = c0).
Proof.
  intros v. unfold g_dot, g_ip. destruct (gsum_pos ds (fun k => cmul (v k) (cconj (v k))) (fun k => proj1 (sq_pos (v k)))) as [A B]. split; [exact A|].
  intros E k Ik. apply sq_pos. exact (B E k Ik).
Qed.
Lemma g_re : forall x y, cconj (ip x y) = ip x y -> cre (dot x y) = ip x y.
Proof. intros x y H. apply (f_equal snd) in H. unfold g_dot. destruct (ip x y) as [a b]. unfold cconj, cre in *. cbn [fst snd] in *. f_equal. lra. Qed.
Lemma g_self : forall x, cre (dot x x) = ip x x.
Proof. intros x. apply g_re. apply g_conj. Qed.
Lemma g_zero : forall v x, dot v v = 0%R -> ip v x = c0.
Proof.
  intros v x E. transitivity (ip (g_scale c0 v) x).
  - apply g_ext. intros k Ik. rewrite (proj2 (g_pos v) E k Ik). unfold g_scale. ring.
  - rewrite ip_scale'. ring.
Qed.
Lemma g_of : forall v x, ip v x = cmul (cre (snd (normalize v))) (ip (fst (normalize v)) x).
Proof.
  intros v x. unfold g_normalize. pose proof (g_pos v) as [P _]. destruct (g_isz (sqrt (dot v v))) eqn:E; cbn [fst snd].
  - apply kz_true in E. apply sqrt_eq_0 in E; [|exact P]. rewrite (g_zero v x E). change (cre 0) with c0. ring.
  - apply kz_false in E. rewrite ip_scale'. transitivity (cmul (cre (sqrt (dot v v) * / sqrt (dot v v))) (ip v x)).
    + rewrite Rinv_r by exact E. change (cre 1) with c1. ring.
    + rewrite (sc_mul _ _ _ _ _ _ _ _ _ _ _ _ _ _ _ k_scalars). ring.
Qed.
Lemma g_unit : forall v, g_isz (snd (normalize v)) = false -> ip (fst (normalize v)) (fst (normalize v)) = c1.
Proof.
  intros v. unfold g_normalize. pose proof (g_pos v) as [P _]. destruct (g_isz (sqrt (dot v v))) eqn:E; cbn [fst snd]; [change (g_isz 0) with (kz 0); rewrite kz_0; discriminate|]. intros _. apply kz_false in E.
  rewrite ip_scale', <- (g_conj (g_scale (cre (/ sqrt (dot v v))) v) v), ip_scale', cconj_mul, g_conj, (sc_cr _ _ _ _ _ _ _ _ _ _ _ _ _ _ _ k_scalars), <- g_self.
  rewrite <- !(sc_mul _ _ _ _ _ _ _ _ _ _ _ _ _ _ _ k_scalars). change c1 with (cre 1). f_equal. rewrite <- (sqrt_sqrt (dot v v)) at 3 by exact P. field. exact E.
Qed.
Lemma g_nonneg : forall v, (0 <= snd (normalize v))%R.
Proof. intros v. unfold g_normalize. destruct (g_isz _); cbn [snd]; [lra|apply sqrt_pos]. Qed.
Lemma g_sq : forall v, cmul (cre (snd (normalize v))) (cre (snd (normalize v))) = ip v v.
Proof.
  intros v. rewrite <- (sc_mul _ _ _ _ _ _ _ _ _ _ _ _ _ _ _ k_scalars), <- g_self. f_equal. unfold g_normalize. pose proof (g_pos v) as [P _]. destruct (g_isz (sqrt (dot v v))) eqn:E; cbn [snd]; [|apply sqrt_sqrt; exact P].
  apply kz_true in E. apply sqrt_eq_0 in E; [|exact P]. rewrite E. ring.
Qed.
Lemma g_nz : forall v, ip v v <> c0 -> g_isz (snd (normalize v)) = false.
Proof. intros v H. destruct (g_isz (snd (normalize v))) eqn:E; [|reflexivity]. apply kz_true in E. exfalso. apply H. rewrite <- g_sq, E. change (cre 0) with c0. ring. Qed.

(** the space with an operator that is Hermitian on it *)
Variable mul : cvec -> cvec.
Hypothesis mul_h : forall x y, ip (mul x) y = ip x (mul y).
Lemma g_hermitian : forall off rt, (forall x, (0 <= x)%R -> rt (off x) = x) ->
  hermitian 0%R c0 c1 cadd cmul csub cre cconj ip g_isz mul dot g_lc1 (g_lc2 rt) normalize off rt.
Proof.
  intros off rt HR. split.
  - exact g_conj.
  - exact mul_h.
  - exact g_re.
  - exact ip_lc1'.
  - intros a q n q' g x. unfold g_lc2. rewrite !ip_lc1'. ring.
  - exact g_of.
  - exact g_unit.
  - intros v. apply HR. apply g_nonneg.
  - exact kz_true.
  - intros n k H E. apply kz_false in H. assert (E1 := f_equal fst E). assert (E2 := f_equal snd E). unfold cmul, cre, c0 in *. cbn [fst snd] in *. destruct k as [a b]. cbn [fst snd] in *. f_equal; nra.
Qed.
Variables (stev : list real -> list real -> list real * list real) (maxit dim : nat).
Hypothesis Hmax : 2 <= maxit.
Section Eig.
Variable close : real -> real -> bool.
Notation off := (fun x => (x * x)%R).
(** the run of the solver from [v]: LAPACK solves the problems it is given *)
Definition eig_lapack (v : cvec) : Prop := forall r g, g_lanczos ds mul stev close maxit dim v = Ok (r, g) ->
  lapack_ok 0%R 1%R Rplus Rmult Rle stev (als real cvec 0%R mul dot g_lc1 (g_lc2 sqrt) normalize off v) (bes real cvec 0%R mul dot g_lc1 (g_lc2 sqrt) normalize off v) (iters real r).
Lemma g_lanczos_ok : forall v, ip v v <> c0 -> eig_lapack v -> exists r g, g_lanczos ds mul stev close maxit dim v = Ok (r, g) /\
  ip g g = c1 /\ ip (mul g) g = cre (eng real r) /\ (eng real r * dot v v <= fst (ip (mul v) v))%R.
Proof.
  intros v NZ HL. pose proof (g_nz v NZ) as IZ.
  destruct (eig_solver_ok real cvec real 0%R off g_isz mul dot g_lc1 (g_lc2 sqrt) normalize (fun x => x) (fun _ => eq_refl) (gs_eng real 0%R stev) (gs_vec real 0%R stev) (fun c l => g_comb (map cre c) l) close v maxit dim (mkH cvec real [Some v] []) 0 eq_refl Hmax)
    as [m [r [h [_ [_ [O RUN]]]]]].
  assert (X : exists g, rd cvec real (gs real r) h = Ok g).
  { unfold rd. destruct O as [[_ [_ [_ O]]]|[_ [_ [_ [_ O]]]]]; destruct O as [_ [_ [_ [O _]]]]; rewrite O; eexists; reflexivity. }
  destruct X as [g G]. assert (RL : g_lanczos ds mul stev close maxit dim v = Ok (r, g)) by (unfold g_lanczos; rewrite RUN; cbn [bind]; rewrite G; reflexivity).
  exists r, g. split; [exact RL|].
  destruct (eig_energy real cx cvec 0%R 1%R Rplus Rmult Rminus Ropp c0 c1 cadd cmul csub copp cre cconj Rle ip g_isz mul dot g_lc1 (g_lc2 sqrt) normalize stev k_scalars maxit dim off sqrt (fun x => x) (fun c l => g_comb (map cre c) l) close (g_hermitian off sqrt sqrt_square) (fun _ => eq_refl) ip_combr
    (mkH cvec real [Some v] []) 0 v r h eq_refl IZ Hmax RUN (HL r g RL)) as [g' [G1 [G2 [G3 G4]]]].
  unfold rd in G. rewrite G1 in G. injection G as <-. split; [exact G2|]. split; [exact G3|].
  set (u := fst (normalize v)) in *. set (n := snd (normalize v)) in *. cbv zeta in G4.
  assert (E1 : ip (mul v) v = cmul (cmul (cre n) (cre n)) (ip (mul u) u)).
  { rewrite mul_h, g_of. fold u n. rewrite <- (mul_h u v), <- (g_conj v (mul u)), (g_of v (mul u)), cconj_mul, g_conj, (sc_cr _ _ _ _ _ _ _ _ _ _ _ _ _ _ _ k_scalars). fold u n. ring. }
  assert (E2 : cre (dot (mul u) u) = ip (mul u) u) by (apply g_re; rewrite g_conj; symmetry; apply mul_h).
  assert (E3 : (dot v v = n * n)%R). { pose proof (g_sq v) as S. rewrite <- g_self, <- (sc_mul _ _ _ _ _ _ _ _ _ _ _ _ _ _ _ k_scalars) in S. fold n in S. unfold cre in S. injection S as S. symmetry. exact S. }
  rewrite E1, <- E2, <- !(sc_mul _ _ _ _ _ _ _ _ _ _ _ _ _ _ _ k_scalars). unfold cre. cbn [fst]. rewrite E3. nra.
Qed.
End Eig.
Section Exp.
Variables (d : real) (far : list cx -> list cx -> bool).
Notation off := (fun x : real => x).
Definition exp_lapack (v : cvec) : Prop := forall r g, g_expmv ds mul stev d far maxit dim v = Ok (r, g) ->
  lapack_ok 0%R 1%R Rplus Rmult Rle stev (als real cvec 0%R mul dot g_lc1 (g_lc2 off) normalize off v) (bes real cvec 0%R mul dot g_lc1 (g_lc2 off) normalize off v) (xiters r).
Lemma g_diff_len : forall c e, length (g_diff c e) = length c.
Proof. exact kdiff_len. Qed.
Lemma g_phase_ok : forall n a q x, ip (g_phase d n a q) x = cmul (cmul (cre n) (cph d a)) (ip q x).
Proof. intros. apply ip_scale'. Qed.
Notation tri_x := (expme1 real cx 0%R c0 cadd cmul cre (cph d) stev).
(** the solver ends, and the norm and the energy of its result are those of the initial vector *)
Lemma g_expmv_ok : forall v, ip v v <> c0 -> exp_lapack v -> exists r g, g_expmv ds mul stev d far maxit dim v = Ok (r, g) /\ ip g g = ip v v /\ ip (mul g) g = ip (mul v) v.
Proof.
  intros v NZ HL. pose proof (g_nz v NZ) as IZ.
  destruct (exp_solver_ok real cvec cx 0%R g_isz mul dot g_lc1 (g_lc2 off) normalize g_comb c0 tri_x far g_diff (vscale real cx cmul cre) (g_phase d)
    (tx_len real cx 0%R c0 cadd cmul cre stev (cph d)) g_diff_len (vs_len real cx cmul cre) v maxit dim (mkH cvec cx [Some v] []) 0 eq_refl Hmax) as [m [r [h [_ [_ [O RUN]]]]]].
  assert (X : exists g, rd cvec cx (expmv r) h = Ok g).
  { destruct (exp_vec real cx cvec 0%R c0 cadd cmul cre g_isz mul dot g_lc1 (g_lc2 off) normalize stev maxit dim (cph d) g_comb far g_diff g_diff_len (vscale real cx cmul cre) (g_phase d) (vs_len real cx cmul cre)
      (mkH cvec cx [Some v] []) 0 v r h eq_refl Hmax RUN) as [_ [_ E]]. unfold rd. rewrite E. eexists. reflexivity. }
  destruct X as [g G]. assert (RL : g_expmv ds mul stev d far maxit dim v = Ok (r, g)) by (unfold g_expmv; rewrite RUN; cbn [bind]; rewrite G; reflexivity).
  exists r, g. split; [exact RL|].
  destruct (exp_keeps real cx cvec 0%R 1%R Rplus Rmult Rminus Ropp c0 c1 cadd cmul csub copp cre cconj Rle ip g_isz mul dot g_lc1 (g_lc2 off) normalize stev k_scalars maxit dim (cph d) g_comb far g_diff (g_hermitian off off (fun _ _ => eq_refl)) (kph_unit d) ip_comb' g_diff_len (g_phase d) g_phase_ok
    (mkH cvec cx [Some v] []) 0 v r h eq_refl IZ Hmax RUN (HL r g RL)) as [g' [G1 [G2 G3]]].
  unfold rd in G. rewrite G1 in G. injection G as <-. auto.
Qed.
End Exp.
End Vec.
