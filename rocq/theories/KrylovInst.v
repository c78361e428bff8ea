(** Two complex components and the operator that exchanges them; real numbers from the standard library. *)
From Coq Require Import List Arith Bool Lia Reals Lra Psatz Ring_theory.
From Verif Require Import Base Lanczos LanczosSpec LanczosEig LanczosExp Krylov KrylovSpec Cx.
Import ListNotations.
Local Open Scope R_scope.

Definition kV : Type := cx * cx.
Definition kip (x y : kV) : cx := cadd (cmul (fst x) (cconj (fst y))) (cmul (snd x) (cconj (snd y))).
Definition kmulv (x : kV) : kV := (snd x, fst x).
Definition kdot (x y : kV) : R := fst (kip x y).
Definition ksc (a : cx) (x : kV) : kV := (cmul a (fst x), cmul a (snd x)).
Definition klc1 (a : R) (q g : kV) : kV := (csub (fst g) (cmul (cre a) (fst q)), csub (snd g) (cmul (cre a) (snd q))).
Definition klc2 (rt : R -> R) (a : R) (q : kV) (n : R) (q' g : kV) : kV := klc1 (rt n) q' (klc1 a q g).
Definition kz (x : R) : bool := if Req_EM_T x 0 then true else false.
Definition knorm (v : kV) : R := sqrt (kdot v v).
Definition knormalize (v : kV) : kV * R := if kz (knorm v) then (v, 0) else (ksc (cre (/ knorm v)) v, knorm v).
Definition kcomb (c : list cx) (l : list kV) : kV :=
  fold_right (fun p s => (cadd (cmul (fst p) (fst (snd p))) (fst s), cadd (cmul (fst p) (snd (snd p))) (snd s))) ((0, 0), (0, 0)) (List.combine c l).
Definition kcombr (c : list R) (l : list kV) : kV := kcomb (map cre c) l.
(** the eigensystem of [[0, 1], [1, 0]] *)
Definition kstev (d e : list R) : list R * list R := let s := / sqrt 2 in ([- (1); 1], [s; s; - s; s]).
Definition kv0 : kV := ((2, 0), (0, 0)).
Definition kheap : heap kV cx := mkH kV cx [None; Some kv0] [].
Definition kheapr : heap kV R := mkH kV R [None; Some kv0] [].

Ltac cx_eq := unfold kdot, kip, kmulv, klc2, klc1, ksc, cadd, cmul, csub, copp, cconj, cre in *; cbn [fst snd] in *; apply injective_projections; cbn [fst snd]; try lra; try ring.
Lemma k_scalars : scalars 0 1 Rplus Rmult Rminus Ropp (0, 0) (1, 0) cadd cmul csub copp cre cconj Rle.
Proof.
  split; try (intros; cx_eq; fail).
  - exact RTheory.
  - split; intros; cx_eq.
  - intros. apply Rle_refl.
  - intros. lra.
  - intros. nra.
Qed.
Lemma kz_true : forall x, kz x = true -> x = 0.
Proof. intros x. unfold kz. destruct (Req_EM_T x 0); [auto|discriminate]. Qed.
Lemma kz_false : forall x, kz x = false -> x <> 0.
Proof. intros x. unfold kz. destruct (Req_EM_T x 0); [discriminate|auto]. Qed.
Lemma kz_nz : forall x, x <> 0 -> kz x = false.
Proof. intros x H. unfold kz. destruct (Req_EM_T x 0); [contradiction|reflexivity]. Qed.
Lemma kz_0 : kz 0 = true.
Proof. unfold kz. destruct (Req_EM_T 0 0); [reflexivity|contradiction]. Qed.
Lemma kdot_pos : forall v, 0 <= kdot v v.
Proof. intros [[a b] [c d]]. unfold kdot, kip, cadd, cmul, cconj. cbn [fst snd]. nra. Qed.
Lemma kdot_0 : forall v, kdot v v = 0 -> v = ((0, 0), (0, 0)).
Proof.
  intros [[a b] [c d]] H. unfold kdot, kip, cadd, cmul, cconj in H. cbn [fst snd] in H.
  assert (a = 0) by nra. assert (b = 0) by nra. assert (c = 0) by nra. assert (d = 0) by nra. subst. reflexivity.
Qed.
Lemma knorm_sq : forall v, knorm v * knorm v = kdot v v.
Proof. intros. apply sqrt_sqrt, kdot_pos. Qed.
Lemma k_hermitian : forall off rt, (forall x, 0 <= x -> rt (off x) = x) ->
  hermitian 0 (0, 0) (1, 0) cadd cmul csub cre cconj kip kz kmulv kdot klc1 (klc2 rt) knormalize off rt.
Proof.
  intros off rt HR. split.
  - intros. cx_eq.
  - intros. cx_eq.
  - intros x y H. apply (f_equal snd) in H. unfold kdot. destruct (kip x y) as [a b]. unfold cconj, cre in *. cbn [fst snd] in *. f_equal. lra.
  - intros. cx_eq.
  - intros. cx_eq.
  - intros v x. unfold knormalize. destruct (kz (knorm v)) eqn:E; cbn [fst snd].
    + apply kz_true in E. assert (Z : kdot v v = 0) by (rewrite <- knorm_sq, E; ring). apply kdot_0 in Z. subst v. cx_eq.
    + apply kz_false in E. unfold kip, ksc, cadd, cmul, cconj, cre. cbn [fst snd]. apply injective_projections; cbn [fst snd]; field; exact E.
  - intros v. unfold knormalize. destruct (kz (knorm v)) eqn:E; cbn [fst snd]; [rewrite kz_0; discriminate|]. intros _. apply kz_false in E.
    pose proof (knorm_sq v) as S. set (n := knorm v) in *. unfold kdot in S. unfold kip, ksc, cadd, cmul, cconj, cre in *. cbn [fst snd] in *. apply injective_projections; cbn [fst snd]; [|ring].
    match type of S with n * n = ?X => transitivity ((/ n * / n) * X); [ring|] end. rewrite <- S. field. exact E.
  - intros v. unfold knormalize. destruct (kz (knorm v)); cbn [fst snd]; apply HR; [lra|apply sqrt_pos].
  - exact kz_true.
  - intros n k H E. apply kz_false in H. assert (E1 := f_equal fst E). assert (E2 := f_equal snd E). unfold cmul, cre in *. cbn [fst snd] in *. destruct k as [a b]. cbn [fst snd] in *. f_equal; nra.
Qed.
Lemma kcomb_ok : forall c l x, kip (kcomb c l) x = suml cx (0, 0) cadd (fun p => cmul (fst p) (kip (snd p) x)) (List.combine c l).
Proof.
  intros c l x. unfold kcomb, suml. induction (List.combine c l) as [|p q IH]; cbn [fold_right]; [cx_eq|]. rewrite <- IH. clear IH. destruct (fold_right _ _ q) as [[s1 s2] [t1 t2]]. destruct p as [[a b] [[d e] [f g]]]. destruct x as [[x1 x2] [y1 y2]]. cx_eq.
Qed.
Lemma kcombr_ok : forall c l x, kip (kcombr c l) x = suml cx (0, 0) cadd (fun p => cmul (cre (fst p)) (kip (snd p) x)) (List.combine c l).
Proof.
  intros c l x. unfold kcombr. rewrite kcomb_ok. revert l. induction c as [|a c IH]; intros [|b l]; try reflexivity. cbn [map List.combine suml fold_right fst snd]. f_equal. apply IH.
Qed.
Lemma kph_unit : forall d x, cmul (cph d x) (cconj (cph d x)) = (1, 0).
Proof. intros d x. unfold cmul, cph, cconj. cbn [fst snd]. pose proof (sin2_cos2 (d * x)) as H. unfold Rsqr in H. apply injective_projections; cbn [fst snd]; lra. Qed.

(** the recurrence: two vectors, then the residual vanishes *)
Lemma kn_of : forall v n, 0 < n -> kdot v v = n * n -> knormalize v = (ksc (cre (/ n)) v, n).
Proof. intros v n H E. assert (N : knorm v = n) by (unfold knorm; rewrite E; apply sqrt_square; lra). unfold knormalize. rewrite N, kz_nz by lra. reflexivity. Qed.
Section Rec.
Variables off rt : R -> R.
Hypothesis HR : forall x, 0 <= x -> rt (off x) = x.
Notation kr := (kr R kV 0 kmulv kdot klc1 (klc2 rt) knormalize off kv0).
Definition kq0 : kV := ((1, 0), (0, 0)).
Definition kq1 : kV := ((0, 0), (1, 0)).
Lemma kn0 : knormalize kv0 = (kq0, 2).
Proof. rewrite (kn_of kv0 2); [|lra|unfold kv0, kdot, kip, cadd, cmul, cconj; cbn [fst snd]; ring]. f_equal. unfold kv0, kq0, ksc, cmul, cre. cbn [fst snd]. repeat f_equal; field. Qed.
Lemma kr0 : kr 0%nat = (kq0, kq0, 0).
Proof. cbn [LanczosSpec.kr]. rewrite kn0. reflexivity. Qed.
Lemma kr1 : kr 1%nat = (kq1, kq0, 1).
Proof.
  change (kr 1%nat) with (let '(q, q', n) := kr 0%nat in let w := klc1 (kdot (kmulv q) q) q (kmulv q) in (fst (knormalize w), q, snd (knormalize w))). rewrite kr0.
  assert (E : klc1 (kdot (kmulv kq0) kq0) kq0 (kmulv kq0) = kq1) by (unfold kq0, kq1; cbn [fst snd]; unfold klc1, kdot, kip, kmulv, cadd, csub, cmul, cconj, cre; cbn [fst snd]; repeat f_equal; ring).
  cbv zeta. rewrite E. rewrite (kn_of kq1 1); [|lra|unfold kq1, kdot, kip, cadd, cmul, cconj; cbn [fst snd]; ring]. cbn [fst snd]. repeat f_equal. unfold kq1, ksc, cmul, cre. cbn [fst snd]. repeat f_equal; field.
Qed.
Lemma kr2 : snd (kr 2%nat) = 0.
Proof.
  change (kr 2%nat) with (let '(q, q', n) := kr 1%nat in let w := klc2 rt (kdot (kmulv q) q) q (off n) q' (kmulv q) in (fst (knormalize w), q, snd (knormalize w))). rewrite kr1.
  assert (E : klc2 rt (kdot (kmulv kq1) kq1) kq1 (off 1) kq0 (kmulv kq1) = ((0, 0), (0, 0))).
  { unfold klc2. rewrite HR by lra. unfold kq0, kq1, klc1, kdot, kip, kmulv, cadd, csub, cmul, cconj, cre; cbn [fst snd]; repeat f_equal; ring. }
  cbv zeta. rewrite E. unfold knormalize, knorm, kdot, kip, cadd, cmul, cconj. cbn [fst snd]. replace (0 * 0 - 0 * - 0 + (0 * 0 - 0 * - 0)) with 0 by ring. rewrite sqrt_0, kz_0. reflexivity.
Qed.
Notation als := (als R kV 0 kmulv kdot klc1 (klc2 rt) knormalize off kv0).
Notation bes := (bes R kV 0 kmulv kdot klc1 (klc2 rt) knormalize off kv0).
Lemma kals : als 2%nat = [0; 0].
Proof. unfold LanczosSpec.als. cbn [seq map]. unfold LanczosSpec.al, LanczosSpec.qv. rewrite kr0, kr1. cbn [fst]. unfold kq0, kq1, kdot, kip, kmulv, cadd, cmul, cconj. cbn [fst snd]. repeat f_equal; ring. Qed.
Lemma kbes : bes 2%nat = [1].
Proof. unfold LanczosSpec.bes. cbn [Nat.sub seq map]. unfold LanczosSpec.be. rewrite kr1. reflexivity. Qed.
Lemma k_lapack : lapack_ok 0 1 Rplus Rmult Rle kstev als bes 2.
Proof.
  intros n Hn. replace n with 2%nat by lia. rewrite kals, kbes. unfold kstev.
  assert (S : / sqrt 2 * / sqrt 2 = / 2). { rewrite <- Rinv_mult. rewrite sqrt_sqrt by lra. reflexivity. }
  set (s := / sqrt 2) in *. split; try reflexivity.
  - intros i j Hi Hj. cbn [length] in *. destruct i as [|[|]]; [| |lia]; (destruct j as [|[|]]; [| |lia]); unfold trid; cbn; ring.
  - intros i j Hi Hj. cbn [length] in *. destruct i as [|[|]]; [| |lia]; (destruct j as [|[|]]; [| |lia]); cbn; nra.
  - intros i j Hi Hj. cbn [length] in *. destruct i as [|[|]]; [| |lia]; (destruct j as [|[|]]; [| |lia]); cbn; nra.
  - intros j Hj. cbn [length] in *. destruct j as [|[|]]; [| |lia]; cbn; lra.
Qed.
Lemma k_van1 : vanishes R kV 0 kz kmulv kdot klc1 (klc2 rt) knormalize off kv0 1 = false.
Proof. unfold vanishes, LanczosSpec.be. cbn [Nat.sub]. rewrite kr1. cbn [snd]. apply kz_nz. lra. Qed.
Lemma k_van2 : vanishes R kV 0 kz kmulv kdot klc1 (klc2 rt) knormalize off kv0 2 = true.
Proof. unfold vanishes, LanczosSpec.be. cbn [Nat.sub]. rewrite kr2. apply kz_0. Qed.
End Rec.
Definition k_eig (close : R -> R -> bool) (maxit dim : nat) : res (lres R * heap kV R) :=
  eig_solver R kV R 0 (fun x => x * x) kz kmulv kdot klc1 (klc2 sqrt) knormalize (fun v => v) (gs_eng R 0 kstev) (gs_vec R 0 kstev) kcombr close maxit dim 1 kheapr.
Lemma sq_rt : forall x, 0 <= x -> sqrt (x * x) = x. Proof. apply sqrt_square. Qed.
Lemma k_eig_run : forall close maxit dim, (2 <= maxit)%nat -> exists res h, k_eig close maxit dim = Ok (res, h) /\ iters R res = 2%nat /\ eng R res = - (1).
Proof.
  intros close maxit dim HM.
  destruct (eig_solver_ok R kV R 0 (fun x => x * x) kz kmulv kdot klc1 (klc2 sqrt) knormalize (fun v => v) (fun _ => eq_refl) (gs_eng R 0 kstev) (gs_vec R 0 kstev) kcombr close kv0 maxit dim kheapr 1 eq_refl HM) as [m [res [h [A1 [A2 [A3 A4]]]]]].
  exists res, h. split; [exact A4|]. pose proof (k_van1 (fun x => x * x) sqrt) as V1. pose proof (k_van2 (fun x => x * x) sqrt sq_rt) as V2.
  assert (M : (m <= 2)%nat). { destruct (Nat.le_gt_cases m 2) as [|G]; [assumption|]. destruct (A2 2%nat) as [X _]; [lia|]. congruence. }
  assert (E : energy R kV 0 kmulv kdot klc1 (klc2 sqrt) knormalize (fun x => x * x) kv0 (gs_eng R 0 kstev) 2 = - (1)) by reflexivity.
  destruct A3 as [[B1 [B2 [B3 _]]]|[B1 [B2 [B3 [B4 _]]]]].
  - destruct (Nat.eq_dec m 1) as [->|]; [congruence|]. replace m with 2%nat in * by lia. rewrite B3, E. auto.
  - destruct (Nat.eq_dec m 2) as [->|]; [congruence|]. replace m with 1%nat in * by lia. rewrite B4. cbn [Nat.add] in *. rewrite E. auto.
Qed.
Definition kphase (d : R) (n a : R) (q : kV) : kV := ksc (cmul (cre n) (cph d a)) q.
Definition kdiff (c d : list cx) : list cx := map (fun p => csub (fst p) (snd p)) (List.combine c d) ++ skipn (length d) c.
Lemma kdiff_len : forall c d, length (kdiff c d) = length c.
Proof. induction c as [|x c IH]; intros [|y d]; try reflexivity. unfold kdiff in *. cbn [List.combine map app length skipn]. rewrite IH. reflexivity. Qed.
Lemma kphase_ok : forall d n a q x, kip (kphase d n a q) x = cmul (cmul (cre n) (cph d a)) (kip q x).
Proof. intros. unfold kphase. generalize (cmul (cre n) (cph d a)). intros c. cx_eq. Qed.
Lemma kphase1_ok : forall d a q x, kip (ksc (cph d a) q) x = cmul (cph d a) (kip q x).
Proof. intros. generalize (cph d a). intros c. cx_eq. Qed.
Notation kx d := (expme1 R cx 0 (0, 0) cadd cmul cre (cph d) kstev).
Definition k_exp (d : R) (far : list cx -> list cx -> bool) (maxit dim : nat) : res (xres * heap kV cx) :=
  exp_solver R kV cx 0 kz kmulv kdot klc1 (klc2 (fun x => x)) knormalize kcomb (0, 0) (kx d) far kdiff (vscale R cx cmul cre) (kphase d) maxit dim 1 kheap.
Definition k_mpi (d : R) (far : list cx -> list cx -> bool) (maxit dim : nat) : res (xres * heap kV cx) :=
  mpi_exp_solver R kV cx 0 kz kmulv kdot klc1 (klc2 (fun x => x)) knormalize kcomb (0, 0) (kx d) far kdiff (fun a q => ksc (cph d a) q) maxit dim 1 kheap.
Lemma kx_len : forall st d e, length (kx st d e) = length d.
Proof. intros. unfold expme1, kstev. rewrite map_length, seq_length. reflexivity. Qed.
Lemma k_x_run : forall d far maxit dim scale phase, (forall s c, length (scale s c) = length c) -> (2 <= maxit)%nat ->
  exists res h, exp_solver R kV cx 0 kz kmulv kdot klc1 (klc2 (fun x => x)) knormalize kcomb (0, 0) (kx d) far kdiff scale phase maxit dim 1 kheap = Ok (res, h) /\ xiters res = 2%nat.
Proof.
  intros d far maxit dim scale phase SL HM.
  destruct (exp_solver_ok R kV cx 0 kz kmulv kdot klc1 (klc2 (fun x => x)) knormalize kcomb (0, 0) (kx d) far kdiff scale phase (kx_len d) kdiff_len SL kv0 maxit dim kheap 1 eq_refl HM) as [m [res [h [A1 [A2 [A3 A4]]]]]].
  exists res, h. split; [exact A4|]. pose proof (k_van1 (fun x => x) (fun x => x)) as V1. pose proof (k_van2 (fun x => x) (fun x => x) (fun x _ => eq_refl)) as V2.
  assert (M : (m <= 2)%nat). { destruct (Nat.le_gt_cases m 2) as [|G]; [assumption|]. destruct (A2 2%nat) as [X _]; [lia|]. congruence. }
  destruct A3 as [[B1 [B2 _]]|[B1 [B2 [B3 _]]]].
  - destruct (Nat.eq_dec m 1) as [->|]; [congruence|]. lia.
  - destruct (Nat.eq_dec m 2) as [->|]; [congruence|]. lia.
Qed.
