(** Powers of a density matrix in diagonal form; equal power sums give equal sums of any function. *)
From Coq Require Import List Arith Lia Bool Reals Lra Ring.
From Verif Require Import Base FiniteMps FmpsSpec EffHamSpec EffHamFacts Cx GVec DmrgStep TruncMpsMath EntropySpec.
Import ListNotations.
Local Open Scope nat_scope.

(** *** real sums *)
Definition rsum {A} (l : list A) (f : A -> real) : real := fold_right (fun x a => (f x + a)%R) 0%R l.
Lemma rsum_cons : forall A (x : A) l f, rsum (x :: l) f = (f x + rsum l f)%R. Proof. reflexivity. Qed.
Lemma rsum_ext : forall A (l : list A) f g, (forall x, In x l -> f x = g x) -> rsum l f = rsum l g.
Proof. induction l as [|x l IH]; intros f g H; [reflexivity|]. rewrite !rsum_cons, H by (left; auto). rewrite (IH f g) by (intros; apply H; right; auto). reflexivity. Qed.
Lemma rsum_add : forall A (l : list A) f g, rsum l (fun x => (f x + g x)%R) = (rsum l f + rsum l g)%R.
Proof. induction l as [|x l IH]; intros f g; [cbn; ring|]. rewrite !rsum_cons, IH. ring. Qed.
Lemma rsum_mul : forall A (l : list A) c f, rsum l (fun x => (c * f x)%R) = (c * rsum l f)%R.
Proof. induction l as [|x l IH]; intros c f; [cbn; ring|]. rewrite !rsum_cons, IH. ring. Qed.

(** polynomials as functions *)
Inductive poly : (real -> real) -> Prop :=
| p_const : forall a, poly (fun _ => a)
| p_x : forall f, poly f -> poly (fun x => (x * f x)%R)
| p_add : forall f g, poly f -> poly g -> poly (fun x => (f x + g x)%R)
| p_mul : forall a f, poly f -> poly (fun x => (a * f x)%R).
(** two lists have the same sums of powers *)
Definition same_powers (p q : list real) : Prop := forall n, rsum p (fun x => x ^ S n)%R = rsum q (fun x => x ^ S n)%R.
Lemma poly_sum : forall p q, same_powers p q -> forall f, poly f -> forall m, rsum p (fun x => (x ^ S m * f x)%R) = rsum q (fun x => (x ^ S m * f x)%R).
Proof.
  intros p q H f P. induction P as [a|f P IH|f g P1 IH1 P2 IH2|a f P IH]; intros m.
  - assert (E : forall l, rsum l (fun x => (x ^ S m * a)%R) = (a * rsum l (fun x => x ^ S m)%R)%R) by (intros; rewrite <- rsum_mul; apply rsum_ext; intros; ring). rewrite !E, H. reflexivity.
  - assert (E : forall l, rsum l (fun x => (x ^ S m * (x * f x))%R) = rsum l (fun x => (x ^ S (S m) * f x)%R)) by (intros; apply rsum_ext; intros; cbn [pow]; ring). rewrite !E. apply IH.
  - assert (E : forall l, rsum l (fun x => (x ^ S m * (f x + g x))%R) = (rsum l (fun x => (x ^ S m * f x)%R) + rsum l (fun x => (x ^ S m * g x)%R))%R) by (intros; rewrite <- rsum_add; apply rsum_ext; intros; ring). rewrite !E, IH1, IH2. reflexivity.
  - assert (E : forall l, rsum l (fun x => (x ^ S m * (a * f x))%R) = (a * rsum l (fun x => (x ^ S m * f x)%R))%R) by (intros; rewrite <- rsum_mul; apply rsum_ext; intros; ring). rewrite !E, IH. reflexivity.
Qed.
(** a polynomial with given zeros, and interpolation *)
Lemma poly_zeros : forall xs, exists z, poly z /\ forall x, z x = 0%R <-> In x xs.
Proof.
  induction xs as [|y xs [z [P Z]]].
  - exists (fun _ => 1%R). split; [constructor|]. intros x. split; [lra|intros []].
  - exists (fun x => (x * z x + - y * z x)%R). split; [constructor; constructor; auto|]. intros x. cbn [In]. rewrite <- Z.
    replace (x * z x + - y * z x)%R with ((x - y) * z x)%R by ring. split; [intros H; apply Rmult_integral in H; destruct H; [left; lra|auto]|intros [->|H]; [ring|rewrite H; ring]].
Qed.
Lemma interpolate : forall (f : real -> real) xs, exists g, poly g /\ forall x, In x xs -> g x = f x.
Proof.
  intros f. induction xs as [|y xs [g [P G]]]; [exists (fun _ => 0%R); split; [constructor|intros x []]|].
  destruct (in_dec Req_EM_T y xs) as [I|N]; [exists g; split; auto; intros x [<-|H]; auto|].
  destruct (poly_zeros xs) as [z [PZ Z]]. assert (Zy : z y <> 0%R) by (intros E; apply N, Z; exact E).
  exists (fun x => (g x + ((f y - g y) / z y) * z x)%R). split; [constructor; [|constructor]; auto|].
  intros x [<-|H]; [field; exact Zy|]. rewrite (proj2 (Z x) H), G by auto. ring.
Qed.
(** any function vanishing at zero has the same sum *)
Lemma same_sums : forall p q h, same_powers p q -> h 0%R = 0%R -> rsum p h = rsum q h.
Proof.
  intros p q h H Z. destruct (interpolate (fun x => (h x / x)%R) (filter (fun x => if Req_EM_T x 0 then false else true) (p ++ q))) as [g [P G]].
  assert (E : forall l, (forall x, In x l -> In x (p ++ q)) -> rsum l h = rsum l (fun x => (x ^ 1 * g x)%R)).
  { intros l I. apply rsum_ext. intros x Hx. destruct (Req_EM_T x 0) as [->|N]; [rewrite Z; ring|].
    assert (F : In x (filter (fun x => if Req_EM_T x 0 then false else true) (p ++ q))).
    { apply filter_In. split; [auto|]. destruct (Req_EM_T x 0); auto. }
    rewrite (G x F). cbn [pow]. field. exact N. }
  rewrite (E p), (E q) by (intros; apply in_or_app; auto). apply (poly_sum p q H g P 0).
Qed.
Lemma same_von_neumann : forall p q, same_powers p q -> von_neumann p = von_neumann q.
Proof. intros p q H. apply (same_sums p q (fun x => if Req_EM_T x 0 then 0 else - x * ln x)%R H). destruct (Req_EM_T 0 0); [reflexivity|lra]. Qed.
Lemma rank_sum : forall p, INR (rank p) = rsum p (fun x => if Req_EM_T x 0 then 0 else 1)%R.
Proof.
  induction p as [|x p IH]; [reflexivity|]. cbn [rsum fold_right]. change (fold_right _ _ p) with (rsum p (fun x => if Req_EM_T x 0 then 0 else 1)%R). rewrite <- IH.
  unfold rank. cbn [filter]. destruct (Req_EM_T x 0); [ring|]. cbn [length]. rewrite S_INR. ring.
Qed.
Lemma same_rank : forall p q, same_powers p q -> rank p = rank q.
Proof. intros p q H. apply INR_eq. rewrite !rank_sum. apply (same_sums p q _ H). destruct (Req_EM_T 0 0); [reflexivity|lra]. Qed.

(** *** powers of a matrix in diagonal form *)
Section Diag.
Variables (psi : list nat -> cx) (ds : list nat) (i : nat).
Notation L := (left_states ds i).
(** rho = sum of A_k A_k^dagger with orthogonal A_k of squared norms p_k *)
Definition diagonal (p : list real) (A : nat -> list nat -> cx) : Prop :=
  (forall j k, j < length p -> k < length p -> lsum L (fun c => cmul (cconj (A j c)) (A k c)) = if j =? k then cre (nth k p 0%R) else c0) /\
  (forall c c', In c L -> In c' L -> rho psi ds i c c' = lsum (seq 0 (length p)) (fun k => cmul (A k c) (cconj (A k c')))).
Lemma cre_pow : forall x m, cmul (cre x) (cre (x ^ m)) = cre (x ^ S m). Proof. intros. rewrite <- cre_mul. reflexivity. Qed.
Lemma cre_add : forall x y, cre (x + y) = cadd (cre x) (cre y). Proof. intros. unfold cre, cadd. cbn [fst snd]. f_equal. ring. Qed.
Lemma diag_pow : forall p A, diagonal p A -> forall m c c', In c L -> In c' L ->
  rho_pow psi ds i m c c' = lsum (seq 0 (length p)) (fun k => cmul (cre (nth k p 0%R ^ m)) (cmul (A k c) (cconj (A k c')))).
Proof.
  intros p A [O D]. induction m as [|m IH]; intros c c' Hc Hc'.
  - cbn [rho_pow]. rewrite (D c c' Hc Hc'). apply lsum_ext. intros k _. cbn [pow]. rewrite cre_1. ring.
  - cbn [rho_pow].
    transitivity (lsum L (fun x => lsum (seq 0 (length p)) (fun k => lsum (seq 0 (length p)) (fun j =>
      cmul (cmul (cre (nth k p 0%R ^ m)) (cmul (A k c) (cconj (A j c')))) (cmul (cconj (A k x)) (A j x)))))).
    { apply lsum_ext. intros x Hx. rewrite (IH c x Hc Hx), (D x c' Hx Hc'), lsum_mul_r. apply lsum_ext. intros k _. rewrite lsum_mul_l. apply lsum_ext. intros j _. ring. }
    etransitivity; [apply lsum_swap|]. apply lsum_ext. intros k Hk. apply in_seq in Hk. etransitivity; [apply lsum_swap|].
    transitivity (lsum (seq 0 (length p)) (fun j => cmul (FmpsSpec.delta cx c0 c1 k j) (cmul (cmul (cre (nth k p 0%R ^ m)) (cmul (A k c) (cconj (A j c')))) (cre (nth j p 0%R))))).
    { apply lsum_ext. intros j Hj. apply in_seq in Hj. rewrite <- lsum_mul_l, (O k j) by lia. unfold FmpsSpec.delta. destruct (k =? j); ring. }
    rewrite (EffHamFacts.delta_l cx c0 c1 cadd cmul csub copp cx_ring (length p) k (fun j => cmul (cmul (cre (nth k p 0%R ^ m)) (cmul (A k c) (cconj (A j c')))) (cre (nth j p 0%R)))) by lia.
    rewrite <- cre_pow. ring.
Qed.
Lemma nth_rsum : forall (p : list real) (f : real -> real), cre (rsum p f) = lsum (seq 0 (length p)) (fun k => cre (f (nth k p 0%R))).
Proof.
  intros p f. induction p as [|x p IH]; [reflexivity|]. cbn [length seq].
  change (cre (f x + rsum p f) = cadd (cre (f x)) (lsum (seq 1 (length p)) (fun k => cre (f (nth k (x :: p) 0%R))))).
  rewrite <- seq_shift, (EffHamFacts.lsum_map cx c0 cadd). cbn [nth]. rewrite <- IH. apply cre_add.
Qed.
Lemma diag_trace : forall p A, diagonal p A -> forall m, trace_pow psi ds i (S m) = cre (rsum p (fun x => x ^ S m)%R).
Proof.
  intros p A H m. unfold trace_pow. replace (S m - 1) with m by lia.
  transitivity (lsum L (fun c => lsum (seq 0 (length p)) (fun k => cmul (cre (nth k p 0%R ^ m)) (cmul (cconj (A k c)) (A k c))))).
  { apply lsum_ext. intros c Hc. rewrite (diag_pow p A H m c c Hc Hc). apply lsum_ext. intros. ring. }
  etransitivity; [apply lsum_swap|]. rewrite nth_rsum. apply lsum_ext. intros k Hk. apply in_seq in Hk.
  rewrite <- lsum_mul_l, (proj1 H k k) by lia. rewrite Nat.eqb_refl, <- cre_pow. ring.
Qed.
Lemma spectral_diag : forall q v, spectral psi ds i q v -> diagonal q (fun k c => cmul (cre (sqrt (nth k q 0%R))) (v k c)).
Proof.
  intros q v [P O D]. assert (N : forall k, (0 <= nth k q 0)%R).
  { intros k. destruct (Nat.lt_ge_cases k (length q)); [|rewrite nth_overflow by auto; lra]. rewrite Forall_forall in P. apply P, nth_In. auto. }
  split.
  - intros j k Hj Hk.
    transitivity (cmul (cmul (cre (sqrt (nth j q 0%R))) (cre (sqrt (nth k q 0%R)))) (lsum L (fun c => cmul (cconj (v j c)) (v k c)))).
    { rewrite lsum_mul_l. apply lsum_ext. intros. rewrite cconj_mul, cconj_cre. ring. }
    pose proof (O j k Hj Hk) as Q. change (lsum L (fun c => cmul (cconj (v j c)) (v k c)) = if j =? k then c1 else c0) in Q. rewrite Q. destruct (Nat.eqb_spec j k) as [->|]; [|ring]. rewrite <- cre_mul, sqrt_sqrt by auto. ring.
  - intros c c' Hc Hc'. rewrite (D c c' Hc Hc'). apply lsum_ext. intros k _. rewrite cconj_mul, cconj_cre.
    transitivity (cmul (cmul (cre (sqrt (nth k q 0%R))) (cre (sqrt (nth k q 0%R)))) (cmul (v k c) (cconj (v k c')))); [|ring].
    rewrite <- cre_mul, sqrt_sqrt by auto. ring.
Qed.
Lemma diag_same : forall p q A B, diagonal p A -> diagonal q B -> same_powers p q.
Proof. intros p q A B HA HB n. pose proof (diag_trace p A HA n) as E1. rewrite (diag_trace q B HB n) in E1. injection E1 as E1. symmetry. exact E1. Qed.
End Diag.
