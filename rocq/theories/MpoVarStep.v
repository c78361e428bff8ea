(** One step of the variational product: the new tensors are the projection of the product on the two sites, so nothing on these two sites is closer to the product
    than the new pair by more than what its SVD discards. *)
From Coq Require Import List Arith Lia Bool ZArith Reals Lra Psatz Ring.
From Verif Require Import Base CoefOpAlg Numeric FiniteMps FmpsSpec FmpsFacts EffHam EffHamSpec EffHamFacts ChainSpec ChainFacts ChainOne MeasureFacts VmpsState Legs VmpsEnv FinMpo FinMpoSpec FinMpoFacts Cx GVec DmrgStep
  TruncMps TruncMpsSpec TruncMpsMath TruncMpsFacts MpoCano MpoCanoSpec MpoMath MpoCanoFacts MpoCanoRun MpoTrunc MpoCanoInst MpoVar MpoVarSpec MpoVarEnv.
Import ListNotations.
Local Open Scope nat_scope.

Notation lb_ok := (left_basis_ok cx c0 c1 cadd cmul csub copp cx_ring cconj cconj0 cconj1 cconj_add cconj_mul).
Notation rb_ok := (right_basis_ok cx c0 c1 cadd cmul csub copp cx_ring cconj cconj0 cconj1 cconj_add cconj_mul).
Notation cts := (two_site cx c0 cadd cmul). Notation cwhole := (whole cx c0 c1 cadd cmul). Notation cover := (over cx c0 cadd).
Notation clifted := (lifted cx c0 c1 cadd cmul csub copp cx_ring cconj cconj0 cconj_add cconj_mul).
Notation cwhole_dot := (whole_dot cx c0 c1 cadd cmul csub copp cx_ring cconj cconj0 cconj_add cconj_mul).
Notation csplits := (splits cx c0 cadd cmul).

(** *** sums over four indices *)
Section Four.
Variables (A B C D : Type) (la : list A) (lb : list B) (lc : list C) (ld : list D).
Notation fn := (A -> B -> C -> D -> cx).
Definition s4 (f : fn) : cx := lsum la (fun a => lsum lb (fun b => lsum lc (fun c => lsum ld (fun d => f a b c d)))).
Lemma lsum_add' : forall X (l : list X) f g, lsum l (fun x => cadd (f x) (g x)) = cadd (lsum l f) (lsum l g).
Proof. intros X l f g. apply (EffHamFacts.lsum_add cx c0 c1 cadd cmul csub copp cx_ring). Qed.
Lemma s4_add : forall f g, s4 (fun a b c d => cadd (f a b c d) (g a b c d)) = cadd (s4 f) (s4 g).
Proof.
  intros f g. unfold s4. rewrite <- lsum_add'. apply lsum_ext. intros a _. rewrite <- lsum_add'. apply lsum_ext. intros b _. rewrite <- lsum_add'. apply lsum_ext. intros c _. apply lsum_add'.
Qed.
Lemma s4_mul : forall k f, cmul k (s4 f) = s4 (fun a b c d => cmul k (f a b c d)).
Proof. intros k f. unfold s4. rewrite lsum_mul_l. apply lsum_ext. intros. rewrite lsum_mul_l. apply lsum_ext. intros. rewrite lsum_mul_l. apply lsum_ext. intros. apply lsum_mul_l. Qed.
Lemma s4_conj : forall f, cconj (s4 f) = s4 (fun a b c d => cconj (f a b c d)).
Proof. intros f. unfold s4. rewrite lsum_conj. apply lsum_ext. intros. rewrite lsum_conj. apply lsum_ext. intros. rewrite lsum_conj. apply lsum_ext. intros. apply lsum_conj. Qed.
Lemma s4_ext : forall f g, (forall a b c d, f a b c d = g a b c d) -> s4 f = s4 g.
Proof. intros f g H. unfold s4. apply lsum_ext. intros a _. apply lsum_ext. intros b _. apply lsum_ext. intros c _. apply lsum_ext. intros d _. apply H. Qed.
Lemma lsum_nonneg : forall X (l : list X) f, (forall x, (0 <= fst (f x))%R) -> (0 <= fst (lsum l f))%R.
Proof. intros X l f H. unfold EffHamSpec.lsum. induction l as [|x l IH]; cbn [fold_right]; [cbn; lra|]. specialize (H x). set (w := fold_right _ _ l) in *. unfold cadd. cbn [fst]. lra. Qed.
Definition ip4 (f g : fn) : cx := s4 (fun a b c d => cmul (cconj (f a b c d)) (g a b c d)).
Lemma sq_nonneg : forall z, (0 <= fst (cmul (cconj z) z))%R.
Proof. intros [x y]. unfold cmul, cconj. cbn [fst snd]. nra. Qed.
Lemma ip4_conj : forall f g, ip4 g f = cconj (ip4 f g).
Proof. intros f g. unfold ip4. rewrite s4_conj. apply s4_ext. intros. rewrite cconj_mul, cconj_conj. ring. Qed.
Lemma ip4_young : forall f g, (2 * fst (ip4 f g) <= fst (ip4 f f) + fst (ip4 g g))%R.
Proof.
  intros f g. assert (P : (0 <= fst (ip4 (fun a b c d => csub (f a b c d) (g a b c d)) (fun a b c d => csub (f a b c d) (g a b c d))))%R).
  { unfold ip4, s4. do 4 (apply lsum_nonneg; intros ?). apply sq_nonneg. }
  assert (E : ip4 (fun a b c d => csub (f a b c d) (g a b c d)) (fun a b c d => csub (f a b c d) (g a b c d)) =
    cadd (cadd (ip4 f f) (cmul (copp c1) (ip4 f g))) (cadd (cmul (copp c1) (ip4 g f)) (ip4 g g))).
  { unfold ip4. rewrite !s4_mul, <- !s4_add. apply s4_ext. intros a b c d. rewrite csub_conj. ring. }
  rewrite E in P. rewrite (ip4_conj f g) in P. revert P. generalize (ip4 f f) (ip4 f g) (ip4 g g). intros [x x'] [y y'] [z z']. unfold cadd, cmul, copp, cconj, c1. cbn [fst snd]. intros. lra.
Qed.
Lemma ip4_pos : forall f, (0 <= fst (ip4 f f))%R.
Proof. intros f. unfold ip4, s4. do 4 (apply lsum_nonneg; intros ?). apply sq_nonneg. Qed.
End Four.

(** *** projection on two sites between orthonormal bases *)
Section Cut.
Variables (l r : list cten) (D0 p1 p2 D3 : nat).
Hypothesis LB : left_basis cx c0 c1 cadd cmul cconj l D0.
Hypothesis RB : right_basis cx c0 c1 cadd cmul cconj r D3.
Hypothesis FL : cfit 1 l D0.
Variable X : list nat -> cx.
Notation G := (gp l r X). Notation dot := (cdot4 D0 p1 p2 D3).
(** squared norm of the target *)
Definition tgt2 : cx := cover l r p1 p2 (fun cl s t cr => cmul (cconj (X (cl ++ [s; t] ++ cr))) (X (cl ++ [s; t] ++ cr))).
Lemma dot_ip4 : forall x y, dot x y = ip4 nat nat nat nat (seq 0 D0) (seq 0 p1) (seq 0 p2) (seq 0 D3) x y.
Proof. intros x y. apply (dot4_lsum cx c0 c1 cadd cmul csub copp cx_ring). Qed.
Lemma lift_dot : forall y, dot y G = cover l r p1 p2 (fun cl s t cr => cmul (cconj (cwhole l r D0 D3 y cl s t cr)) (X (cl ++ [s; t] ++ cr))).
Proof. intros y. exact (clifted l r D0 p1 p2 D3 y (fun cl s t cr => X (cl ++ [s; t] ++ cr))). Qed.
Lemma bessel : (fst (dot G G) <= fst tgt2)%R.
Proof.
  pose proof (ip4_young _ _ _ _ (configs (dims l)) (seq 0 p1) (seq 0 p2) (configs (dims r)) (cwhole l r D0 D3 G) (fun cl s t cr => X (cl ++ [s; t] ++ cr))) as Y.
  change (ip4 _ _ _ _ _ _ _ _ (cwhole l r D0 D3 G) (fun cl s t cr => X (cl ++ [s; t] ++ cr))) with (cover l r p1 p2 (fun cl s t cr => cmul (cconj (cwhole l r D0 D3 G cl s t cr)) (X (cl ++ [s; t] ++ cr)))) in Y.
  rewrite <- (lift_dot G) in Y.
  change (ip4 _ _ _ _ _ _ _ _ (cwhole l r D0 D3 G) (cwhole l r D0 D3 G)) with (cover l r p1 p2 (fun cl s t cr => cmul (cconj (cwhole l r D0 D3 G cl s t cr)) (cwhole l r D0 D3 G cl s t cr))) in Y.
  rewrite (cwhole_dot l r D0 p1 p2 D3 LB RB) in Y. fold tgt2 in Y. change (ip4 _ _ _ _ _ _ _ _ (fun cl s t cr => X (cl ++ [s; t] ++ cr)) (fun cl s t cr => X (cl ++ [s; t] ++ cr))) with tgt2 in Y. lra.
Qed.
Lemma proj_young : forall y, (2 * fst (dot y G) <= fst (dot y y) + fst (dot G G))%R.
Proof. intros y. rewrite !dot_ip4. apply ip4_young. Qed.
(** a pair of tensors on the two sites *)
Lemma pair_x : forall a b y, csplits D0 p1 p2 D3 y a b -> lsum (configs (dims (l ++ a :: b :: r))) (fun c => cmul (cconj (mm (l ++ a :: b :: r) c 0 0)) (X c)) = dot y G.
Proof.
  intros a b y S. rewrite lift_dot. etransitivity; [exact (configs_mid cx c0 c1 cadd cmul csub copp cx_ring l r a b _)|]. rewrite (fa_1 _ _ _ _ _ _ _ _ _ _ _ S), (fa_2 _ _ _ _ _ _ _ _ _ _ _ S).
  apply over_ext. intros cl s t cr H1 H2 H3 _. f_equal. f_equal. exact (mid_whole cx c0 c1 cadd cmul csub copp cx_ring l r a b y D0 p1 p2 D3 cl s t cr FL S H1 H2 H3).
Qed.
Lemma pair_2 : forall a b y, csplits D0 p1 p2 D3 y a b -> lsum (configs (dims (l ++ a :: b :: r))) (fun c => cmul (cconj (mm (l ++ a :: b :: r) c 0 0)) (mm (l ++ a :: b :: r) c 0 0)) = dot y y.
Proof. intros a b y S. exact (norm2_splits cx c0 c1 cadd cmul csub copp cx_ring cconj cconj0 cconj_add cconj_mul l r a b y D0 p1 p2 D3 FL S LB RB). Qed.
End Cut.

(** *** the tensors a truncated SVD gives *)
Section Svd.
Variables (D0 p1 p2 D3 K : nat) (u v : cten) (s : list real).
Hypothesis KS : length s = K.
Hypothesis (U0 : d0 u = D0) (U1 : d1 u = p1) (U2 : d2 u = K) (V0 : d0 v = K) (V1 : d1 v = p2) (V2 : d2 v = D3).
Hypothesis HU : lcan u.
Hypothesis HV : rcan v.
Definition usv (o x t o' : nat) : cx := lsum (seq 0 K) (fun k => cmul (cmul (el u o x k) (cre (nth k s 0%R))) (el v k t o')).
Notation dot := (cdot4 D0 p1 p2 D3).
Lemma usv_proj : forall o x k, k < K -> lsum (seq 0 p2) (fun t => lsum (seq 0 D3) (fun o' => cmul (usv o x t o') (cconj (el v k t o')))) = cmul (el u o x k) (cre (nth k s 0%R)).
Proof.
  intros o x k Hk. transitivity (lsum (seq 0 K) (fun k' => cmul (delta cx c0 c1 k k') (cmul (el u o x k') (cre (nth k' s 0%R))))).
  2:{ apply (delta_l cx c0 c1 cadd cmul csub copp cx_ring K k (fun k' => cmul (el u o x k') (cre (nth k' s 0%R)))). exact Hk. }
  transitivity (lsum (seq 0 K) (fun k' => cmul (lsum (seq 0 p2) (fun t => lsum (seq 0 D3) (fun o' => cmul (cconj (el v k t o')) (el v k' t o')))) (cmul (el u o x k') (cre (nth k' s 0%R))))).
  - etransitivity; [|symmetry; apply lsum_ext; intros k' _; rewrite lsum_mul_r; apply lsum_ext; intros t _; apply lsum_mul_r]. cbv beta.
    etransitivity; [|apply (EffHamFacts.pull2 cx c0 c1 cadd cmul csub copp cx_ring)]. apply lsum_ext. intros t _. apply lsum_ext. intros o' _. unfold usv. rewrite lsum_mul_r. apply lsum_ext. intros k' _. ring.
  - apply lsum_ext. intros k' Hk'. apply in_seq in Hk'. f_equal. rewrite <- (HV k k') by (rewrite V0; lia). rewrite V1, V2, lsum_swap, sumn_lsum. apply lsum_ext. intros o' _. rewrite sumn_lsum. reflexivity.
Qed.
Lemma usv_dot : forall G, (forall o x k, o < D0 -> x < p1 -> k < K -> lsum (seq 0 p2) (fun t => lsum (seq 0 D3) (fun o' => cmul (G o x t o') (cconj (el v k t o')))) = cmul (el u o x k) (cre (nth k s 0%R))) ->
  dot usv G = cre (sq_sum s).
Proof.
  intros G HG. rewrite (dot4_lsum cx c0 c1 cadd cmul csub copp cx_ring).
  transitivity (lsum (seq 0 K) (fun k => cmul (cre (nth k s 0%R)) (lsum (seq 0 D0) (fun o => lsum (seq 0 p1) (fun x => cmul (cconj (el u o x k)) (lsum (seq 0 p2) (fun t => lsum (seq 0 D3) (fun o' => cmul (G o x t o') (cconj (el v k t o')))))))))).
  - transitivity (lsum (seq 0 D0) (fun o => lsum (seq 0 p1) (fun x => lsum (seq 0 p2) (fun t => lsum (seq 0 D3) (fun o' => lsum (seq 0 K) (fun k => cmul (cre (nth k s 0%R)) (cmul (cconj (el u o x k)) (cmul (G o x t o') (cconj (el v k t o')))))))))).
    { apply lsum_ext. intros o _. apply lsum_ext. intros x _. apply lsum_ext. intros t _. apply lsum_ext. intros o' _. unfold usv. rewrite lsum_conj, lsum_mul_r. apply lsum_ext. intros k _. rewrite !cconj_mul.
      assert (E : cconj (cre (nth k s 0%R)) = cre (nth k s 0%R)) by (unfold cconj, cre; cbn [fst snd]; f_equal; ring). rewrite E. ring. }
    etransitivity; [apply (EffHamFacts.pull4 cx c0 c1 cadd cmul csub copp cx_ring)|]. apply lsum_ext. intros k _. rewrite lsum_mul_l. apply lsum_ext. intros o _. rewrite lsum_mul_l. apply lsum_ext. intros x _.
    rewrite !lsum_mul_l. apply lsum_ext. intros t _. rewrite !lsum_mul_l. apply lsum_ext. intros o' _. ring.
  - transitivity (lsum (seq 0 K) (fun k => cre (nth k s 0 * nth k s 0)%R)).
    + apply lsum_ext. intros k Hk. apply in_seq in Hk.
      transitivity (cmul (cre (nth k s 0%R)) (cmul (cre (nth k s 0%R)) (lsum (seq 0 D0) (fun o => lsum (seq 0 p1) (fun x => cmul (cconj (el u o x k)) (el u o x k)))))).
      * f_equal. rewrite lsum_mul_l. apply lsum_ext. intros o Ho. apply in_seq in Ho. rewrite lsum_mul_l. apply lsum_ext. intros x Hx. apply in_seq in Hx. rewrite HG by lia. ring.
      * assert (E : lsum (seq 0 D0) (fun o => lsum (seq 0 p1) (fun x => cmul (cconj (el u o x k)) (el u o x k))) = c1).
        { transitivity (delta cx c0 c1 k k); [|unfold FmpsSpec.delta; rewrite Nat.eqb_refl; reflexivity]. rewrite <- (HU k k) by (rewrite U2; lia). rewrite U0, U1, sumn_lsum. apply lsum_ext. intros o _. rewrite sumn_lsum. reflexivity. }
        rewrite E. unfold cmul, cre, c1. cbn [fst snd]. f_equal; ring.
    + rewrite <- KS. clear. induction s as [|x s' IH]; [reflexivity|]. cbn [length seq sq_sum fold_right]. change (lsum (0 :: seq 1 (length s')) (fun k => cre (nth k (x :: s') 0 * nth k (x :: s') 0)%R)) with (cadd (cre (x * x)%R) (lsum (seq 1 (length s')) (fun k => cre (nth k (x :: s') 0 * nth k (x :: s') 0)%R))).
      rewrite <- seq_shift. rewrite (EffHamFacts.lsum_map cx c0 cadd). cbn [nth]. rewrite IH. unfold sq_sum. unfold cre, cadd. cbn [fst snd]. f_equal; ring.
Qed.
End Svd.

(** *** operators *)
Lemma dist_expand : forall ds M X, hsdist2 ds M X = (hs2 ds M - 2 * fst (hs ds M X) + hs2 ds X)%R.
Proof. intros ds M X. unfold hsdist2. unfold hs2 at 1. rewrite hs_sub, (hs_conj ds M X), !hs_re. destruct (hs ds M X) as [x y]. unfold cre, csub, cconj. cbn [fst snd]. ring. Qed.
Lemma lsum_zero : forall A (l : list A) f, (forall x, (0 <= fst (f x))%R) -> fst (lsum l f) = 0%R -> forall x, In x l -> fst (f x) = 0%R.
Proof.
  intros A l f Hf. induction l as [|x l IH]; intros Hz y Hy; [destruct Hy|]. pose proof (lsum_nonneg A l f Hf) as P. pose proof (Hf x) as Q.
  change (lsum (x :: l) f) with (cadd (f x) (lsum l f)) in Hz. pose proof (fun Z => IH Z y) as IH'. set (w := lsum l f) in *. unfold cadd in Hz. cbn [fst] in Hz. destruct Hy as [<-|Hy]; [lra|]. apply IH'; auto. lra.
Qed.
Lemma dot_zero : forall D0 p1 p2 D3 y G, fst (cdot4 D0 p1 p2 D3 G G) = 0%R -> cdot4 D0 p1 p2 D3 y G = c0.
Proof.
  intros D0 p1 p2 D3 y G H. rewrite (dot4_lsum cx c0 c1 cadd cmul csub copp cx_ring) in H. rewrite (dot4_lsum cx c0 c1 cadd cmul csub copp cx_ring).
  assert (N3 : forall o s t, (0 <= fst (lsum (seq 0 D3) (fun o' => cmul (cconj (G o s t o')) (G o s t o'))))%R) by (intros; apply lsum_nonneg; intros; apply sq_nonneg).
  assert (N2 : forall o s, (0 <= fst (lsum (seq 0 p2) (fun t => lsum (seq 0 D3) (fun o' => cmul (cconj (G o s t o')) (G o s t o')))))%R) by (intros; apply lsum_nonneg; intros; apply N3).
  assert (N1 : forall o, (0 <= fst (lsum (seq 0 p1) (fun s => lsum (seq 0 p2) (fun t => lsum (seq 0 D3) (fun o' => cmul (cconj (G o s t o')) (G o s t o'))))))%R) by (intros; apply lsum_nonneg; intros; apply N2).
  apply (EffHamFacts.lsum_0 cx c0 c1 cadd cmul csub copp cx_ring). intros o Ho. apply (EffHamFacts.lsum_0 cx c0 c1 cadd cmul csub copp cx_ring). intros s Hs.
  apply (EffHamFacts.lsum_0 cx c0 c1 cadd cmul csub copp cx_ring). intros t Ht. apply (EffHamFacts.lsum_0 cx c0 c1 cadd cmul csub copp cx_ring). intros o' Ho'.
  pose proof (lsum_zero _ _ _ N1 H o Ho) as H1. pose proof (lsum_zero _ _ _ (N2 o) H1 s Hs) as H2. pose proof (lsum_zero _ _ _ (N3 o s) H2 t Ht) as H3.
  pose proof (lsum_zero _ _ _ (fun o' => sq_nonneg (G o s t o')) H3 o' Ho') as H4. cbv beta in H4.
  assert (E : G o s t o' = c0).
  { destruct (G o s t o') as [a b]. unfold cmul, cconj in H4. cbn [fst snd] in H4. assert (K : (Rsqr a + Rsqr b = 0)%R) by (rewrite <- H4; unfold Rsqr; ring). apply Rplus_sqr_eq_0 in K. destruct K as [-> ->]. reflexivity. }
  rewrite E. ring.
Qed.
Lemma norm6_dot : forall D0 p1 p2 D3 g G, (forall o s t o', o < D0 -> o' < D3 -> at6 g o (s / p1) (s mod p1) (t / p2) (t mod p2) o' = G o s t o') ->
  norm6 D0 p1 p1 p2 p2 D3 g = fst (cdot4 D0 (p1 * p1) (p2 * p2) D3 G G).
Proof.
  intros D0 p1 p2 D3 g G H. unfold norm6. f_equal. rewrite (dot4_lsum cx c0 c1 cadd cmul csub copp cx_ring), sumn_lsum. apply lsum_ext. intros o Ho. apply in_seq in Ho.
  transitivity (lsum (seq 0 (p1 * p1)) (fun k => lsum (seq 0 p2) (fun t => lsum (seq 0 p2) (fun t' => lsum (seq 0 D3) (fun o' => cmul (cconj (at6 g o (k / p1) (k mod p1) t t' o')) (at6 g o (k / p1) (k mod p1) t t' o')))))).
  - rewrite (pairs p1 p1 (fun s s' => lsum (seq 0 p2) (fun t => lsum (seq 0 p2) (fun t' => lsum (seq 0 D3) (fun o' => cmul (cconj (at6 g o s s' t t' o')) (at6 g o s s' t t' o')))))).
    one. one. one. one. one. reflexivity.
  - apply lsum_ext. intros s _.
    rewrite <- (pairs p2 p2 (fun t t' => lsum (seq 0 D3) (fun o' => cmul (cconj (at6 g o (s / p1) (s mod p1) t t' o')) (at6 g o (s / p1) (s mod p1) t t' o')))).
    apply lsum_ext. intros t _. apply lsum_ext. intros o' Ho'. apply in_seq in Ho'. rewrite H by lia. reflexivity.
Qed.
Lemma fit4_det : forall ts x y y', fit4 cx x ts y -> fit4 cx x ts y' -> y = y'.
Proof. induction ts as [|t ts IH]; intros x y y' H H'; cbn in *; [congruence|]. destruct H as [_ H], H' as [_ H']. eauto. Qed.
Lemma fit4_det_l : forall ts x x' , fit4 cx x ts 1 -> fit4 cx x' ts 1 -> x = x'.
Proof. intros [|t ts] x x' H H'; cbn in *; [congruence|]. destruct H as [H _], H' as [H' _]. congruence. Qed.

Section Step.
Variables (ds : list nat) (l r xs : list c4).
Hypothesis HX : oper_on cx ds xs.
Hypothesis HL : Forall left4 l.
Hypothesis HR : Forall right4 r.
Notation X := (melem xs). Notation xf := (fun c => mm (fz xs) c 0 0).
Notation G := (gp (fz l) (fz r) xf).
Definition gg (p q : c4) : real := fst (cdot4 (m0 p) (m1 p * m1 p) (m1 q * m1 q) (m3 q) G G).
Lemma list_pair_app : forall A (a b c d : list A), length a = length b -> b ++ c = a ++ d -> b = a /\ c = d.
Proof. induction a as [|x a IH]; intros [|y b] c d H E; try discriminate; cbn in *; [auto|]. injection E as -> E. destruct (IH b c d) as [-> ->]; auto. Qed.
Lemma pair_legs : forall p q, oper_on cx ds (l ++ p :: q :: r) ->
  fit4 cx 1 l (m0 p) /\ m3 p = m0 q /\ fit4 cx (m3 q) r 1 /\ m2 p = m1 p /\ m2 q = m1 q /\ ds = map (@m1 cx) l ++ m1 p :: m1 q :: map (@m1 cx) r.
Proof.
  intros p q [A [B C]]. apply fit4_app in A. destruct A as [d [A1 [A2 [A3 A4]]]]. subst d. rewrite map_app in B, C. cbn [map] in B, C.
  assert (E : length (map (@m1 cx) l) = length (map (@m2 cx) l)) by (rewrite !map_length; reflexivity).
  repeat split; auto; rewrite <- B in C; apply (list_pair_app _ _ _ _ _ E) in C; destruct C as [_ C]; injection C; auto.
Qed.
Lemma pair_splits : forall p q, oper_on cx ds (l ++ p :: q :: r) -> csplits (m0 p) (m1 p * m1 p) (m1 q * m1 q) (m3 q) (cts (fuse p) (fuse q)) (fuse p) (fuse q).
Proof.
  intros p q O. destruct (pair_legs p q O) as [_ [E [_ [E1 [E2 _]]]]]. pose proof (splits_self cx c0 cadd cmul (fuse p) (fuse q) E) as S. cbn [fuse d0 d1 d2] in S. rewrite E1, E2 in S. exact S.
Qed.
Lemma bases : forall p q, oper_on cx ds (l ++ p :: q :: r) ->
  left_basis cx c0 c1 cadd cmul cconj (fz l) (m0 p) /\ right_basis cx c0 c1 cadd cmul cconj (fz r) (m3 q) /\ cfit 1 (fz l) (m0 p).
Proof.
  intros p q O. destruct (pair_legs p q O) as [F1 [_ [F2 _]]]. split; [|split].
  - apply lb_ok; [apply fit4_fuse; exact F1|]. apply Forall_forall. intros t Ht. apply in_map_iff in Ht. destruct Ht as [t' [<- Ht]]. apply left4_fuse, (proj1 (Forall_forall _ _) HL), Ht.
  - apply rb_ok; [apply fit4_fuse; exact F2|]. apply Forall_forall. intros t Ht. apply in_map_iff in Ht. destruct Ht as [t' [<- Ht]]. apply right4_fuse, (proj1 (Forall_forall _ _) HR), Ht.
  - apply fit4_fuse. exact F1.
Qed.
Lemma pair_hs : forall p q y, oper_on cx ds (l ++ p :: q :: r) -> csplits (m0 p) (m1 p * m1 p) (m1 q * m1 q) (m3 q) y (fuse p) (fuse q) ->
  hs ds (melem (l ++ p :: q :: r)) X = cdot4 (m0 p) (m1 p * m1 p) (m1 q * m1 q) (m3 q) y G /\
  hs ds (melem (l ++ p :: q :: r)) (melem (l ++ p :: q :: r)) = cdot4 (m0 p) (m1 p * m1 p) (m1 q * m1 q) (m3 q) y y.
Proof.
  intros p q y O S. destruct (bases p q O) as [LB [RB FL]]. rewrite (hs_fuse ds _ _ O HX), (hs_fuse ds _ _ O O).
  assert (E : fz (l ++ p :: q :: r) = fz l ++ fuse p :: fuse q :: fz r) by (rewrite map_app; reflexivity). split.
  - unfold inner, basis, total. rewrite (oper_dims ds xs HX), <- (oper_dims ds _ O), E. exact (pair_x (fz l) (fz r) _ _ _ _ FL xf (fuse p) (fuse q) y S).
  - rewrite E. exact (pair_2 (fz l) (fz r) _ _ _ _ LB RB FL (fuse p) (fuse q) y S).
Qed.
Lemma gg_max : forall p q, oper_on cx ds (l ++ p :: q :: r) -> (gg p q <= hs2 ds X)%R.
Proof.
  intros p q O. destruct (bases p q O) as [LB [RB FL]]. unfold hs2. rewrite (hs_fuse ds _ _ HX HX).
  assert (E : inner (fz xs) (fz xs) = tgt2 (fz l) (fz r) (m1 p * m1 p) (m1 q * m1 q) xf).
  { unfold inner, basis, total. rewrite (oper_dims ds xs HX), <- (oper_dims ds _ O), map_app. destruct (pair_legs p q O) as [_ [_ [_ [E1 [E2 _]]]]]. rewrite <- E1 at 2. rewrite <- E2 at 2.
    exact (configs_mid cx c0 c1 cadd cmul csub copp cx_ring (fz l) (fz r) (fuse p) (fuse q) (fun c => cmul (cconj (mm (fz xs) c 0 0)) (mm (fz xs) c 0 0))). }
  rewrite E. apply bessel; auto.
Qed.
Lemma gg_dist : forall p q, oper_on cx ds (l ++ p :: q :: r) -> (hs2 ds X - gg p q <= hsdist2 ds (melem (l ++ p :: q :: r)) X)%R.
Proof.
  intros p q O. destruct (pair_hs p q _ O (pair_splits p q O)) as [E1 E2]. rewrite dist_expand. unfold hs2 at 2. rewrite E1, E2.
  pose proof (proj_young (fz l) (fz r) (m0 p) (m1 p * m1 p) (m1 q * m1 q) (m3 q) xf (cts (fuse p) (fuse q))) as Y. unfold gg. lra.
Qed.
Lemma gg_nz : forall p q, oper_on cx ds (l ++ p :: q :: r) -> hs ds (melem (l ++ p :: q :: r)) X <> c0 -> gg p q <> 0%R.
Proof.
  intros p q O H Z. apply H. destruct (pair_hs p q _ O (pair_splits p q O)) as [E1 _]. rewrite E1. apply dot_zero. exact Z.
Qed.
Lemma gg_same : forall p q p' q', oper_on cx ds (l ++ p :: q :: r) -> oper_on cx ds (l ++ p' :: q' :: r) -> m0 p' = m0 p /\ m3 q' = m3 q /\ m1 p' = m1 p /\ m1 q' = m1 q /\ gg p' q' = gg p q.
Proof.
  intros p q p' q' O O'. destruct (pair_legs p q O) as [A1 [A2 [A3 [_ [_ A4]]]]], (pair_legs p' q' O') as [B1 [B2 [B3 [_ [_ B4]]]]].
  pose proof (fit4_det _ _ _ _ B1 A1) as E1. pose proof (fit4_det_l _ _ _ B3 A3) as E2. rewrite A4 in B4. apply app_inv_head in B4. injection B4 as E3 E4. repeat split; auto. unfold gg. rewrite E1, E2, E3, E4. reflexivity.
Qed.
(** the step *)
Lemma step_math : forall p0 q0 g terr Dmax u s vt e p q, oper_on cx ds (l ++ p0 :: q0 :: r) ->
  (forall o s t o', o < m0 p0 -> o' < m3 q0 -> at6 g o (s / m1 p0) (s mod m1 p0) (t / m1 q0) (t mod m1 q0) o' = G o s t o') ->
  truncated6 (m0 p0) (m1 p0) (m1 p0) (m1 q0) (m1 q0) (m3 q0) terr Dmax g (u, s, vt, e) ->
  (contract_s4 s vt = Ok q /\ p = u) \/ (contract_4s u s = Ok p /\ q = vt) ->
  oper_on cx ds (l ++ p :: q :: r) /\ m0 p = m0 p0 /\ m3 q = m3 q0 /\ m1 p = m1 p0 /\ m1 q = m1 q0 /\ m3 p = length s /\
  hs ds (melem (l ++ p :: q :: r)) X = hs ds (melem (l ++ p :: q :: r)) (melem (l ++ p :: q :: r)) /\
  hs2 ds (melem (l ++ p :: q :: r)) = ((1 - e) * gg p0 q0)%R.
Proof.
  intros p0 q0 g terr Dmax u s vt e p q O HG [TD TL TR TP TE TM] HC. cbv beta iota zeta in *. destruct TD as [U0 [U1 [U2 [U3 [V0 [V1 [V2 V3]]]]]]]. destruct (pair_legs p0 q0 O) as [F1 [F2 [F3 [E1 [E2 ED]]]]].
  assert (K : m0 p = m0 p0 /\ m1 p = m1 p0 /\ m2 p = m1 p0 /\ m3 p = length s /\ m0 q = length s /\ m1 q = m1 q0 /\ m2 q = m1 q0 /\ m3 q = m3 q0 /\
    csplits (m0 p0) (m1 p0 * m1 p0) (m1 q0 * m1 q0) (m3 q0) (usv (length s) (fuse u) (fuse vt) s) (fuse p) (fuse q)).
  { destruct HC as [[HC ->]|[HC ->]].
    - unfold contract_s4 in HC. destruct (_ =? _); [|discriminate]. injection HC as <-. cbn [m0 m1 m2 m3]. repeat split; auto; cbn [fuse d0 d1 d2 m0 m1 m2 m3]; try congruence.
      intros x i j y _ _ _ _. unfold EffHamSpec.two_site, usv. rewrite sumn_lsum. cbn [fuse d2 el m1 m2 e4]. rewrite U3. apply lsum_ext. intros k _. ring.
    - unfold contract_4s in HC. destruct (_ =? _); [|discriminate]. injection HC as <-. cbn [m0 m1 m2 m3]. repeat split; auto; cbn [fuse d0 d1 d2 m0 m1 m2 m3]; try congruence.
      intros x i j y _ _ _ _. unfold EffHamSpec.two_site, usv. rewrite sumn_lsum. cbn [fuse d2 el m1 m2 e4]. apply lsum_ext. intros k _. ring. }
  destruct K as [P0 [P1 [P2 [P3 [Q0 [Q1 [Q2 [Q3 S]]]]]]]].
  assert (O' : oper_on cx ds (l ++ p :: q :: r)).
  { split; [|split].
    - apply fit4_app. exists (m0 p0). split; [exact F1|]. cbn. split; [auto|]. split; [congruence|]. rewrite Q3. exact F3.
    - rewrite map_app. cbn [map]. rewrite P1, Q1. auto.
    - destruct O as [_ [_ O2]]. rewrite map_app in O2 |- *. cbn [map] in O2 |- *. rewrite P2, Q2, <- E1, <- E2. exact O2. }
  assert (S' : csplits (m0 p) (m1 p * m1 p) (m1 q * m1 q) (m3 q) (usv (length s) (fuse u) (fuse vt) s) (fuse p) (fuse q)) by (rewrite P0, P1, Q1, Q3; exact S).
  destruct (pair_hs p q _ O' S') as [H1 H2]. rewrite P0, P1, Q1, Q3 in H1, H2.
  assert (UD : forall F, (forall o x k, o < m0 p0 -> x < m1 p0 * m1 p0 -> k < length s -> lsum (seq 0 (m1 q0 * m1 q0)) (fun t => lsum (seq 0 (m3 q0)) (fun o' => cmul (F o x t o') (cconj (el (fuse vt) k t o')))) = cmul (el (fuse u) o x k) (cre (nth k s 0%R))) ->
    cdot4 (m0 p0) (m1 p0 * m1 p0) (m1 q0 * m1 q0) (m3 q0) (usv (length s) (fuse u) (fuse vt) s) F = cre (sq_sum s)).
  { apply usv_dot; auto; cbn [fuse d0 d1 d2]; try congruence. apply left4_fuse, TL. }
  assert (D1 := UD G). assert (D2 := UD (usv (length s) (fuse u) (fuse vt) s)). rewrite D1 in H1; [rewrite D2 in H2|].
  - repeat (split; [solve [auto; congruence]|]). unfold hs2. rewrite H2. cbn [cre fst]. destruct TE as [_ TE]. rewrite TE. f_equal. apply norm6_dot. exact HG.
  - intros o x k Ho Hx Hk. apply (usv_proj (m0 p0) (m1 p0 * m1 p0)); cbn [fuse d0 d1 d2]; try congruence; auto. apply right4_fuse, TR.
  - intros o x k Ho Hx Hk. assert (m1 p0 <> 0) by nia. cbn [fuse el]. rewrite U2, V2. rewrite <- TP; [|auto|apply Nat.div_lt_upper_bound; lia|apply Nat.mod_upper_bound; auto|auto].
    transitivity (lsum (seq 0 (m1 q0 * m1 q0)) (fun t => lsum (seq 0 (m3 q0)) (fun o' => cmul (at6 g o (x / m1 p0) (x mod m1 p0) (t / m1 q0) (t mod m1 q0) o') (cconj (e4 vt k (t / m1 q0) (t mod m1 q0) o'))))).
    + apply lsum_ext. intros t _. apply lsum_ext. intros o' Ho'. apply in_seq in Ho'. rewrite HG by lia. reflexivity.
    + rewrite (pairs (m1 q0) (m1 q0) (fun t t' => lsum (seq 0 (m3 q0)) (fun o' => cmul (at6 g o (x / m1 p0) (x mod m1 p0) t t' o') (cconj (e4 vt k t t' o'))))).
      symmetry. one. one. one. reflexivity.
Qed.
(** what one may conclude: nothing between l and r is closer by more than e times the squared norm of the product *)
Lemma step_best : forall p q e p' q', oper_on cx ds (l ++ p :: q :: r) -> (0 <= e < 1)%R ->
  hs ds (melem (l ++ p :: q :: r)) X = hs ds (melem (l ++ p :: q :: r)) (melem (l ++ p :: q :: r)) -> hs2 ds (melem (l ++ p :: q :: r)) = ((1 - e) * gg p q)%R ->
  oper_on cx ds (l ++ p' :: q' :: r) -> (hsdist2 ds (melem (l ++ p :: q :: r)) X <= hsdist2 ds (melem (l ++ p' :: q' :: r)) X + e * hs2 ds X)%R.
Proof.
  intros p q e p' q' O He H1 H2 O'. rewrite (proj_dist ds _ X H1), H2. pose proof (gg_dist p' q' O') as D. pose proof (gg_max p q O) as M.
  destruct (gg_same p q p' q' O O') as [_ [_ [_ [_ E]]]]. rewrite E in D. nra.
Qed.
End Step.
