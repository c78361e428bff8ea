(** One step of TruncateMPS on amplitudes: projection of a state on the kept basis. *)
From Coq Require Import List Arith Lia Bool ZArith Reals Lra Ring.
From Verif Require Import Base FiniteMps FmpsSpec FmpsFacts EffHam EffHamSpec EffHamFacts ChainSpec ChainFacts ChainOne Cx GVec DmrgStep TruncMps TruncMpsSpec.
Import ListNotations.
Local Open Scope nat_scope.

Notation lsum_ext := (EffHamFacts.lsum_ext cx c0 cadd). Notation lsum_swap := (EffHamFacts.lsum_swap cx c0 c1 cadd cmul csub copp cx_ring).
Notation lsum_mul_l := (EffHamFacts.lsum_mul_l cx c0 c1 cadd cmul csub copp cx_ring). Notation lsum_mul_r := (EffHamFacts.lsum_mul_r cx c0 c1 cadd cmul csub copp cx_ring).
Notation sumn_lsum := (EffHamFacts.sumn_lsum cx c0 c1 cadd cmul csub copp cx_ring).
Notation lsum_conj := (EffHamFacts.lsum_conj cx c0 cadd cconj cconj0 cconj_add).
Notation lsum_app := (EffHamFacts.lsum_app cx c0 c1 cadd cmul csub copp cx_ring).
Notation configs_app := (EffHamFacts.configs_app cx c0 c1 cadd cmul csub copp cx_ring).
Notation configs_one := (EffHamFacts.configs_one cx c0 c1 cadd cmul csub copp cx_ring).
Notation mps_mat_app := (EffHamFacts.mps_mat_app cx c0 c1 cadd cmul csub copp cx_ring).
Notation mps_one := (EffHamFacts.mps_one cx c0 c1 cadd cmul csub copp cx_ring).
Notation mm := (mps_mat cx c0 c1 cadd cmul).
Notation lsum := (EffHamSpec.lsum cx c0 cadd).
Notation lcan := (left_canonical cx c0 c1 cadd cmul cconj). Notation rcan := (right_canonical cx c0 c1 cadd cmul cconj).
Notation cfit := (EffHamSpec.fit cx).
Notation dims := (map (@d1 cx)).

(** the state psi, projected on the basis of the left part l, is p times the right part r *)
Definition projects (psi : list nat -> cx) (l r : list cten) (D : nat) (p : real) : Prop := forall y c', y < D -> In c' (configs (dims r)) ->
  lsum (configs (dims l)) (fun c => cmul (cconj (mm l c 0 y)) (psi (c ++ c'))) = cmul (cre p) (mm r c' y 0).

Lemma in_configs_cons : forall d ds s c, In (s :: c) (configs (d :: ds)) <-> s < d /\ In c (configs ds).
Proof.
  intros d ds s c. cbn [configs]. rewrite in_flat_map. split.
  - intros [x [H1 H2]]. apply in_map_iff in H2. destruct H2 as [y [H2 H3]]. injection H2 as -> ->. apply in_seq in H1. split; [lia|auto].
  - intros [H1 H2]. exists s. split; [apply in_seq; lia|]. apply in_map_iff. eauto.
Qed.
Lemma in_configs_nil : forall d ds c, In c (configs (d :: ds)) -> exists s c', c = s :: c' /\ s < d /\ In c' (configs ds).
Proof.
  intros d ds c H. cbn [configs] in H. rewrite in_flat_map in H. destruct H as [x [H1 H2]]. apply in_map_iff in H2. destruct H2 as [y [H2 H3]].
  apply in_seq in H1. exists x, y. repeat split; auto. lia.
Qed.
(** adding one tensor on the left *)
Lemma snoc_sum : forall psi l a r p u y c', cfit 1 l (d0 a) -> d0 u = d0 a -> d1 u = d1 a -> y < d2 u -> projects psi l (a :: r) (d0 a) p -> In c' (configs (dims r)) ->
  lsum (configs (dims (l ++ [u]))) (fun c => cmul (cconj (mm (l ++ [u]) c 0 y)) (psi (c ++ c'))) =
  cmul (cre p) (lsum (seq 0 (d2 a)) (fun z => cmul (lsum (seq 0 (d0 a)) (fun x => lsum (seq 0 (d1 a)) (fun s => cmul (cconj (el u x s y)) (el a x s z)))) (mm r c' z 0))).
Proof.
  intros psi l a r p u y c' HF U0 U1 Hy HP HC. rewrite map_app, configs_app. cbn [map].
  transitivity (lsum (configs (dims l)) (fun c => lsum (seq 0 (d1 a)) (fun s => lsum (seq 0 (d0 a)) (fun x => cmul (cconj (el u x s y)) (cmul (cconj (mm l c 0 x)) (psi (c ++ s :: c'))))))).
  { apply lsum_ext. intros c Hc. rewrite configs_one, U1. apply lsum_ext. intros s Hs. apply in_seq in Hs.
    rewrite (mps_mat_app l [u] c [s] 1 (d0 a) 0 y HF ltac:(lia)) by (apply configs_len in Hc; rewrite map_length in Hc; auto).
    rewrite lsum_conj, lsum_mul_r. apply lsum_ext. intros x Hx. rewrite mps_one by auto. rewrite cconj_mul, <- app_assoc. cbn [app]. ring. }
  etransitivity; [apply lsum_swap|].
  transitivity (lsum (seq 0 (d1 a)) (fun s => lsum (seq 0 (d0 a)) (fun x => cmul (cconj (el u x s y)) (cmul (cre p) (lsum (seq 0 (d2 a)) (fun z => cmul (el a x s z) (mm r c' z 0))))))).
  { apply lsum_ext. intros s Hs. apply in_seq in Hs. etransitivity; [apply lsum_swap|]. apply lsum_ext. intros x Hx. apply in_seq in Hx.
    rewrite <- lsum_mul_l. f_equal. rewrite (HP x (s :: c')); [|lia|apply in_configs_cons; split; [lia|auto]]. cbn [mps_mat]. rewrite sumn_lsum. reflexivity. }
  rewrite lsum_mul_l. etransitivity; [apply lsum_swap|]. symmetry.
  transitivity (lsum (seq 0 (d2 a)) (fun z => lsum (seq 0 (d0 a)) (fun x => lsum (seq 0 (d1 a)) (fun s => cmul (cconj (el u x s y)) (cmul (cre p) (cmul (el a x s z) (mm r c' z 0))))))).
  { apply lsum_ext. intros z Hz. rewrite lsum_mul_r, lsum_mul_l. apply lsum_ext. intros x Hx. rewrite lsum_mul_r, lsum_mul_l. apply lsum_ext. intros s Hs. ring. }
  etransitivity; [apply lsum_swap|]. apply lsum_ext. intros x Hx. etransitivity; [apply lsum_swap|]. apply lsum_ext. intros s Hs.
  rewrite lsum_mul_l, lsum_mul_l. reflexivity.
Qed.
Lemma cre_mul : forall a b, cre (a * b) = cmul (cre a) (cre b).
Proof. intros. unfold cre, cmul. cbn [fst snd]. f_equal; ring. Qed.
Lemma cre_1 : cre 1 = c1. Proof. reflexivity. Qed.
Lemma cconj_cre : forall a, cconj (cre a) = cre a.
Proof. intros. unfold cre, cconj. cbn [fst snd]. f_equal. ring. Qed.
Lemma frob_lsum : forall t, frob t = lsum (seq 0 (d0 t)) (fun x => lsum (seq 0 (d1 t)) (fun s => lsum (seq 0 (d2 t)) (fun y => cmul (cconj (el t x s y)) (el t x s y)))).
Proof. intros. unfold frob. rewrite sumn_lsum. apply lsum_ext. intros. rewrite sumn_lsum. apply lsum_ext. intros. apply sumn_lsum. Qed.
Lemma frob_pos : forall t, (0 <= fst (frob t))%R /\ snd (frob t) = 0%R.
Proof.
  assert (P : forall n f, (forall i, (0 <= fst (f i))%R /\ snd (f i) = 0%R) -> (0 <= fst (csum n f))%R /\ snd (csum n f) = 0%R).
  { induction n as [|n IH]; intros f H; cbn [FmpsSpec.sumn]; [split; [cbn; lra|reflexivity]|]. destruct (IH f H) as [A B], (H n) as [C D].
    change (fst (cadd (csum n f) (f n))) with (fst (csum n f) + fst (f n))%R. change (snd (cadd (csum n f) (f n))) with (snd (csum n f) + snd (f n))%R. rewrite B, D. split; lra. }
  intros t. unfold frob. do 3 (apply P; intros). unfold cmul, cconj. cbn [fst snd]. split; [nra|ring].
Qed.
Lemma frob_re : forall t, frob t = cre (fst (frob t)).
Proof. intros t. destruct (frob_pos t) as [_ H]. destruct (frob t) as [x y]. cbn [fst snd] in *. subst. reflexivity. Qed.
Lemma frob_nz : forall t, (exists x s y, x < d0 t /\ s < d1 t /\ y < d2 t /\ el t x s y <> c0) <-> fst (frob t) <> 0%R.
Proof.
  intros t. split.
  - intros [x [s [y [Hx [Hs [Hy H]]]]]] E. apply H. unfold frob in E.
    assert (Q : forall z, (0 <= fst (cmul (cconj z) z))%R /\ (fst (cmul (cconj z) z) = 0%R -> z = c0)).
    { intros z. replace (cmul (cconj z) z) with (cmul z (cconj z)) by ring. apply sq_pos. }
    eapply (proj2 (csum_pos _ _ _)) in E; [|exact Hx]. eapply (proj2 (csum_pos _ _ _)) in E; [|exact Hs]. eapply (proj2 (csum_pos _ _ _)) in E; [|exact Hy]. apply Q. exact E.
    Unshelve. all: intros; try (apply Q); try (apply csum_pos; intros; apply Q); apply csum_pos; intros; apply csum_pos; intros; apply Q.
  - intros H. destruct (Req_EM_T 0 0) as [_|]; [|lra].
    assert (D : forall n (P : nat -> Prop), (forall i, P i \/ ~ P i) -> (exists i, i < n /\ P i) \/ (forall i, i < n -> ~ P i)).
    { induction n as [|n IH]; intros P HD; [right; lia|]. destruct (IH P HD) as [[i [Hi Pi]]|N]; [left; exists i; auto|].
      destruct (HD n); [left; exists n; auto|right]. intros i Hi. destruct (Nat.eq_dec i n) as [->|]; auto. apply N. lia. }
    assert (E0 : forall z : cx, z <> c0 \/ ~ z <> c0).
    { intros [x y]. destruct (Req_EM_T x 0) as [->|]; [destruct (Req_EM_T y 0) as [->|]; [right; intros G; apply G; reflexivity|left; intros [= ]; auto]|left; intros [= ]; auto]. }
    destruct (D (d0 t) (fun x => exists s, s < d1 t /\ exists y, y < d2 t /\ el t x s y <> c0)) as [G|N].
    + intros x. destruct (D (d1 t) (fun s => exists y, y < d2 t /\ el t x s y <> c0)) as [G|G]; [intros s; destruct (D (d2 t) (fun y => el t x s y <> c0)) as [G|G]; auto; right; intros [y [Hy Ey]]; exact (G y Hy Ey)|auto|].
      right. intros [s [Hs Es]]. exact (G s Hs Es).
    + destruct G as [x [Hx [s [Hs [y [Hy Ey]]]]]]. exists x, s, y. auto.
    + exfalso. apply H. unfold frob. assert (Z : forall n f, (forall i, i < n -> f i = c0) -> csum n f = c0).
      { induction n as [|n IH]; intros f Hf; cbn [FmpsSpec.sumn]; auto. rewrite IH by auto. rewrite Hf by lia. ring. }
      assert (F : csum (d0 t) (fun a => csum (d1 t) (fun s => csum (d2 t) (fun b => cmul (cconj (el t a s b)) (el t a s b)))) = c0); [|rewrite F; reflexivity].
      apply Z. intros x Hx. apply Z. intros s Hs. apply Z. intros y Hy. assert (el t x s y = c0) as ->; [|ring].
      destruct (el t x s y) as [u v] eqn:Eel. destruct (Req_EM_T u 0) as [->|], (Req_EM_T v 0) as [->|]; auto; exfalso; apply (N x Hx); exists s; split; auto; exists y; split; auto; rewrite Eel; intros [= ]; auto.
Qed.

(** a matrix in front of a tensor *)
Lemma front : forall m b b' r c k, contract_mt cx c0 cadd cmul m b = Ok b' -> In c (configs (dims (b :: r))) ->
  mm (b' :: r) c k 0 = lsum (seq 0 (n1 m)) (fun z => cmul (me m k z) (mm (b :: r) c z 0)).
Proof.
  intros m b b' r c k E HC. destruct (contract_mt_dims cx c0 cadd cmul m b b' E) as [E0 [E1 [E2 E3]]]. apply in_configs_nil in HC. destruct HC as [s [c' [-> [Hs HC]]]].
  cbn [mps_mat]. rewrite sumn_lsum, E2.
  transitivity (lsum (seq 0 (d2 b)) (fun w => lsum (seq 0 (n1 m)) (fun z => cmul (me m k z) (cmul (el b z s w) (mm r c' w 0))))).
  - apply lsum_ext. intros w Hw. rewrite E3, sumn_lsum, lsum_mul_r. apply lsum_ext. intros z Hz. ring.
  - etransitivity; [apply lsum_swap|]. apply lsum_ext. intros z Hz. rewrite sumn_lsum, lsum_mul_l. reflexivity.
Qed.
Lemma sum_sq_nth : forall s, cre (sum_sq s) = lsum (seq 0 (length s)) (fun k => cmul (cre (nth k s 0%R)) (cre (nth k s 0%R))).
Proof.
  induction s as [|x s IH]; [reflexivity|]. cbn [length seq].
  change (cre (x * x + sum_sq s) = cadd (cmul (cre x) (cre x)) (lsum (seq 1 (length s)) (fun k => cmul (cre (nth k (x :: s) 0%R)) (cre (nth k (x :: s) 0%R))))).
  rewrite <- seq_shift, (EffHamFacts.lsum_map cx c0 cadd). cbn [nth]. rewrite <- IH, <- cre_mul. unfold cre, cadd. cbn [fst snd]. f_equal; ring.
Qed.

(** one step *)
Lemma step_math : forall terr Dmax psi l a b r p u s vt e m b', cfit 1 l (d0 a) -> d2 a = d0 b -> rcan b -> frob a = c1 ->
  projects psi l (a :: b :: r) (d0 a) p -> truncated_svd terr Dmax a (u, s, vt, e) ->
  contract_svt (map (fun x => (x / sqrt (1 - e))%R) s) vt = Ok m -> contract_mt cx c0 cadd cmul m b = Ok b' ->
  projects psi (l ++ [u]) (b' :: r) (length s) (p * sqrt (1 - e)) /\ frob b' = c1.
Proof.
  intros terr Dmax psi l a b r p u s vt e m b' HF HD HR HN HP HV EM EB.
  destruct HV as [V1 V2 V3 V4 [V5 V5'] V6]. destruct V1 as [U0 [U1 [U2 [U3 U4]]]].
  unfold contract_svt in EM. rewrite map_length, U3, Nat.eqb_refl in EM. injection EM as <-.
  set (q := sqrt (1 - e)) in *. assert (QP : (0 < q)%R) by (apply sqrt_lt_R0; lra).
  assert (QQ : (q * q = 1 - e)%R) by (apply sqrt_sqrt; lra).
  assert (NT : forall k, k < length s -> nth k (map (fun x => (x / q)%R) s) 0%R = (nth k s 0 / q)%R).
  { intros k Hk. rewrite (nth_indep _ 0%R (0 / q)%R) by (rewrite map_length; auto). apply (map_nth (fun x => (x / q)%R)). }
  split.
  - intros k c' Hk HC. destruct (contract_mt_dims cx c0 cadd cmul _ _ _ EB) as [_ [E1 _]].
    assert (HC' : In c' (configs (dims (b :: r)))) by (cbn [map] in *; rewrite E1 in HC; exact HC).
    rewrite (snoc_sum psi l a (b :: r) p u k c' HF U0 U1 ltac:(lia) HP HC'), (front _ _ _ _ _ _ EB HC'). cbn [n1 me].
    rewrite cre_mul. replace (cmul (cmul (cre p) (cre q))) with (fun z => cmul (cmul (cre p) (cre q)) z) by reflexivity. cbv beta.
    transitivity (cmul (cre p) (cmul (cre q) (lsum (seq 0 (n1 vt)) (fun z => cmul (cmul (cre (nth k (map (fun x => (x / q)%R) s) 0%R)) (me vt k z)) (mm (b :: r) c' z 0))))); [|ring].
    f_equal. rewrite lsum_mul_l, U4. apply lsum_ext. intros z Hz. apply in_seq in Hz.
    assert (PJ : lsum (seq 0 (d0 a)) (fun x => lsum (seq 0 (d1 a)) (fun s0 => cmul (cconj (el u x s0 k)) (el a x s0 z))) = cmul (cre (nth k s 0%R)) (me vt k z)).
    { rewrite <- (V4 k z Hk ltac:(lia)), sumn_lsum. apply lsum_ext. intros. symmetry. apply sumn_lsum. }
    rewrite PJ, NT by auto. replace (cre (nth k s 0%R)) with (cmul (cre q) (cre (nth k s 0 / q)%R)); [ring|]. rewrite <- cre_mul. f_equal. field. lra.
  - destruct (contract_mt_dims cx c0 cadd cmul _ _ _ EB) as [E0 [E1 [E2 E3]]]. cbn [n0 n1 me] in E0, E3.
    rewrite frob_lsum, E0, E1, E2.
    transitivity (lsum (seq 0 (length s)) (fun k => cmul (cmul (cre (nth k s 0 / q)%R) (cre (nth k s 0 / q)%R)) c1)).
    + apply lsum_ext. intros k Hk. apply in_seq in Hk.
      rewrite <- (V3 k ltac:(lia)), sumn_lsum.
      transitivity (lsum (seq 0 (d1 b)) (fun t => lsum (seq 0 (d2 b)) (fun w => lsum (seq 0 (n1 vt)) (fun z => lsum (seq 0 (n1 vt)) (fun z' =>
        cmul (cmul (cmul (cre (nth k s 0 / q)%R) (cre (nth k s 0 / q)%R)) (cmul (cconj (me vt k z)) (me vt k z'))) (cmul (cconj (el b z t w)) (el b z' t w))))))).
      { apply lsum_ext. intros t Ht. apply lsum_ext. intros w Hw. rewrite !E3, !sumn_lsum, lsum_conj, lsum_mul_r. apply lsum_ext. intros z Hz. rewrite lsum_mul_l. apply lsum_ext. intros z' Hz'.
        rewrite !NT by lia. rewrite !cconj_mul, cconj_cre. ring. }
      etransitivity; [apply (EffHamFacts.pull2 cx c0 c1 cadd cmul csub copp cx_ring)|]. rewrite lsum_mul_l. apply lsum_ext. intros z Hz. apply in_seq in Hz.
      etransitivity; [apply (EffHamFacts.pull2 cx c0 c1 cadd cmul csub copp cx_ring)|].
      transitivity (lsum (seq 0 (n1 vt)) (fun z' => cmul (FmpsSpec.delta cx c0 c1 z z') (cmul (cmul (cre (nth k s 0 / q)%R) (cre (nth k s 0 / q)%R)) (cmul (cconj (me vt k z)) (me vt k z'))))).
      2:{ apply (EffHamFacts.delta_l cx c0 c1 cadd cmul csub copp cx_ring (n1 vt) z (fun z' => cmul (cmul (cre (nth k s 0 / q)%R) (cre (nth k s 0 / q)%R)) (cmul (cconj (me vt k z)) (me vt k z')))). lia. }
      apply lsum_ext. intros z' Hz'. apply in_seq in Hz'. rewrite <- (HR z z') by lia. rewrite sumn_lsum, lsum_mul_r.
      etransitivity; [apply lsum_swap|]. apply lsum_ext. intros w Hw. rewrite sumn_lsum, lsum_mul_r. apply lsum_ext. intros t Ht. ring.
    + transitivity (cmul (cre (/ q * / q)) (lsum (seq 0 (length s)) (fun k => cmul (cre (nth k s 0%R)) (cre (nth k s 0%R))))).
      * rewrite lsum_mul_l. apply lsum_ext. intros k Hk. unfold Rdiv. rewrite !cre_mul. ring.
      * rewrite <- sum_sq_nth. unfold sum_sq. rewrite V5'. fold (frob a). rewrite HN. change (fst c1) with 1%R. rewrite <- cre_mul, <- QQ. rewrite <- cre_1. f_equal. field. lra.
Qed.

(** the end: one tensor left *)
Lemma end_math : forall psi l a p, cfit 1 l (d0 a) -> d2 a = 1 -> frob a = c1 -> projects psi l [a] (d0 a) p ->
  lsum (configs (dims (l ++ [a]))) (fun c => cmul (cconj (mm (l ++ [a]) c 0 0)) (psi c)) = cre p.
Proof.
  intros psi l a p HF H2 HN HP. pose proof (snoc_sum psi l a [] p a 0 [] HF eq_refl eq_refl ltac:(lia) HP (or_introl eq_refl)) as E.
  etransitivity; [|etransitivity; [exact E|]].
  - apply lsum_ext. intros c Hc. rewrite app_nil_r. reflexivity.
  - rewrite H2.
    assert (F : frob a = lsum (seq 0 (d0 a)) (fun x => lsum (seq 0 (d1 a)) (fun s => cmul (cconj (el a x s 0)) (el a x s 0)))).
    { rewrite frob_lsum, H2. apply lsum_ext. intros x Hx. apply lsum_ext. intros s Hs. cbn [seq EffHamSpec.lsum fold_right]. ring. }
    change (cmul (cre p) (cadd (cmul (lsum (seq 0 (d0 a)) (fun x => lsum (seq 0 (d1 a)) (fun s => cmul (cconj (el a x s 0)) (el a x s 0)))) c1) c0) = cre p).
    rewrite <- F, HN. ring.
Qed.
