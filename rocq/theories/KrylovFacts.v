(** The Lanczos basis is orthonormal and the tridiagonal matrix is the operator in it. *)
From Coq Require Import List Arith Bool Lia Ring Ring_theory.
From Verif Require Import LanczosSpec Krylov KrylovSpec.
Import ListNotations.

(** *** sums *)
Section Sums.
Variable R : Type.
Variables (r0 r1 : R) (radd rmul rsub : R -> R -> R) (ropp : R -> R).
Hypothesis Rth : ring_theory r0 r1 radd rmul rsub ropp eq.
Add Ring RR : Rth.
Notation "x + y" := (radd x y). Notation "x * y" := (rmul x y).
Notation sm := (sumk R r0 radd).
Lemma sm_ext : forall n f g, (forall i, i < n -> f i = g i) -> sm n f = sm n g.
Proof. induction n as [|n IH]; intros f g H; [reflexivity|]. cbn [sumk]. rewrite (IH f g), (H n); auto. Qed.
Lemma sm_mul_l : forall n a f, a * sm n f = sm n (fun i => a * f i).
Proof. induction n as [|n IH]; intros; cbn [sumk]; [ring|]. rewrite <- IH. ring. Qed.
Lemma sm_mul_r : forall n a f, sm n f * a = sm n (fun i => f i * a).
Proof. induction n as [|n IH]; intros; cbn [sumk]; [ring|]. rewrite <- IH. ring. Qed.
Lemma sm_add : forall n f g, sm n (fun i => f i + g i) = sm n f + sm n g.
Proof. induction n as [|n IH]; intros; cbn [sumk]; [ring|]. rewrite IH. ring. Qed.
Lemma sm_0 : forall n, sm n (fun _ => r0) = r0.
Proof. induction n as [|n IH]; cbn [sumk]; [reflexivity|]. rewrite IH. ring. Qed.
Lemma sm_swap : forall n m f, sm n (fun i => sm m (fun j => f i j)) = sm m (fun j => sm n (fun i => f i j)).
Proof. induction n as [|n IH]; intros; cbn [sumk]; [symmetry; apply sm_0|]. rewrite IH, <- sm_add. reflexivity. Qed.
Lemma sm_delta : forall n k f, k < n -> sm n (fun i => (if i =? k then r1 else r0) * f i) = f k.
Proof.
  induction n as [|n IH]; intros k f H; [lia|]. cbn [sumk]. destruct (Nat.eqb_spec n k) as [->|].
  - rewrite (sm_ext k _ (fun _ => r0)); [rewrite sm_0; ring|]. intros i Hi. destruct (Nat.eqb_spec i k); [lia|ring].
  - rewrite IH by lia. ring.
Qed.
Lemma sm_delta' : forall n k f, k < n -> sm n (fun i => (if k =? i then r1 else r0) * f i) = f k.
Proof. intros n k f H. rewrite <- (sm_delta n k f H). apply sm_ext. intros i _. rewrite Nat.eqb_sym. reflexivity. Qed.
Lemma sm_suml : forall n A (f : A -> R) (g : nat -> A) s, suml R r0 radd f (map g (seq s n)) = sm n (fun i => f (g (Nat.add s i))).
Proof.
  assert (S : forall n f, sm (S n) f = f O + sm n (fun i => f (S i))).
  { induction n as [|n IH]; intros f; [cbn [sumk]; ring|]. change (sm (S (S n)) f) with (sm (S n) f + f (S n)). rewrite IH. change (sm (S n) (fun i => f (S i))) with (sm n (fun i => f (S i)) + f (S n)). ring. }
  induction n as [|n IH]; intros A f g s; [reflexivity|]. rewrite S. cbn [seq map suml fold_right]. fold (suml R r0 radd f (map g (seq (Datatypes.S s) n))). rewrite IH. f_equal; [f_equal; f_equal; lia|]. apply sm_ext. intros i _. do 2 f_equal. lia.
Qed.
Lemma sm_fold : forall n f, fold_left (fun s j => s + f j) (seq 0 n) r0 = sm n f.
Proof. induction n as [|n IH]; intros f; [reflexivity|]. rewrite seq_S, fold_left_app, IH. reflexivity. Qed.
End Sums.
Lemma sm_hom : forall A B (a0 : A) aadd (b0 : B) badd (h : A -> B), h a0 = b0 -> (forall x y, h (aadd x y) = badd (h x) (h y)) ->
  forall n f, h (sumk A a0 aadd n f) = sumk B b0 badd n (fun i => h (f i)).
Proof. intros A B a0 aadd b0 badd h H0 H1. induction n as [|n IH]; intros f; cbn [sumk]; [exact H0|]. rewrite H1, IH. reflexivity. Qed.

Section Krylov.
Variables F K V : Type.
Variables (f0 f1 : F) (fadd fmul fsub : F -> F -> F) (fopp : F -> F) (k0 k1 : K) (kadd kmul ksub : K -> K -> K) (kopp : K -> K).
Variables (r : F -> K) (conj : K -> K) (le : F -> F -> Prop).
Variable ip : V -> V -> K.
Variables (isz : F -> bool) (mul : V -> V) (dot : V -> V -> F) (lc1 : F -> V -> V -> V) (lc2 : F -> V -> F -> V -> V -> V).
Variables (normalize : V -> V * F) (off rt : F -> F).
Hypothesis SC : scalars f0 f1 fadd fmul fsub fopp k0 k1 kadd kmul ksub kopp r conj le.
Hypothesis HE : hermitian f0 k0 k1 kadd kmul ksub r conj ip isz mul dot lc1 lc2 normalize off rt.
Variable v0 : V.
Let Kth := sc_k _ _ _ _ _ _ _ _ _ _ _ _ _ _ _ SC.
Let Fth := sc_f _ _ _ _ _ _ _ _ _ _ _ _ _ _ _ SC.
Add Ring KK : Kth.
Notation "x + y" := (kadd x y). Notation "x * y" := (kmul x y). Notation "x - y" := (ksub x y).
Notation "a =? b" := (Nat.eqb a b) (at level 70).
Notation kr := (kr F V f0 mul dot lc1 lc2 normalize off v0).
Notation qv := (qv F V f0 mul dot lc1 lc2 normalize off v0).
Notation al := (al F V f0 mul dot lc1 lc2 normalize off v0).
Notation be := (be F V f0 mul dot lc1 lc2 normalize off v0).
Notation als := (als F V f0 mul dot lc1 lc2 normalize off v0).
Notation bes := (bes F V f0 mul dot lc1 lc2 normalize off v0).
Notation qvs := (qvs F V f0 mul dot lc1 lc2 normalize off v0).
Notation sm := (sumk K k0 kadd).
Hypothesis v0_nz : isz (snd (normalize v0)) = false.
Notation d_ i j := (if i =? j then k1 else k0).

Lemma conj_0 : conj k0 = k0.
Proof. rewrite <- (sc_0 _ _ _ _ _ _ _ _ _ _ _ _ _ _ _ SC). apply (sc_cr _ _ _ _ _ _ _ _ _ _ _ _ _ _ _ SC). Qed.
Lemma conj_1 : conj k1 = k1.
Proof. rewrite <- (sc_1 _ _ _ _ _ _ _ _ _ _ _ _ _ _ _ SC). apply (sc_cr _ _ _ _ _ _ _ _ _ _ _ _ _ _ _ SC). Qed.
Lemma conj_d : forall i j, conj (d_ i j) = d_ i j.
Proof. intros. destruct (i =? j); [apply conj_1|apply conj_0]. Qed.
Lemma conj_sm : forall n f, conj (sm n f) = sm n (fun i => conj (f i)).
Proof. apply sm_hom; [apply conj_0|apply (sc_cadd _ _ _ _ _ _ _ _ _ _ _ _ _ _ _ SC)]. Qed.
Lemma r_sm : forall n f, r (sumk F f0 fadd n f) = sm n (fun i => r (f i)).
Proof. apply sm_hom; [apply (sc_0 _ _ _ _ _ _ _ _ _ _ _ _ _ _ _ SC)|apply (sc_add _ _ _ _ _ _ _ _ _ _ _ _ _ _ _ SC)]. Qed.
Lemma r_mul : forall x y, r (fmul x y) = r x * r y. Proof. apply (sc_mul _ _ _ _ _ _ _ _ _ _ _ _ _ _ _ SC). Qed.
Lemma r_0 : r f0 = k0. Proof. apply (sc_0 _ _ _ _ _ _ _ _ _ _ _ _ _ _ _ SC). Qed.
Lemma r_d : forall i j, r (if i =? j then f1 else f0) = d_ i j.
Proof. intros. destruct (i =? j); [apply (sc_1 _ _ _ _ _ _ _ _ _ _ _ _ _ _ _ SC)|apply r_0]. Qed.
Lemma conj_mul : forall x y, conj (x * y) = conj x * conj y. Proof. apply (sc_cmul _ _ _ _ _ _ _ _ _ _ _ _ _ _ _ SC). Qed.
Lemma conj_r : forall x, conj (r x) = r x. Proof. apply (sc_cr _ _ _ _ _ _ _ _ _ _ _ _ _ _ _ SC). Qed.
Lemma ip_sym : forall x y, conj (ip x y) = ip y x. Proof. apply (he_conj _ _ _ _ _ _ _ _ _ _ _ _ _ _ _ _ _ HE). Qed.
Lemma mul_sym : forall x y, ip (mul x) y = ip x (mul y). Proof. apply (he_mul _ _ _ _ _ _ _ _ _ _ _ _ _ _ _ _ _ HE). Qed.

(** the three-term recurrence *)
Lemma kr_prev : forall k, snd (fst (kr (S k))) = qv k.
Proof. intros k. unfold LanczosSpec.qv. cbn [LanczosSpec.kr]. destruct (kr k) as [[q q'] n]. reflexivity. Qed.
Lemma recur : forall m x, ip (mul (qv m)) x = r (al m) * ip (qv m) x + (if m =? 0 then k0 else r (be (m - 1)) * ip (qv (m - 1)) x) + r (be m) * ip (qv (S m)) x.
Proof.
  intros m x.
  assert (E : r (be m) * ip (qv (S m)) x = ip (if m =? 0 then lc1 (al m) (qv m) (mul (qv m)) else lc2 (al m) (qv m) (off (be (m - 1))) (qv (m - 1)) (mul (qv m))) x).
  { unfold be at 1. unfold qv at 1. destruct m as [|m]; [cbn [Nat.eqb]|].
    - cbn [LanczosSpec.kr Nat.eqb fst snd]. rewrite <- (he_norm _ _ _ _ _ _ _ _ _ _ _ _ _ _ _ _ _ HE). reflexivity.
    - replace (Nat.sub (S m) 1) with m by lia. cbn [Nat.eqb]. change (kr (S (S m))) with (let '(q, q', n) := kr (S m) in
        let g := mul q in let w := if Nat.eqb (S m) 0 then lc1 (dot g q) q g else lc2 (dot g q) q (off n) q' g in (fst (normalize w), q, snd (normalize w))).
      pose proof (kr_prev m) as P. unfold LanczosSpec.al, LanczosSpec.be, LanczosSpec.qv in *. destruct (kr (S m)) as [[q q'] n]. cbn [fst snd Nat.eqb] in *. rewrite <- (he_norm _ _ _ _ _ _ _ _ _ _ _ _ _ _ _ _ _ HE). rewrite P. reflexivity. }
  rewrite E. clear E. destruct (Nat.eqb_spec m 0) as [->|].
  - rewrite (he_lc1 _ _ _ _ _ _ _ _ _ _ _ _ _ _ _ _ _ HE). ring.
  - rewrite (he_lc2 _ _ _ _ _ _ _ _ _ _ _ _ _ _ _ _ _ HE). replace (rt (off (be (Nat.sub m 1)))) with (be (Nat.sub m 1)); [ring|].
    unfold LanczosSpec.be. cbn [LanczosSpec.kr]. destruct (kr (Nat.sub m 1)) as [[q q'] n']. cbn [snd]. symmetry. apply (he_rt _ _ _ _ _ _ _ _ _ _ _ _ _ _ _ _ _ HE).
Qed.
Lemma qv_unit : forall m, (m = 0 \/ isz (be (Nat.sub m 1)) = false) -> ip (qv m) (qv m) = k1.
Proof.
  intros m H. destruct m as [|m]; [apply (he_unit _ _ _ _ _ _ _ _ _ _ _ _ _ _ _ _ _ HE); exact v0_nz|].
  destruct H as [H|H]; [discriminate|]. replace (Nat.sub (S m) 1) with m in H by lia. revert H. unfold LanczosSpec.be, LanczosSpec.qv. cbn [LanczosSpec.kr].
  destruct (kr m) as [[q q'] n]. cbn [fst snd]. apply (he_unit _ _ _ _ _ _ _ _ _ _ _ _ _ _ _ _ _ HE).
Qed.
Lemma al_ok : forall m, r (al m) = ip (mul (qv m)) (qv m).
Proof. intros m. unfold LanczosSpec.al. apply (he_dot _ _ _ _ _ _ _ _ _ _ _ _ _ _ _ _ _ HE). rewrite ip_sym. symmetry. apply mul_sym. Qed.
Lemma ortho : forall n, (forall j, j < n -> isz (be j) = false) -> forall i j, i <= n -> j <= n -> ip (qv i) (qv j) = d_ i j.
Proof.
  induction n as [|n IH]; intros NV.
  - intros i j Hi Hj. replace i with 0 by lia. replace j with 0 by lia. apply qv_unit. auto.
  - specialize (IH (fun j Hj => NV j (Nat.lt_trans _ _ _ Hj (Nat.lt_succ_diag_r n)))).
    assert (Z : forall j, j <= n -> ip (qv (S n)) (qv j) = k0).
    { intros j Hj. apply (he_nz _ _ _ _ _ _ _ _ _ _ _ _ _ _ _ _ _ HE (be n)); [apply NV; lia|].
      pose proof (recur n (qv j)) as E. assert (E' : r (be n) * ip (qv (S n)) (qv j) = ip (mul (qv n)) (qv j) - (r (al n) * ip (qv n) (qv j) + (if n =? 0 then k0 else r (be (Nat.sub n 1)) * ip (qv (Nat.sub n 1)) (qv j)))) by (rewrite E; ring).
      rewrite E'. clear E E'. rewrite (IH n j) by lia. destruct (Nat.eqb_spec n j) as [<-|NE].
      - rewrite <- al_ok. destruct (Nat.eqb_spec n 0) as [|N0]; [ring|]. rewrite IH by lia. destruct (Nat.eqb_spec (Nat.sub n 1) n); [lia|ring].
      - rewrite mul_sym, <- ip_sym, recur. rewrite (IH j n), (IH (S j) n) by lia. destruct (Nat.eqb_spec j n); [lia|].
        destruct (Nat.eqb_spec n 0); [lia|]. rewrite (IH (Nat.sub n 1) j) by lia.
        assert (E : (if j =? 0 then k0 else r (be (Nat.sub j 1)) * ip (qv (Nat.sub j 1)) (qv n)) = k0).
        { destruct (Nat.eqb_spec j 0); [reflexivity|]. rewrite IH by lia. destruct (Nat.eqb_spec (Nat.sub j 1) n); [lia|ring]. }
        rewrite E. clear E. destruct (Nat.eqb_spec (S j) n) as [<-|].
        + replace (Nat.sub (S j) 1) with j by lia. rewrite Nat.eqb_refl. replace (r (al j) * k0 + k0 + r (be j) * k1) with (r (be j)) by ring. rewrite conj_r. ring.
        + destruct (Nat.eqb_spec (Nat.sub n 1) j); [lia|]. replace (r (al j) * k0 + k0 + r (be j) * k0) with k0 by ring. rewrite conj_0. ring. }
    intros i j Hi Hj. destruct (Nat.eq_dec i (S n)) as [->|]; destruct (Nat.eq_dec j (S n)) as [->|].
    + rewrite Nat.eqb_refl. apply qv_unit. right. replace (Nat.sub (S n) 1) with n by lia. apply NV. lia.
    + rewrite Z by lia. destruct (Nat.eqb_spec (S n) j); [lia|reflexivity].
    + rewrite <- ip_sym, Z by lia. rewrite conj_0. destruct (Nat.eqb_spec i (S n)); [lia|reflexivity].
    + apply IH; lia.
Qed.
Notation T n := (trid f0 (als n) (bes n)).
Lemma nth_al : forall n i, i < n -> nth i (als n) f0 = al i.
Proof. intros n i H. unfold LanczosSpec.als. rewrite (nth_indep _ f0 (al 0)) by (rewrite map_length, seq_length; exact H). rewrite map_nth, seq_nth by exact H. reflexivity. Qed.
Lemma nth_be : forall n i, Nat.add i 1 < n -> nth i (bes n) f0 = be i.
Proof. intros n i H. unfold LanczosSpec.bes. rewrite (nth_indep _ f0 (be 0)) by (rewrite map_length, seq_length; lia). rewrite map_nth, seq_nth by lia. reflexivity. Qed.
(** row i of the operator, for all but the last vector *)
Lemma row_in : forall n i x, (Nat.add i 1 < n \/ i < n /\ isz (be i) = true) -> ip (mul (qv i)) x = sm n (fun k => r (T n i k) * ip (qv k) x).
Proof.
  intros n i x H. rewrite recur.
  assert (HB : i < n) by lia.
  transitivity (sm n (fun k => d_ k i * (r (al i) * ip (qv k) x)) + (if i =? 0 then k0 else sm n (fun k => d_ k (Nat.sub i 1) * (r (be (Nat.sub i 1)) * ip (qv k) x)))
    + (if Nat.add i 1 <? n then sm n (fun k => d_ k (Nat.add i 1) * (r (be i) * ip (qv k) x)) else k0)).
  - f_equal; [f_equal|].
    + rewrite (sm_delta K k0 k1 kadd kmul ksub kopp Kth n i (fun k => r (al i) * ip (qv k) x)) by exact HB. reflexivity.
    + destruct (Nat.eqb_spec i 0); [reflexivity|]. rewrite (sm_delta K k0 k1 kadd kmul ksub kopp Kth n (Nat.sub i 1) (fun k => r (be (Nat.sub i 1)) * ip (qv k) x)) by lia. reflexivity.
    + destruct (Nat.ltb_spec (Nat.add i 1) n).
      * rewrite (sm_delta K k0 k1 kadd kmul ksub kopp Kth n (Nat.add i 1) (fun k => r (be i) * ip (qv k) x)) by lia. rewrite Nat.add_1_r. reflexivity.
      * destruct H as [H|[_ H]]; [lia|]. apply (he_isz _ _ _ _ _ _ _ _ _ _ _ _ _ _ _ _ _ HE) in H. rewrite H, r_0. ring.
  - replace (if i =? 0 then k0 else sm n (fun k => d_ k (Nat.sub i 1) * (r (be (Nat.sub i 1)) * ip (qv k) x)))
      with (sm n (fun k => if i =? 0 then k0 else d_ k (Nat.sub i 1) * (r (be (Nat.sub i 1)) * ip (qv k) x)))
      by (destruct (i =? 0); [apply (sm_0 K k0 k1 kadd kmul ksub kopp Kth)|reflexivity]).
    replace (if Nat.add i 1 <? n then sm n (fun k => d_ k (Nat.add i 1) * (r (be i) * ip (qv k) x)) else k0)
      with (sm n (fun k => if Nat.add i 1 <? n then d_ k (Nat.add i 1) * (r (be i) * ip (qv k) x) else k0))
      by (destruct (Nat.add i 1 <? n); [reflexivity|apply (sm_0 K k0 k1 kadd kmul ksub kopp Kth)]).
    rewrite <- !(sm_add K k0 k1 kadd kmul ksub kopp Kth). apply sm_ext. intros k Hk. unfold trid.
    destruct (Nat.eqb_spec i 0); destruct (Nat.ltb_spec (Nat.add i 1) n); destruct (Nat.eqb_spec i k); destruct (Nat.eqb_spec k (Nat.add i 1)); destruct (Nat.eqb_spec i (Nat.add k 1));
      destruct (Nat.eqb_spec k i); destruct (Nat.eqb_spec k (Nat.sub i 1)); try lia; try (rewrite nth_al by lia); try (rewrite nth_be by lia); rewrite ?r_0; try ring; subst; try ring.
    all: replace (Nat.sub (Nat.add k 1) 1) with k by lia; ring.
Qed.
Lemma proj : forall n, (forall j, Nat.add j 1 < n -> isz (be j) = false) -> forall i j, i < n -> j < n -> ip (mul (qv i)) (qv j) = r (T n i j).
Proof.
  intros n NV i j Hi Hj.
  assert (O : forall a b, a < n -> b < n -> ip (qv a) (qv b) = d_ a b) by (intros a b Ha Hb; apply (ortho (Nat.sub n 1)); [intros c Hc; apply NV; lia|lia|lia]).
  assert (R1 : forall i j, Nat.add i 1 < n -> j < n -> ip (mul (qv i)) (qv j) = r (T n i j)).
  { clear i j Hi Hj. intros i j Hi Hj. rewrite (row_in n i) by (left; exact Hi).
    rewrite (sm_ext K k0 kadd n _ (fun k => d_ k j * r (T n i k))) by (intros k Hk; rewrite O by auto; ring).
    apply (sm_delta K k0 k1 kadd kmul ksub kopp Kth n j (fun k => r (T n i k))). exact Hj. }
  destruct (Nat.lt_ge_cases (Nat.add i 1) n) as [|G]; [auto|]. replace i with (Nat.sub n 1) in * by lia. clear i.
  destruct (Nat.lt_ge_cases (Nat.add j 1) n) as [|G2].
  - rewrite mul_sym, <- ip_sym, R1 by lia. rewrite conj_r. f_equal. unfold trid. rewrite (Nat.eqb_sym j).
    destruct (Nat.eqb_spec (Nat.sub n 1) j); [lia|]. destruct (Nat.eqb_spec (Nat.sub n 1) (Nat.add j 1)); destruct (Nat.eqb_spec j (Nat.add (Nat.sub n 1) 1)); try lia; reflexivity.
  - replace j with (Nat.sub n 1) by lia. rewrite <- al_ok. unfold trid. rewrite Nat.eqb_refl, nth_al by lia. reflexivity.
Qed.

(** *** combinations of the basis *)
Section Comb.
Variable n : nat.
Hypothesis NV : forall j, Nat.add j 1 < n -> isz (be j) = false.
Variables (w : V) (c : nat -> K).
Hypothesis W : forall x, ip w x = sm n (fun i => c i * ip (qv i) x).
Lemma ip_q : forall i, i < n -> ip w (qv i) = c i.
Proof.
  intros i Hi. rewrite W. rewrite (sm_ext K k0 kadd n _ (fun k => d_ k i * c k)); [apply (sm_delta K k0 k1 kadd kmul ksub kopp Kth); exact Hi|].
  intros k Hk. rewrite (ortho (Nat.sub n 1)) by (try lia; intros; apply NV; lia). ring.
Qed.
Lemma comb_norm : ip w w = sm n (fun i => c i * conj (c i)).
Proof. rewrite W. apply sm_ext. intros i Hi. rewrite <- (ip_sym w), ip_q by exact Hi. reflexivity. Qed.
Lemma comb_mul : forall x, ip (mul w) x = sm n (fun i => c i * ip (mul (qv i)) x).
Proof. intros x. rewrite mul_sym, W. apply sm_ext. intros i Hi. rewrite <- mul_sym. reflexivity. Qed.
Lemma mul_q : forall i, i < n -> ip (mul w) (qv i) = sm n (fun k => r (T n i k) * c k).
Proof.
  intros i Hi. rewrite mul_sym, W. apply sm_ext. intros k Hk. rewrite <- (ip_sym (mul (qv i)) (qv k)).
  rewrite (proj n NV) by auto. rewrite conj_r. ring.
Qed.
Lemma comb_energy : ip (mul w) w = sm n (fun i => sm n (fun k => r (T n i k) * c k) * conj (c i)).
Proof.
  rewrite <- ip_sym. rewrite W, conj_sm. apply sm_ext. intros i Hi. rewrite conj_mul, ip_sym, mul_q by exact Hi. ring.
Qed.
End Comb.
End Krylov.
