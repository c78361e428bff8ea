(** The norm of a centralised MPS is the norm of its center tensor; a concrete exact QR. *)
From Coq Require Import List Arith Lia Bool ZArith Ring.
From Verif Require Import Base CoefOpAlg Numeric FiniteMps FmpsSpec FmpsFacts.
Import ListNotations.

Section Norm.
Variables (R : Type) (r0 r1 : R) (radd rmul rsub : R -> R -> R) (ropp : R -> R).
Variable Rth : ring_theory r0 r1 radd rmul rsub ropp (@eq R).
Add Ring Rfn : Rth.
Variable conj : R -> R.
Hypothesis conj_0 : conj r0 = r0.
Hypothesis conj_1 : conj r1 = r1.
Hypothesis conj_add : forall a b, conj (radd a b) = radd (conj a) (conj b).
Hypothesis conj_mul : forall a b, conj (rmul a b) = rmul (conj a) (conj b).
Infix "*r" := rmul (at level 40).
Infix "+r" := radd (at level 50).
Notation ten := (ten R).
Notation sumn := (sumn R r0 radd).
Notation mps_from := (mps_from R r0 r1 radd rmul).
Notation linked := (linked R).
Notation left_canonical := (left_canonical R r0 r1 radd rmul conj).
Notation right_canonical := (right_canonical R r0 r1 radd rmul conj).
Notation delta := (delta R r0 r1).
Notation sumn_ext := (sumn_ext R r0 radd).
Notation sumn_swap := (sumn_swap R r0 r1 radd rmul rsub ropp Rth).
Notation sumn_mul_l := (sumn_mul_l R r0 r1 radd rmul rsub ropp Rth).
Notation sumn_mul_r := (sumn_mul_r R r0 r1 radd rmul rsub ropp Rth).
Notation sumn_one := (sumn_one R r0 r1 radd rmul rsub ropp Rth).
Notation sumn_0 := (sumn_0 R r0 r1 radd rmul rsub ropp Rth).

(** sum of F over all configurations of sites k, k+1, ... of dimensions ds *)
Definition set_at (s : nat -> nat) (k v : nat) : nat -> nat := fun i => if i =? k then v else s i.
Fixpoint conf_sum (ds : list nat) (k : nat) (F : (nat -> nat) -> R) (s : nat -> nat) : R :=
  match ds with [] => F s | d :: ds' => sumn d (fun v => conf_sum ds' (S k) F (set_at s k v)) end.

Lemma conf_ext : forall ds k F G s, (forall s', (forall i, i < k -> s' i = s i) -> F s' = G s') -> conf_sum ds k F s = conf_sum ds k G s.
Proof.
  induction ds as [|d ds IH]; intros k F G s H; simpl; [apply H; auto|]. apply sumn_ext. intros v Hv. apply IH.
  intros s' Hs. apply H. intros i Hi. rewrite Hs by lia. unfold set_at. destruct (Nat.eqb_spec i k); [lia|auto].
Qed.
(** the configurations summed over are those within the dimensions *)
Lemma conf_ext_in : forall ds k F G s, (forall s', (forall i d, nth_error ds i = Some d -> s' (k + i) < d) -> F s' = G s') -> conf_sum ds k F s = conf_sum ds k G s.
Proof.
  intros ds k F G s H. cut (forall ds0 j s0, j + length ds0 = k + length ds -> k <= j -> (forall i, skipn (j - k) ds = ds0 -> i < j - k -> forall d, nth_error ds i = Some d -> s0 (k + i) < d) -> skipn (j - k) ds = ds0 ->
    conf_sum ds0 j F s0 = conf_sum ds0 j G s0).
  { intros C. apply C; auto; [|replace (k - k) with 0 by lia; reflexivity]. intros. lia. }
  induction ds0 as [|d ds0 IH]; intros j s0 HL HK HI HE; simpl.
  - apply H. intros i d Hd. assert (i < length ds) by (apply nth_error_Some; congruence). apply (HI i HE); auto. simpl in HL. lia.
  - apply sumn_ext. intros v Hv.
    assert (NJ : nth_error ds (j - k) = Some d /\ skipn (S j - k) ds = ds0).
    { replace (S j - k) with (S (j - k)) by lia. clear - HE. revert ds HE. induction (j - k) as [|n IHn]; intros ds HE.
      - destruct ds; [discriminate|]. simpl in *. injection HE as -> ->. auto.
      - destruct ds; [discriminate|]. simpl in HE. apply IHn in HE. simpl. exact HE. }
    destruct NJ as [NJ1 NJ2]. apply IH; auto; try (simpl in HL; lia).
    intros i _ Hi d' Hd'. unfold set_at. destruct (Nat.eqb_spec (k + i) j).
    + replace i with (j - k) in Hd' by lia. rewrite NJ1 in Hd'. injection Hd' as <-. exact Hv.
    + apply (HI i HE); auto. lia.
Qed.
Lemma conf_sumn : forall ds k n F s, conf_sum ds k (fun s => sumn n (fun z => F z s)) s = sumn n (fun z => conf_sum ds k (F z) s).
Proof.
  induction ds as [|d ds IH]; intros k n F s; simpl; auto. rewrite <- sumn_swap. apply sumn_ext. intros. apply IH.
Qed.
Lemma conf_mul : forall ds k c F s, conf_sum ds k (fun s => c *r F s) s = c *r conf_sum ds k F s.
Proof. induction ds as [|d ds IH]; intros k c F s; simpl; auto. rewrite sumn_mul_l. apply sumn_ext. intros. apply IH. Qed.
Lemma conj_sumn : forall n f, conj (sumn n f) = sumn n (fun i => conj (f i)).
Proof. induction n; intros f; simpl; auto. rewrite conj_add, IHn. reflexivity. Qed.

(** overlap of row x, column y with row x', column y' summed over configurations *)
Definition ov (k : nat) (l : list ten) (s0 : nat -> nat) (x y x' y' : nat) : R :=
  conf_sum (map d1 l) k (fun s => conj (mps_from k l s x y) *r mps_from k l s x' y') s0.
Lemma ov_cons : forall t l k s0 x y x' y', ov k (t :: l) s0 x y x' y' =
  sumn (d1 t) (fun v => sumn (d2 t) (fun z => sumn (d2 t) (fun z' =>
    (conj (el t x v z) *r el t x' v z') *r ov (S k) l (set_at s0 k v) z y z' y'))).
Proof.
  intros. unfold ov. cbn [map conf_sum]. apply sumn_ext. intros v Hv.
  rewrite (conf_ext _ _ _ (fun s => sumn (d2 t) (fun z => sumn (d2 t) (fun z' => (conj (el t x v z) *r el t x' v z') *r
    (conj (mps_from (S k) l s z y) *r mps_from (S k) l s z' y'))))).
  - rewrite conf_sumn. apply sumn_ext. intros z Hz. rewrite conf_sumn. apply sumn_ext. intros z' Hz'. apply conf_mul.
  - intros s Hs. cbn [FmpsSpec.mps_from]. rewrite (Hs k) by lia. unfold set_at at 1 2. rewrite Nat.eqb_refl. rewrite conj_sumn, sumn_mul_r.
    apply sumn_ext. intros z Hz. rewrite sumn_mul_l. apply sumn_ext. intros z' Hz'. rewrite conj_mul. ring.
Qed.
(** a left canonical first tensor disappears when its left leg is summed over *)
Lemma ov_left : forall t l k s0 y y', left_canonical t -> (forall s z z', ov (S k) l s z y z' y' = ov (S k) l s0 z y z' y') ->
  sumn (d0 t) (fun x => ov k (t :: l) s0 x y x y') = sumn (d2 t) (fun z => ov (S k) l s0 z y z y').
Proof.
  intros t l k s0 y y' HC HI.
  transitivity (sumn (d2 t) (fun z => sumn (d2 t) (fun z' => delta z z' *r ov (S k) l s0 z y z' y'))).
  - transitivity (sumn (d0 t) (fun x => sumn (d2 t) (fun z => sumn (d1 t) (fun v => sumn (d2 t) (fun z' =>
      (conj (el t x v z) *r el t x v z') *r ov (S k) l s0 z y z' y'))))).
    + apply sumn_ext. intros x Hx. rewrite ov_cons, sumn_swap. apply sumn_ext. intros z Hz. apply sumn_ext. intros v Hv.
      apply sumn_ext. intros z' Hz'. rewrite HI. reflexivity.
    + rewrite sumn_swap. apply sumn_ext. intros z Hz.
      transitivity (sumn (d0 t) (fun x => sumn (d2 t) (fun z' => sumn (d1 t) (fun v =>
        (conj (el t x v z) *r el t x v z') *r ov (S k) l s0 z y z' y')))); [apply sumn_ext; intros; apply sumn_swap|].
      rewrite sumn_swap. apply sumn_ext. intros z' Hz'. rewrite <- (HC z z') by auto. rewrite sumn_mul_r.
      apply sumn_ext. intros x Hx. rewrite sumn_mul_r. reflexivity.
  - apply sumn_ext. intros z Hz. rewrite (sumn_one _ z); auto.
    + unfold FmpsSpec.delta. rewrite Nat.eqb_refl. ring.
    + intros i Hi Hn. unfold FmpsSpec.delta. destruct (Nat.eqb_spec z i); [congruence|ring].
Qed.
Lemma mps_cfg : forall l k s s' x y, (forall i, k <= i -> s i = s' i) -> mps_from k l s x y = mps_from k l s' x y.
Proof.
  induction l as [|t l IH]; intros k s s' x y H; simpl; auto. rewrite (H k) by lia. apply sumn_ext. intros. f_equal. apply IH. intros. apply H. lia.
Qed.
Lemma conf_start : forall ds k F j s s', (forall u v, (forall i, j <= i < k + length ds -> u i = v i) -> F u = F v) ->
  (forall i, j <= i < k -> s i = s' i) -> conf_sum ds k F s = conf_sum ds k F s'.
Proof.
  induction ds as [|d ds IH]; intros k F j s s' H HE; simpl.
  - apply H. intros i Hi. apply HE. simpl in Hi. lia.
  - apply sumn_ext. intros v Hv. apply (IH (S k) F j).
    + intros u w Hu. apply H. intros i Hi. apply Hu. simpl in Hi. lia.
    + intros i Hi. unfold set_at. destruct (Nat.eqb_spec i k); auto. apply HE. lia.
Qed.
Lemma mps_cfg2 : forall l k s s' x y, (forall i, k <= i < k + length l -> s i = s' i) -> mps_from k l s x y = mps_from k l s' x y.
Proof.
  induction l as [|t l IH]; intros k s s' x y H; simpl; auto. rewrite (H k) by (simpl; lia). apply sumn_ext. intros. f_equal. apply IH. intros.
  apply H. simpl. lia.
Qed.
Lemma ov_start : forall l k s s' x y x' y', ov k l s x y x' y' = ov k l s' x y x' y'.
Proof.
  intros l k s s' x y x' y'. unfold ov. apply (conf_start _ _ _ k).
  - intros u v H. rewrite map_length in H. rewrite (mps_cfg2 l k u v x y), (mps_cfg2 l k u v x' y'); auto.
  - intros. lia.
Qed.
(** all right canonical: summed over the right leg the chain is the identity *)
Lemma ov_right : forall l k s0 c b x x', linked c l b -> Forall right_canonical l -> x < c -> x' < c ->
  sumn b (fun y => ov k l s0 x y x' y) = delta x x'.
Proof.
  induction l as [|t l IH]; intros k s0 c b x x' HL HF Hx Hx'.
  - simpl in HL. subst b. unfold ov. simpl. rewrite (sumn_one c x); auto.
    + rewrite Nat.eqb_refl. unfold FmpsSpec.delta. rewrite (Nat.eqb_sym x' x). destruct (x =? x'); rewrite conj_1; ring.
    + intros i Hi Hn. destruct (Nat.eqb_spec x i); [congruence|]. rewrite conj_0. ring.
  - simpl in HL. destruct HL as [H1 H2]. inversion HF as [|? ? C1 C2]. clear HF.
    transitivity (sumn (d1 t) (fun v => sumn (d2 t) (fun z => conj (el t x v z) *r el t x' v z))).
    + transitivity (sumn (d1 t) (fun v => sumn (d2 t) (fun z => sumn (d2 t) (fun z' =>
        (conj (el t x v z) *r el t x' v z') *r sumn b (fun y => ov (S k) l s0 z y z' y))))).
      * rewrite (sumn_ext _ _ _ (fun y _ => ov_cons t l k s0 x y x' y)). rewrite sumn_swap. apply sumn_ext. intros v Hv.
        rewrite sumn_swap. apply sumn_ext. intros z Hz. rewrite sumn_swap. apply sumn_ext. intros z' Hz'. rewrite sumn_mul_l.
        apply sumn_ext. intros y Hy. f_equal. apply ov_start.
      * apply sumn_ext. intros v Hv. apply sumn_ext. intros z Hz. rewrite (sumn_one _ z); auto.
        -- rewrite (IH (S k) s0 (d2 t)) by auto. unfold FmpsSpec.delta. rewrite Nat.eqb_refl. ring.
        -- intros i Hi Hn. rewrite (IH (S k) s0 (d2 t)) by auto. unfold FmpsSpec.delta. destruct (Nat.eqb_spec z i); [congruence|ring].
    + rewrite sumn_swap. apply C1; lia.
Qed.

(** sum over all configurations of conj(amplitude) * amplitude *)
Definition norm2 (ts : list ten) : R :=
  conf_sum (map d1 ts) 0 (fun s => conj (mps_amp R r0 r1 radd rmul ts s) *r mps_amp R r0 r1 radd rmul ts s) (fun _ => 0).
Definition frob2 (t : ten) : R :=
  sumn (d0 t) (fun x => sumn (d1 t) (fun v => sumn (d2 t) (fun z => conj (el t x v z) *r el t x v z))).

Lemma ov_center : forall l k s0 a b c r, linked a (l ++ c :: r) b -> Forall left_canonical l -> Forall right_canonical r ->
  sumn a (fun x => sumn b (fun y => ov k (l ++ c :: r) s0 x y x y)) = frob2 c.
Proof.
  induction l as [|t l IH]; intros k s0 a b c r HL HF HG.
  - simpl in HL. destruct HL as [<- H2]. simpl app. unfold frob2. apply sumn_ext. intros x Hx.
    transitivity (sumn (d1 c) (fun v => sumn (d2 c) (fun z => sumn (d2 c) (fun z' =>
      (conj (el c x v z) *r el c x v z') *r sumn b (fun y => ov (S k) r s0 z y z' y))))).
    + rewrite (sumn_ext _ _ _ (fun y _ => ov_cons c r k s0 x y x y)). rewrite sumn_swap. apply sumn_ext. intros v Hv.
      rewrite sumn_swap. apply sumn_ext. intros z Hz. rewrite sumn_swap. apply sumn_ext. intros z' Hz'. rewrite sumn_mul_l.
      apply sumn_ext. intros y Hy. f_equal. apply ov_start.
    + apply sumn_ext. intros v Hv. apply sumn_ext. intros z Hz. rewrite (sumn_one _ z); auto.
      * rewrite (ov_right _ _ _ (d2 c)) by auto. unfold FmpsSpec.delta. rewrite Nat.eqb_refl. ring.
      * intros i Hi Hn. rewrite (ov_right _ _ _ (d2 c)) by auto. unfold FmpsSpec.delta. destruct (Nat.eqb_spec z i); [congruence|ring].
  - simpl in HL. destruct HL as [<- H2]. inversion HF as [|? ? C1 C2]. simpl app.
    rewrite <- (IH (S k) s0 (d2 t) b c r) by auto. rewrite sumn_swap. rewrite (sumn_swap (d2 t)). apply sumn_ext. intros y Hy.
    apply ov_left; auto. intros. apply ov_start.
Qed.
Theorem center_norm : forall ts k t, linked 1 ts 1 -> nth_error ts k = Some t ->
  (forall i u, nth_error ts i = Some u -> i < k -> left_canonical u) ->
  (forall i u, nth_error ts i = Some u -> k < i -> right_canonical u) -> norm2 ts = frob2 t.
Proof.
  intros ts k t HL HT H1 H2. destruct (nth_error_split ts k HT) as [l [r [E1 E2]]]. subst ts.
  rewrite <- (ov_center l 0 (fun _ => 0) 1 1 t r); auto.
  - unfold norm2, ov, mps_amp. simpl. ring.
  - apply Forall_forall. intros u Hu. apply In_nth_error in Hu. destruct Hu as [i Hi]. assert (i < length l) by (apply nth_error_Some; congruence).
    apply (H1 i); [|lia]. rewrite nth_error_app1; auto.
  - apply Forall_forall. intros u Hu. apply In_nth_error in Hu. destruct Hu as [i Hi]. apply (H2 (length l + S i)); [|lia].
    rewrite nth_error_app2 by lia. replace (length l + S i - length l) with (S i) by lia. exact Hi.
Qed.

(** *** an exact QR exists over every ring: Q is the identity on (left, physical), R the tensor itself *)
Definition tqr (a : ten) : ten * mat2 R :=
  (mkTen (d0 a) (d1 a) (d0 a * d1 a) (fun l s k => if k =? l * d1 a + s then r1 else r0),
   mkMat2 (d0 a * d1 a) (d2 a) (fun k r => el a (k / d1 a) (k mod d1 a) r)).
Lemma div_mod_unique2 : forall p l s k, s < p -> k = l * p + s -> l = k / p /\ s = k mod p.
Proof.
  intros p l s k H ->. rewrite Nat.add_comm. split; [rewrite Nat.div_add by lia; rewrite Nat.div_small; lia|rewrite Nat.mod_add by lia; rewrite Nat.mod_small; lia].
Qed.
Lemma tqr_exact : qr_exact R r0 r1 radd rmul conj tqr.
Proof.
  intros a. unfold tqr. cbn [d0 d1 d2 n0 n1 me el]. repeat (split; [reflexivity|]). split.
  - intros k k' Hk Hk'. cbn [d0 d1 d2 el] in *. set (p := d1 a) in *.
    assert (Pp : 0 < p) by (destruct p; [rewrite Nat.mul_0_r in Hk; lia|lia]).
    assert (HD : k = k / p * p + k mod p) by (rewrite Nat.mul_comm; apply Nat.div_mod; lia).
    assert (HM : k mod p < p) by (apply Nat.mod_upper_bound; lia).
    rewrite (sumn_one _ (k / p)).
    + rewrite (sumn_one _ (k mod p)); auto.
      * rewrite <- HD. rewrite Nat.eqb_refl, conj_1. unfold FmpsSpec.delta. rewrite (Nat.eqb_sym k' k). destruct (k =? k'); ring.
      * intros i Hi Hn. destruct (Nat.eqb_spec k (k / p * p + i)) as [E|E]; [lia|]. rewrite conj_0. ring.
    + apply Nat.div_lt_upper_bound; lia.
    + intros i Hi Hn. apply sumn_0. intros s Hs. destruct (Nat.eqb_spec k (i * p + s)) as [E|E].
      * destruct (div_mod_unique2 p i s k Hs E). congruence.
      * rewrite conj_0. ring.
  - intros x s y Hx Hs Hy. rewrite (sumn_one _ (x * d1 a + s)).
    + rewrite Nat.eqb_refl. destruct (div_mod_unique2 (d1 a) x s _ Hs eq_refl) as [<- <-]. ring.
    + nia.
    + intros i Hi Hn. destruct (Nat.eqb_spec i (x * d1 a + s)); [congruence|ring].
Qed.
Definition tsvd (a : ten) : mat2 R * ten * list R :=
  let (q, r) := tqr (transpose R a) in (mkMat2 (n1 r) (n0 r) (fun x k => me r k x), transpose R q, []).
Lemma tsvd_exact : svd_exact R r0 r1 radd rmul conj tsvd.
Proof.
  intros a. pose proof (tqr_exact (transpose R a)) as Q. unfold tsvd. destruct (tqr (transpose R a)) as [q r].
  destruct Q as [Q1 [Q2 [Q3 [Q4 [Q5 Q6]]]]]. cbn [d0 d1 d2 n0 n1 me el transpose] in *.
  split; [exact Q2|]. split; [exact Q1|]. split; [exact Q3|]. split; [exact Q4|]. split; [exact Q5|].
  intros x s y Hx Hs Hy. rewrite (Q6 y s x) by auto. apply sumn_ext. intros. ring.
Qed.
End Norm.
