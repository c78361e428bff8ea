(** The preparation with actual tensors: QR steps and index combiners (vmps_init.h 168-239). *)
From Coq Require Import List Arith Lia Bool Ring.
From Verif Require Import Base Disk SweepSpec DiskFacts TwoSite TwoSiteFacts FiniteMps FmpsSpec FmpsFacts VmpsInit NoiseSpec VmpsInitFacts.
Import ListNotations.

Section Model.
Variables (R : Type) (r0 r1 : R) (radd rmul : R -> R -> R).
Notation ten := (ten R).
Variable qr : ten -> ten * mat2 R.
(** LeftCanonicalizeTen / RightCanonicalizeTen on two neighbours (finite_mps.h 193-274); the contraction of mismatching
    dimensions, undefined in the code, leaves the neighbour unchanged here; all chains below match *)
Definition tcanoL (a b : ten) : ten * ten :=
  let (q, m) := qr a in (q, match contract_mt R r0 radd rmul m b with Ok b' => b' | _ => b end).
Definition tcanoR (p a : ten) : ten * ten :=
  let (q, m) := qr (transpose R a) in (match contract_tm1 R r0 radd rmul p m with Ok p' => p' | _ => p end, transpose R q).
(** mps_ten_shape[0] * mps_ten_shape[1] > Dmax, > mps_ten_shape[2] (176, 179) and mirrored (217, 220) *)
Definition tbigL (D : nat) (a : ten) : bool := D <? d0 a * d1 a.
Definition tsmallL (a : ten) : bool := d2 a <? d0 a * d1 a.
Definition tbigR (D : nat) (a : ten) : bool := D <? d1 a * d2 a.
Definition tsmallR (a : ten) : bool := d0 a <? d1 a * d2 a.
(** IndexCombine(index_0, index_1, dir): the pair of leg values numbered by the third leg (the order of the numbers inside
    quantum number sectors is not modelled) *)
Definition tcombL (a b : ten) : ten * ten :=
  (mkTen (d0 a) (d1 a) (d0 a * d1 a) (fun x s k => if (k / d1 a =? x) && (k mod d1 a =? s) then r1 else r0),
   mkTen (d0 a * d1 a) (d1 b) (d2 b) (fun k s r => sumn R r0 radd (d2 a) (fun j => rmul (el a (k / d1 a) (k mod d1 a) j) (el b j s r)))).
Definition tcombR (b a : ten) : ten * ten :=
  (mkTen (d0 b) (d1 b) (d1 a * d2 a) (fun x t k => sumn R r0 radd (d0 a) (fun j => rmul (el b x t j) (el a j (k / d2 a) (k mod d2 a)))),
   mkTen (d1 a * d2 a) (d1 a) (d2 a) (fun k s r => if (k / d2 a =? s) && (k mod d2 a =? r) then r1 else r0)).
End Model.

Section Facts.
Variables (R : Type) (r0 r1 : R) (radd rmul rsub : R -> R -> R) (ropp : R -> R).
Variable Rth : ring_theory r0 r1 radd rmul rsub ropp (@eq R).
Add Ring Rvt : Rth.
Variable conj : R -> R.
Hypothesis conj0 : conj r0 = r0.
Hypothesis conj1 : conj r1 = r1.
Hypothesis conj_add : forall x y, conj (radd x y) = radd (conj x) (conj y).
Hypothesis conj_mul : forall x y, conj (rmul x y) = rmul (conj x) (conj y).
Infix "*r" := rmul (at level 40).
Infix "+r" := radd (at level 50).
Notation ten := (ten R).
Notation sumn := (sumn R r0 radd).
Notation mps_from := (mps_from R r0 r1 radd rmul).
Notation linked := (linked R).
Notation LC := (left_canonical R r0 r1 radd rmul conj).
Notation RC := (right_canonical R r0 r1 radd rmul conj).
Variable qr : ten -> ten * mat2 R.
Hypothesis QR : qr_exact R r0 r1 radd rmul conj qr.
Notation same_state := (same_state R r0 r1 radd rmul).
Notation tcanoL := (tcanoL R r0 radd rmul qr). Notation tcanoR := (tcanoR R r0 radd rmul qr).
Notation tcombL := (tcombL R r0 r1 radd rmul). Notation tcombR := (tcombR R r0 r1 radd rmul).
Notation delta := (delta R r0 r1).
Let sext := sumn_ext R r0 radd.
Let smull := sumn_mul_l R r0 r1 radd rmul rsub ropp Rth.
Let smulr := sumn_mul_r R r0 r1 radd rmul rsub ropp Rth.
Let sswap := sumn_swap R r0 r1 radd rmul rsub ropp Rth.
Let sone := sumn_one R r0 r1 radd rmul rsub ropp Rth.
Let szero := sumn_0 R r0 r1 radd rmul rsub ropp Rth.
Variable N : nat.
Definition chain (ts : nat -> ten) : list ten := map ts (seq 0 N).

Lemma chain_set2 : forall ts i p, i + 1 < N -> exists l r, chain ts = l ++ ts i :: ts (i + 1) :: r /\ length l = i /\ chain (set2 ten ts i p) = l ++ fst p :: snd p :: r.
Proof.
  intros ts i p Hi. exists (map ts (seq 0 i)), (map ts (seq (i + 2) (N - (i + 2)))). unfold chain.
  assert (E : seq 0 N = seq 0 i ++ i :: (i + 1) :: seq (i + 2) (N - (i + 2))).
  { replace N with (i + S (S (N - (i + 2)))) at 1 by lia. rewrite seq_app. cbn [seq]. replace (0 + i) with i by lia. replace (S i) with (i + 1) by lia. replace (S (i + 1)) with (i + 2) by lia. auto. }
  rewrite E, !map_app. cbn [map]. split; auto. split; [rewrite map_length, seq_length; auto|].
  rewrite set2_0, set2_1. f_equal; [|f_equal; f_equal]; apply map_ext_in; intros j Hj; apply in_seq in Hj; apply set2_o; lia.
Qed.
Lemma linked_mid : forall l a b r x y, linked x (l ++ a :: b :: r) y -> d2 a = d0 b.
Proof. intros l a b r x y H. apply linked_app in H. destruct H as [c [_ H]]. simpl in H. destruct H as [_ [H _]]. auto. Qed.
(** contraction with conj: sums over pairs *)
Lemma conj_sum : forall n f, conj (sumn n f) = sumn n (fun i => conj (f i)).
Proof. induction n; intros; simpl; auto. rewrite conj_add, IHn. auto. Qed.
(** b = p V with isometric V keeps p right canonical: [V] has rows j and columns numbered k < K *)
Lemma iso_right : forall d1b d2p K (pe : nat -> nat -> nat -> R) (V : nat -> nat -> R) x x',
  (forall j j', j < d2p -> j' < d2p -> sumn K (fun k => conj (V j k) *r V j' k) = delta j j') ->
  sumn K (fun k => sumn d1b (fun s => conj (sumn d2p (fun j => pe x s j *r V j k)) *r sumn d2p (fun j => pe x' s j *r V j k))) =
  sumn d2p (fun j => sumn d1b (fun s => conj (pe x s j) *r pe x' s j)).
Proof.
  intros d1b d2p K pe V x x' HV. rewrite sswap. rewrite (sswap d2p d1b). apply sext. intros s Hs.
  transitivity (sumn K (fun k => sumn d2p (fun j => sumn d2p (fun j' => (conj (pe x s j) *r pe x' s j') *r (conj (V j k) *r V j' k))))).
  { apply sext. intros k Hk. rewrite conj_sum, smulr. apply sext. intros j Hj. rewrite smull. apply sext. intros j' Hj'. rewrite conj_mul. ring. }
  rewrite sswap. apply sext. intros j Hj. rewrite sswap.
  transitivity (sumn d2p (fun j' => (conj (pe x s j) *r pe x' s j') *r delta j j')).
  { apply sext. intros j' Hj'. rewrite <- smull. rewrite HV; auto. }
  rewrite (sone d2p j _ Hj).
  - unfold FmpsSpec.delta. rewrite Nat.eqb_refl. ring.
  - intros i Hi HN. unfold FmpsSpec.delta. destruct (Nat.eqb_spec j i); [lia|ring].
Qed.
(** sum over pairs as a sum over combined numbers *)
Lemma sumn_flat : forall m n (f : nat -> nat -> R), 0 < n -> sumn (m * n) (fun k => f (k / n) (k mod n)) = sumn m (fun i => sumn n (fun j => f i j)).
Proof.
  intros m n f Hn. induction m; simpl; auto. rewrite <- IHm.
  assert (A : forall c g, sumn (c + m * n) g = sumn (m * n) g +r sumn c (fun i => g (m * n + i))).
  { induction c; intros g; simpl; [ring|]. rewrite IHc. replace (c + m * n) with (m * n + c) by lia. ring. }
  rewrite A. f_equal. apply sext. intros i Hi. f_equal.
  - rewrite Nat.add_comm, Nat.div_add by lia. rewrite Nat.div_small by auto. auto.
  - rewrite Nat.add_comm, Nat.mod_add by lia. apply Nat.mod_small. auto.
Qed.
Lemma dm_small : forall m n k, k < m * n -> 0 < n /\ k / n < m /\ k mod n < n.
Proof.
  intros m n k Hk. assert (0 < n) by (destruct n; lia). split; auto. split; [|apply Nat.mod_upper_bound; lia].
  apply Nat.div_lt_upper_bound; lia.
Qed.
Lemma dm_inj : forall n k k', 0 < n -> k / n = k' / n -> k mod n = k' mod n -> k = k'.
Proof. intros n k k' Hn H1 H2. rewrite (Nat.div_mod k n), (Nat.div_mod k' n) by lia. congruence. Qed.
Lemma dm_pair : forall n x s, s < n -> (x * n + s) / n = x /\ (x * n + s) mod n = s.
Proof.
  intros n x s Hs. rewrite Nat.add_comm. rewrite Nat.div_add, Nat.mod_add by lia. rewrite Nat.div_small, Nat.mod_small by auto. auto.
Qed.
Lemma canoL_same : forall ts i, i + 1 < N -> linked 1 (chain ts) 1 ->
  same_state 1 1 (chain ts) (chain (set2 ten ts i (tcanoL (ts i) (ts (i + 1))))) /\ LC (fst (tcanoL (ts i) (ts (i + 1)))).
Proof.
  intros ts i Hi HL. destruct (chain_set2 ts i (tcanoL (ts i) (ts (i + 1))) Hi) as [l [r [C1 [C2 C3]]]]. rewrite C3.
  rewrite C1 in HL |- *. pose proof (linked_mid _ _ _ _ _ _ HL) as HD. pose proof (QR (ts i)) as Q. unfold VmpsTen.tcanoL.
  pose proof (lcan_same R r0 r1 radd rmul rsub ropp Rth conj qr QR 1 1 l (ts i) (ts (i + 1)) r) as S.
  destruct (qr (ts i)) as [q m]. destruct Q as [Q1 [Q2 [Q3 [Q4 [Q5 Q6]]]]]. cbn [fst snd] in *. unfold contract_mt in *. rewrite Q4, HD, Nat.eqb_refl in *. split; auto.
Qed.
Lemma canoR_same : forall ts i, i + 1 < N -> linked 1 (chain ts) 1 ->
  same_state 1 1 (chain ts) (chain (set2 ten ts i (tcanoR (ts i) (ts (i + 1))))) /\ RC (snd (tcanoR (ts i) (ts (i + 1)))) /\
  (RC (ts i) -> RC (ts (i + 1)) -> RC (fst (tcanoR (ts i) (ts (i + 1))))).
Proof.
  intros ts i Hi HL. destruct (chain_set2 ts i (tcanoR (ts i) (ts (i + 1))) Hi) as [l [r [C1 [C2 C3]]]]. rewrite C3.
  rewrite C1 in HL |- *. pose proof (linked_mid _ _ _ _ _ _ HL) as HD.
  set (svd0 := fun a : ten => (mkMat2 (d0 a) (d0 a) (fun x y => if x =? y then r1 else r0), a, @nil R)).
  pose proof (QR (transpose R (ts (i + 1)))) as Q. unfold VmpsTen.tcanoR. destruct (qr (transpose R (ts (i + 1)))) as [q m] eqn:EQ. cbn [fst snd].
  destruct Q as [Q1 [Q2 [Q3 [Q4 [Q5 Q6]]]]]. cbn in Q1, Q2, Q4. unfold contract_tm1. rewrite Q4, HD, Nat.eqb_refl.
  set (p' := mkTen (d0 (ts i)) (d1 (ts i)) (n0 m) (fun a s b => Numeric.nsum R r0 radd (d0 (ts (i + 1))) (fun k => el (ts i) a s k *r me m b k))).
  change (Numeric.nsum R r0 radd) with sumn in p'.
  assert (RC (transpose R q)) as RQ. { intros k k' Hk Hk'. cbn in *. apply Q5; auto. }
  split; [|split; [exact RQ|]].
  - pose proof HL as HL'. apply linked_app in HL'. destruct HL' as [c [L1 [L2 [L3 L4]]]]. constructor.
    + rewrite !app_length. reflexivity.
    + apply linked_app. exists c. split; auto. simpl. split; [congruence|]. split; [congruence|]. rewrite Q1. auto.
    + rewrite !map_app. simpl. rewrite Q2. reflexivity.
    + intros s CF x y Hx. eapply mps_replace; eauto.
      intros x1 w Hx1 Hw. cbn [el d2 p' transpose].
      assert (S1 : s (Datatypes.S (length l)) < d1 (ts (i + 1))) by (apply CF; replace (Datatypes.S (length l)) with (length l + 1) by lia; apply nth_mid1).
      transitivity (sumn (d0 (ts (i + 1))) (fun k => sumn (n0 m) (fun z => el (ts i) x1 (s (length l)) k *r (el q w (s (Datatypes.S (length l))) z *r me m z k)))).
      * rewrite <- sswap. apply sext. intros z Hz. rewrite smulr. apply sext. intros. ring.
      * rewrite HD. apply sext. intros k Hk. rewrite <- smull. f_equal. symmetry. apply (Q6 w _ k); cbn; auto.
  - intros HP HA k k' Hk Hk'. cbn [d0 d1 d2 el p'] in *. rewrite (iso_right _ _ _ (el (ts i)) (fun j b => me m b j)).
    + rewrite <- HD. apply HP; auto.
    + intros j j' Hj Hj'. rewrite <- (HA j j' Hj Hj').
      (* sum over the legs of conj(a) a, with a = m q *)
      transitivity (sumn (n0 m) (fun k => sumn (n0 m) (fun k1 => (conj (me m k j) *r me m k1 j') *r delta k k1))).
      { apply sext. intros u Hu. rewrite (sone (n0 m) u _ Hu); [unfold FmpsSpec.delta; rewrite Nat.eqb_refl; ring|]. intros v Hv Hne. unfold FmpsSpec.delta. destruct (Nat.eqb_spec u v); [lia|ring]. }
      symmetry.
      transitivity (sumn (d2 (ts (i + 1))) (fun r => sumn (d1 (ts (i + 1))) (fun s => sumn (n0 m) (fun u => sumn (n0 m) (fun v => (conj (me m u j) *r me m v j') *r (conj (el q r s u) *r el q r s v)))))).
      { apply sext. intros r2 Hr. apply sext. intros s2 Hs. pose proof (Q6 r2 s2 j Hr Hs Hj) as X1. pose proof (Q6 r2 s2 j' Hr Hs Hj') as X2. cbn in X1, X2. rewrite X1, X2.
        rewrite conj_sum, smulr. apply sext. intros u Hu. rewrite smull. apply sext. intros v Hv. rewrite conj_mul. ring. }
      transitivity (sumn (n0 m) (fun u => sumn (n0 m) (fun v => sumn (d2 (ts (i + 1))) (fun r => sumn (d1 (ts (i + 1))) (fun s => (conj (me m u j) *r me m v j') *r (conj (el q r s u) *r el q r s v)))))).
      { transitivity (sumn (d2 (ts (i + 1))) (fun r => sumn (n0 m) (fun u => sumn (n0 m) (fun v => sumn (d1 (ts (i + 1))) (fun s => (conj (me m u j) *r me m v j') *r (conj (el q r s u) *r el q r s v)))))).
        - apply sext. intros r2 Hr. rewrite sswap. apply sext. intros u Hu. apply sswap.
        - rewrite sswap. apply sext. intros u Hu. apply sswap. }
      apply sext. intros u Hu. apply sext. intros v Hv.
      transitivity ((conj (me m u j) *r me m v j') *r sumn (d0 q) (fun r => sumn (d1 q) (fun s => conj (el q r s u) *r el q r s v))).
      { rewrite Q1, Q2, smull. apply sext. intros r2 Hr. rewrite smull. auto. }
      rewrite Q5 by lia. auto.
Qed.
Lemma combL_same : forall ts i, i + 1 < N -> linked 1 (chain ts) 1 ->
  same_state 1 1 (chain ts) (chain (set2 ten ts i (tcombL (ts i) (ts (i + 1))))) /\ LC (fst (tcombL (ts i) (ts (i + 1)))).
Proof.
  intros ts i Hi HL. destruct (chain_set2 ts i (tcombL (ts i) (ts (i + 1))) Hi) as [l [r [C1 [C2 C3]]]]. rewrite C3.
  rewrite C1 in HL |- *. pose proof (linked_mid _ _ _ _ _ _ HL) as HD. set (a := ts i) in *. set (b := ts (i + 1)) in *. split.
  - pose proof HL as HL'. apply linked_app in HL'. destruct HL' as [c [L1 [L2 [L3 L4]]]]. constructor.
    + rewrite !app_length. reflexivity.
    + apply linked_app. exists c. split; auto. simpl. auto.
    + rewrite !map_app. reflexivity.
    + intros s CF x y Hx. eapply mps_replace; eauto. intros x1 w Hx1 Hw. cbn [el d2 fst snd VmpsTen.tcombL].
      assert (S1 : s (length l) < d1 a) by (apply CF; apply nth_mid).
      destruct (dm_pair (d1 a) x1 (s (length l)) S1) as [P1 P2].
      rewrite (sone _ (x1 * d1 a + s (length l))).
      * rewrite P1, P2, !Nat.eqb_refl. cbn [andb]. ring_simplify. auto.
      * nia.
      * intros k Hk Hne. destruct (Nat.eqb_spec (k / d1 a) x1); [|cbn [andb]; ring]. destruct (Nat.eqb_spec (k mod d1 a) (s (length l))); [|cbn [andb]; ring].
        exfalso. apply Hne. apply (dm_inj (d1 a)); [lia|congruence|congruence].
  - intros k k' Hk Hk'. cbn [d0 d1 d2 el fst VmpsTen.tcombL] in *. destruct (dm_small _ _ _ Hk) as [D1 [D2 D3]].
    rewrite (sone _ (k / d1 a) _ D2).
    + rewrite (sone _ (k mod d1 a) _ D3).
      * rewrite !Nat.eqb_refl. cbn [andb]. rewrite conj1. unfold FmpsSpec.delta. destruct (Nat.eqb_spec k k') as [<-|NE]; [rewrite !Nat.eqb_refl; cbn [andb]; ring|].
        destruct (Nat.eqb_spec (k' / d1 a) (k / d1 a)); [|cbn [andb]; ring]. destruct (Nat.eqb_spec (k' mod d1 a) (k mod d1 a)); [|cbn [andb]; ring].
        exfalso. apply NE. apply (dm_inj (d1 a)); auto.
      * intros j Hj HN. rewrite Nat.eqb_refl. destruct (Nat.eqb_spec (k mod d1 a) j); [congruence|]. cbn [andb]. rewrite conj0. ring.
    + intros j Hj HN. apply szero. intros s Hs. destruct (Nat.eqb_spec (k / d1 a) j); [congruence|]. cbn [andb]. rewrite conj0. ring.
Qed.
Lemma combR_same : forall ts i, i + 1 < N -> linked 1 (chain ts) 1 ->
  same_state 1 1 (chain ts) (chain (set2 ten ts i (tcombR (ts i) (ts (i + 1))))) /\ RC (snd (tcombR (ts i) (ts (i + 1)))) /\
  (RC (ts i) -> RC (ts (i + 1)) -> RC (fst (tcombR (ts i) (ts (i + 1))))).
Proof.
  intros ts i Hi HL. destruct (chain_set2 ts i (tcombR (ts i) (ts (i + 1))) Hi) as [l [r [C1 [C2 C3]]]]. rewrite C3.
  rewrite C1 in HL |- *. pose proof (linked_mid _ _ _ _ _ _ HL) as HD. set (b := ts i) in *. set (a := ts (i + 1)) in *. split; [|split].
  - pose proof HL as HL'. apply linked_app in HL'. destruct HL' as [c [L1 [L2 [L3 L4]]]]. constructor.
    + rewrite !app_length. reflexivity.
    + apply linked_app. exists c. split; auto. simpl. auto.
    + rewrite !map_app. reflexivity.
    + intros s CF x y Hx. eapply mps_replace; eauto. intros x1 w Hx1 Hw. cbn [el d2 fst snd VmpsTen.tcombR].
      assert (S1 : s (S (length l)) < d1 a) by (apply CF; replace (S (length l)) with (length l + 1) by lia; apply nth_mid1).
      destruct (dm_pair (d2 a) (s (S (length l))) w Hw) as [P1 P2].
      rewrite (sone _ (s (S (length l)) * d2 a + w)).
      * rewrite P1, P2, !Nat.eqb_refl. cbn [andb]. rewrite HD. ring_simplify. auto.
      * nia.
      * intros k Hk Hne. destruct (Nat.eqb_spec (k / d2 a) (s (S (length l)))); [|cbn [andb]; ring]. destruct (Nat.eqb_spec (k mod d2 a) w); [|cbn [andb]; ring].
        exfalso. apply Hne. apply (dm_inj (d2 a)); [lia|congruence|congruence].
  - intros k k' Hk Hk'. cbn [d0 d1 d2 el snd VmpsTen.tcombR] in *. destruct (dm_small _ _ _ Hk) as [D1 [D2 D3]].
    rewrite (sone _ (k mod d2 a) _ D3).
    + rewrite (sone _ (k / d2 a) _ D2).
      * rewrite !Nat.eqb_refl. cbn [andb]. rewrite conj1. unfold FmpsSpec.delta. destruct (Nat.eqb_spec k k') as [<-|NE]; [rewrite !Nat.eqb_refl; cbn [andb]; ring|].
        destruct (Nat.eqb_spec (k' / d2 a) (k / d2 a)); [|cbn [andb]; ring]. destruct (Nat.eqb_spec (k' mod d2 a) (k mod d2 a)); [|cbn [andb]; ring].
        exfalso. apply NE. apply (dm_inj (d2 a)); auto.
      * intros j Hj HN. destruct (Nat.eqb_spec (k / d2 a) j); [congruence|]. cbn [andb]. rewrite conj0. ring.
    + intros j Hj HN. apply szero. intros s Hs. destruct (Nat.eqb_spec (k mod d2 a) j); [congruence|]. rewrite andb_false_r. rewrite conj0. ring.
  - intros HB HA x x' Hx Hx'. cbn [d0 d1 d2 el fst VmpsTen.tcombR] in *.
    rewrite (iso_right _ _ _ (el b) (fun j k => el a j (k / d2 a) (k mod d2 a))).
    + rewrite <- HD. apply HB; auto.
    + intros j j' Hj Hj'. rewrite <- (HA j j' Hj Hj'). destruct (Nat.eq_dec (d2 a) 0) as [E|NE].
      * rewrite E, Nat.mul_0_r. reflexivity.
      * rewrite (sumn_flat (d1 a) (d2 a) (fun s r => conj (el a j s r) *r el a j' s r)) by lia. apply sswap.
Qed.
Variable D : nat.
Notation prep_left := (prep_left ten tcanoL (tbigL R D) (tsmallL R) tcombL).
Notation prep_right := (prep_right ten tcanoR (tbigR R D) (tsmallR R) tcombR).
Notation prep := (prep ten tcanoL tcanoR (tbigL R D) (tsmallL R) (tbigR R D) (tsmallR R) tcombL tcombR N).
Let strans := same_trans R r0 r1 radd rmul.
Let srefl := same_refl R r0 r1 radd rmul.

Lemma prep_left_gauge : forall n i l ts, 1 <= n -> i + n < N -> linked 1 (chain ts) 1 ->
  let lb := fst (prep_left n i l ts) in let ts' := snd (prep_left n i l ts) in
  same_state 1 1 (chain ts) (chain ts') /\ i <= lb < i + n /\ (forall j, j < i -> ts' j = ts j) /\ (forall j, lb + 1 < j -> ts' j = ts j) /\
  (forall j, i <= j <= lb -> LC (ts' j)) /\ (forall j, i <= j < lb -> d0 (ts' j) * d1 (ts' j) <= d2 (ts' j)).
Proof.
  induction n as [|n IH]; intros i l ts Hn HN HL; [lia|]. cbn [NoiseSpec.prep_left].
  destruct (canoL_same ts i ltac:(lia) HL) as [A1 A2]. set (ts1 := set2 ten ts i (tcanoL (ts i) (ts (i + 1)))) in *.
  assert (L1 : LC (ts1 i)) by (unfold ts1; rewrite set2_0; auto).
  assert (O1 : forall j, j < i \/ i + 1 < j -> ts1 j = ts j) by (intros j Hj; unfold ts1; apply set2_o; lia).
  destruct (tbigL R D (ts1 i)) eqn:EB.
  - cbn [fst snd]. split; auto. split; [lia|]. split; [intros; apply O1; lia|]. split; [intros; apply O1; lia|]. split; [intros j Hj; replace j with i by lia; auto|intros; lia].
  - set (ts2 := if tsmallL R (ts1 i) then set2 ten ts1 i (tcombL (ts1 i) (ts1 (i + 1))) else ts1).
    assert (B : same_state 1 1 (chain ts1) (chain ts2) /\ LC (ts2 i) /\ d0 (ts2 i) * d1 (ts2 i) <= d2 (ts2 i) /\ (forall j, j < i \/ i + 1 < j -> ts2 j = ts1 j)).
    { unfold ts2. unfold tsmallL. destruct (Nat.ltb_spec (d2 (ts1 i)) (d0 (ts1 i) * d1 (ts1 i))).
      - destruct (combL_same ts1 i ltac:(lia)) as [B1 B2]; [destruct A1; auto|]. split; auto. rewrite set2_0. split; auto. split; [cbn; lia|]. intros j Hj. apply set2_o; lia.
      - split; [apply srefl; destruct A1; auto|]. auto. }
    destruct B as [B1 [B2 [B3 B4]]]. assert (SS : same_state 1 1 (chain ts) (chain ts2)) by (eapply strans; eauto).
    destruct n as [|n].
    + cbn [NoiseSpec.prep_left Nat.eqb fst snd]. split; auto. split; [lia|]. split; [intros; rewrite B4, O1 by lia; auto|]. split; [intros; rewrite B4, O1 by lia; auto|].
      split; [intros j Hj; replace j with i by lia; auto|intros; lia].
    + destruct (IH (S i) (if S n =? 0 then i else l) ts2) as [I1 [I2 [I3 [I4 [I5 I6]]]]]; try lia; [destruct SS; auto|].
      set (pp := prep_left (S n) (S i) (if S n =? 0 then i else l) ts2) in *. split; [eapply strans; eauto|]. split; [lia|].
      split; [intros; rewrite I3, B4, O1 by lia; auto|]. split; [intros; rewrite I4, B4, O1 by lia; auto|]. split.
      * intros j Hj. destruct (Nat.eq_dec j i) as [->|]; [rewrite I3 by lia; auto|apply I5; lia].
      * intros j Hj. destruct (Nat.eq_dec j i) as [->|]; [rewrite !I3 by lia; auto|apply I6; lia].
Qed.
Lemma prep_right_gauge : forall n i l ts, 1 <= n -> n <= i -> i < N -> linked 1 (chain ts) 1 ->
  let rb := fst (prep_right n i l ts) in let ts' := snd (prep_right n i l ts) in
  same_state 1 1 (chain ts) (chain ts') /\ i - n < rb <= i /\ (forall j, i < j -> ts' j = ts j) /\ (forall j, j + 1 < rb -> ts' j = ts j) /\
  (forall j, rb <= j <= i -> RC (ts' j)) /\ (forall j, rb < j <= i -> d1 (ts' j) * d2 (ts' j) <= d0 (ts' j)) /\
  ((forall j, rb - 1 <= j <= i -> RC (ts j)) -> RC (ts' (rb - 1))).
Proof.
  induction n as [|n IH]; intros i l ts Hn HI HN HL; [lia|]. cbn [NoiseSpec.prep_right].
  assert (E1 : i - 1 + 1 = i) by lia. destruct (canoR_same ts (i - 1) ltac:(lia) HL) as [A1 [A2 A3]]. rewrite E1 in A1, A2, A3.
  set (ts1 := set2 ten ts (i - 1) (tcanoR (ts (i - 1)) (ts i))) in *.
  assert (X1 : forall t p, set2 ten t (i - 1) p i = snd p) by (intros t p; pose proof (set2_1 ten t (i - 1) p) as X; rewrite E1 in X; exact X).
  assert (L1 : RC (ts1 i)) by (unfold ts1; rewrite X1; auto).
  assert (L2 : RC (ts (i - 1)) -> RC (ts i) -> RC (ts1 (i - 1))) by (unfold ts1; rewrite set2_0; auto).
  assert (O1 : forall j, j < i - 1 \/ i < j -> ts1 j = ts j) by (intros j Hj; unfold ts1; apply set2_o; lia).
  destruct (tbigR R D (ts1 i)) eqn:EB.
  - cbn [fst snd]. split; auto. split; [lia|]. split; [intros; apply O1; lia|]. split; [intros; apply O1; lia|]. split; [intros j Hj; replace j with i by lia; auto|].
    split; [intros; lia|]. intros HR. apply L2; apply HR; lia.
  - set (ts2 := if tsmallR R (ts1 i) then set2 ten ts1 (i - 1) (tcombR (ts1 (i - 1)) (ts1 i)) else ts1).
    assert (B : same_state 1 1 (chain ts1) (chain ts2) /\ RC (ts2 i) /\ d1 (ts2 i) * d2 (ts2 i) <= d0 (ts2 i) /\ (forall j, j < i - 1 \/ i < j -> ts2 j = ts1 j) /\
      (RC (ts1 (i - 1)) -> RC (ts2 (i - 1)))).
    { unfold ts2. unfold tsmallR. destruct (Nat.ltb_spec (d0 (ts1 i)) (d1 (ts1 i) * d2 (ts1 i))).
      - destruct (combR_same ts1 (i - 1) ltac:(lia)) as [B1 [B2 B3]]; [destruct A1; auto|]. rewrite E1 in B1, B2, B3. split; auto.
        rewrite X1.
        split; auto. split; [cbn; lia|]. split; [intros j Hj; apply set2_o; lia|]. rewrite set2_0. auto.
      - split; [apply srefl; destruct A1; auto|]. auto. }
    destruct B as [B1 [B2 [B3 [B4 B5]]]]. assert (SS : same_state 1 1 (chain ts) (chain ts2)) by (eapply strans; eauto).
    destruct n as [|n].
    + cbn [NoiseSpec.prep_right Nat.eqb fst snd]. split; auto. split; [lia|]. split; [intros; rewrite B4, O1 by lia; auto|]. split; [intros; rewrite B4, O1 by lia; auto|].
      split; [intros j Hj; replace j with i by lia; auto|]. split; [intros; lia|]. intros HR. apply B5, L2; apply HR; lia.
    + destruct (IH (i - 1) (if S n =? 0 then i else l) ts2) as [I1 [I2 [I3 [I4 [I5 [I6 I7]]]]]]; try lia; [destruct SS; auto|].
      set (pp := prep_right (S n) (i - 1) (if S n =? 0 then i else l) ts2) in *. split; [eapply strans; eauto|]. split; [lia|].
      split; [intros; rewrite I3, B4, O1 by lia; auto|]. split; [intros; rewrite I4, B4, O1 by lia; auto|]. split; [|split].
      * intros j Hj. destruct (Nat.eq_dec j i) as [->|]; [rewrite I3 by lia; auto|apply I5; lia].
      * intros j Hj. destruct (Nat.eq_dec j i) as [->|]; [rewrite !I3 by lia; auto|apply I6; lia].
      * intros HR. apply I7. intros j Hj. destruct (Nat.eq_dec j (i - 1)) as [->|]; [apply B5, L2; apply HR; lia|]. rewrite B4, O1 by lia. apply HR. lia.
Qed.
Lemma prep_gauge : forall ts lb rb ts', 3 <= N -> linked 1 (chain ts) 1 -> prep ts = (lb, rb, ts') ->
  same_state 1 1 (chain ts) (chain ts') /\ lb + 2 <= rb /\ 2 * lb + 3 <= N /\ N + 1 <= 2 * rb /\ rb < N /\
  (forall j, j <= lb -> LC (ts' j)) /\ (forall j, rb <= j < N -> RC (ts' j)) /\
  (forall j, j < lb -> d0 (ts' j) * d1 (ts' j) <= d2 (ts' j)) /\ (forall j, rb < j < N -> d1 (ts' j) * d2 (ts' j) <= d0 (ts' j)) /\
  ((forall j, lb + 2 <= j < N -> RC (ts j)) -> forall j, lb + 2 <= j < N -> RC (ts' j)).
Proof.
  intros ts lb rb ts' HN HL H. destruct (half_bounds N HN) as [B1 [B2 [B3 B4]]]. unfold NoiseSpec.prep in H.
  destruct (prep_left_gauge (half N) 0 0 ts B1 ltac:(lia) HL) as [P1 [P2 [_ [P4 [P5 P6]]]]].
  destruct (prep_left (half N) 0 0 ts) as [l ts1]. cbn [fst snd] in *.
  destruct (prep_right_gauge (N - 1 - N / 2) (N - 1) 0 ts1 B4) as [Q1 [Q2 [_ [Q4 [Q5 [Q6 Q7]]]]]]; [lia|lia|destruct P1; auto|].
  destruct (prep_right (N - 1 - N / 2) (N - 1) 0 ts1) as [r ts2]. cbn [fst snd] in *. injection H as <- <- <-.
  assert (HH : 2 * l + 3 <= N /\ N + 1 <= 2 * r /\ l + 2 <= r).
  { pose proof (Nat.div_mod N 2 ltac:(lia)). pose proof (Nat.mod_upper_bound N 2 ltac:(lia)).
    unfold half in *. destruct (Nat.even N) eqn:EV.
    2: { assert (N mod 2 <> 0) by (intros X; rewrite X in *; assert (Nat.even N = true) by (apply Nat.even_spec; exists (N / 2); lia); congruence). lia. }
    assert (N mod 2 = 0) by (apply Nat.even_spec in EV; destruct EV as [k ->]; rewrite Nat.mul_comm; apply Nat.mod_mul; lia). lia. }
  split; [eapply strans; eauto|]. split; [lia|]. split; [lia|]. split; [lia|]. split; [lia|].
  split; [intros j Hj; rewrite Q4 by lia; apply P5; lia|]. split; [intros j Hj; apply Q5; lia|].
  split; [intros j Hj; rewrite !Q4 by lia; apply P6; lia|]. split; [intros j Hj; apply Q6; lia|].
  intros HR j Hj. destruct (Nat.le_gt_cases r j); [apply Q5; lia|].
  destruct (Nat.eq_dec j (r - 1)) as [->|]; [|rewrite Q4, P4 by lia; apply HR; lia].
  apply Q7. intros k Hk. rewrite P4 by lia. apply HR. lia.
Qed.
(** the search goes on until a bond could exceed D or the middle is reached *)
Lemma prep_left_stop : forall n i l ts, 1 <= n ->
  tbigL R D (snd (prep_left n i l ts) (fst (prep_left n i l ts))) = true \/ fst (prep_left n i l ts) = i + n - 1.
Proof.
  induction n as [|n IH]; intros i l ts Hn; [lia|]. cbn [NoiseSpec.prep_left]. set (ts1 := set2 ten ts i _).
  destruct (tbigL R D (ts1 i)) eqn:EB; [left; exact EB|]. destruct n; [right; cbn; lia|].
  match goal with |- context [prep_left (S n) ?a ?b ?c] => destruct (IH a b c ltac:(lia)) as [H|H] end; [left; exact H|right; rewrite H; lia].
Qed.
Lemma prep_right_stop : forall n i l ts, 1 <= n -> n <= i ->
  tbigR R D (snd (prep_right n i l ts) (fst (prep_right n i l ts))) = true \/ fst (prep_right n i l ts) = i + 1 - n.
Proof.
  induction n as [|n IH]; intros i l ts Hn Hi; [lia|]. cbn [NoiseSpec.prep_right]. set (ts1 := set2 ten ts (i - 1) _).
  destruct (tbigR R D (ts1 i)) eqn:EB; [left; exact EB|]. destruct n; [right; cbn; lia|].
  match goal with |- context [prep_right (S n) ?a ?b ?c] => destruct (IH a b c ltac:(lia) ltac:(lia)) as [H|H] end; [left; exact H|right; rewrite H; lia].
Qed.
Lemma prep_stop : forall ts lb rb ts', 3 <= N -> linked 1 (chain ts) 1 -> prep ts = (lb, rb, ts') ->
  (D < d0 (ts' lb) * d1 (ts' lb) \/ N <= 2 * lb + 4) /\ (D < d1 (ts' rb) * d2 (ts' rb) \/ 2 * rb <= N + 2).
Proof.
  intros ts lb rb ts' HN HL H. destruct (prep_gauge ts lb rb ts' HN HL H) as [_ [G _]]. destruct (half_bounds N HN) as [B1 [B2 [B3 B4]]]. unfold NoiseSpec.prep in H.
  destruct (prep_left_gauge (half N) 0 0 ts B1 ltac:(lia) HL) as [P1 _]. pose proof (prep_left_stop (half N) 0 0 ts B1) as PS.
  destruct (prep_left (half N) 0 0 ts) as [l ts1]. cbn [fst snd] in *.
  destruct (prep_right_gauge (N - 1 - N / 2) (N - 1) 0 ts1 B4) as [_ [_ [_ [Q4 _]]]]; [lia|lia|destruct P1; auto|].
  pose proof (prep_right_stop (N - 1 - N / 2) (N - 1) 0 ts1 B4 ltac:(lia)) as QS.
  destruct (prep_right (N - 1 - N / 2) (N - 1) 0 ts1) as [r ts2]. cbn [fst snd] in *. injection H as <- <- <-.
  pose proof (Nat.div_mod N 2 ltac:(lia)). pose proof (Nat.mod_upper_bound N 2 ltac:(lia)). split.
  - destruct PS as [PS|PS]; [left|right].
    2: { unfold half in *. destruct (Nat.even N) eqn:EV; [|lia].
      assert (N mod 2 = 0) by (apply Nat.even_spec in EV; destruct EV as [k ->]; rewrite Nat.mul_comm; apply Nat.mod_mul; lia). lia. }
    rewrite Q4 by lia. apply Nat.ltb_lt. exact PS.
  - destruct QS as [QS|QS]; [left; apply Nat.ltb_lt; exact QS|right; lia].
Qed.
End Facts.
