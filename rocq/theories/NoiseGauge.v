(** Moves of the center and enlarged bonds in the preparation of a run: QR to the right and to the left, index combiners. *)
From Coq Require Import List Arith Lia Bool Ring.
From Verif Require Import Base FiniteMps FmpsSpec FmpsFacts EffHam EffHamSpec EffHamFacts ChainSpec ChainFacts Legs VmpsLocal VmpsSpec VmpsEnv VmpsHeff ChainPair.
Import ListNotations.

Section Facts.
Variables (R : Type) (r0 r1 : R) (radd rmul rsub : R -> R -> R) (ropp : R -> R).
Variable Rth : ring_theory r0 r1 radd rmul rsub ropp (@eq R).
Add Ring Rring : Rth.
Variable conj : R -> R.
Hypothesis conj0 : conj r0 = r0.
Hypothesis conj1 : conj r1 = r1.
Hypothesis conj_add : forall x y, conj (radd x y) = radd (conj x) (conj y).
Hypothesis conj_mul : forall x y, conj (rmul x y) = rmul (conj x) (conj y).
Infix "*r" := rmul (at level 40, left associativity).
Notation gten := (gten R). Notation ge := (ge R). Notation gd := (gd R). Notation ten := (ten R).
Notation sumn := (sumn R r0 radd). Notation ten_of := (ten_of R).
Notation two_site := (two_site R r0 radd rmul). Notation splits := (splits R r0 radd rmul).
Notation s_ext := (sumn_ext R r0 radd). Notation s_mul_l := (sumn_mul_l R r0 r1 radd rmul rsub ropp Rth). Notation s_mul_r := (sumn_mul_r R r0 r1 radd rmul rsub ropp Rth). Notation s_swap := (sumn_swap R r0 r1 radd rmul rsub ropp Rth).
Notation left_canonical := (left_canonical R r0 r1 radd rmul conj). Notation right_canonical := (right_canonical R r0 r1 radd rmul conj).
Notation delta := (delta R r0 r1).

(** a move to the left given by its matrix *)
Definition moved (m : nat -> nat -> R) (a b a' b' : ten) : Prop :=
  d0 a' = d0 a /\ d1 a' = d1 a /\ d2 a' = d0 b' /\ d1 b' = d1 b /\ d2 b' = d2 b /\ right_canonical b' /\
  (forall x s k, x < d0 a -> s < d1 a -> k < d0 b' -> el a' x s k = sumn (d2 a) (fun j => el a x s j *r m j k)) /\
  (forall j s y, j < d0 b -> s < d1 b -> y < d2 b -> el b j s y = sumn (d0 b') (fun k => m j k *r el b' k s y)).
Lemma moved_splits : forall m a b a' b', d2 a = d0 b -> moved m a b a' b' -> splits (d0 a) (d1 a) (d1 b) (d2 b) (two_site a b) a' b'.
Proof.
  intros m a b a' b' HD [E0 [E1 [E2 [E3 [E4 [HB [EA EB]]]]]]]. split; auto. intros x s s' y Hx Hs Hs' Hy. unfold EffHamSpec.two_site.
  transitivity (sumn (d2 a') (fun k => sumn (d2 a) (fun j => el a x s j *r m j k *r el b' k s' y))).
  { apply s_ext. intros k Hk. rewrite EA by (auto; lia). apply s_mul_r. }
  rewrite s_swap. apply s_ext. intros j Hj. rewrite (EB j s' y) by (auto; lia). rewrite s_mul_l, E2. apply s_ext. intros. ring.
Qed.
Let s_conj : forall n f, conj (sumn n f) = sumn n (fun i => conj (f i)).
Proof. intros n f. induction n as [|n IH]; cbn [FmpsSpec.sumn]; [exact conj0|]. rewrite conj_add, IH. reflexivity. Qed.
Let s_pick : forall n j f, j < n -> sumn n (fun k => f k *r delta j k) = f j.
Proof.
  intros n j f H. rewrite (sumn_lsum R r0 r1 radd rmul rsub ropp Rth).
  transitivity (lsum R r0 radd (seq 0 n) (fun k => f k *r delta k j)); [|apply (delta_r R r0 r1 radd rmul rsub ropp Rth n j f); exact H].
  apply (lsum_ext R r0 radd). intros k _. unfold FmpsSpec.delta. rewrite (Nat.eqb_sym j k). reflexivity.
Qed.
Lemma moved_right : forall m a b a' b', d2 a = d0 b -> moved m a b a' b' -> right_canonical a -> right_canonical b -> right_canonical a'.
Proof.
  intros m a b a' b' HD [E0 [E1 [E2 [E3 [E4 [HB [EA EB]]]]]]] CA CB.
  assert (MM : forall j j', j < d0 b -> j' < d0 b -> sumn (d0 b') (fun k => conj (m j k) *r m j' k) = delta j j').
  { intros j j' Hj Hj'. rewrite <- (CB j j' Hj Hj').
    transitivity (sumn (d2 b) (fun y => sumn (d1 b) (fun s => sumn (d0 b') (fun k => sumn (d0 b') (fun k' => conj (m j k) *r m j' k' *r (conj (el b' k s y) *r el b' k' s y)))))).
    - transitivity (sumn (d0 b') (fun k => sumn (d0 b') (fun k' => conj (m j k) *r m j' k' *r delta k k'))).
      { apply s_ext. intros k Hk. symmetry. apply (s_pick (d0 b') k (fun k' => conj (m j k) *r m j' k') Hk). }
      transitivity (sumn (d0 b') (fun k => sumn (d0 b') (fun k' => sumn (d2 b) (fun y => sumn (d1 b) (fun s => conj (m j k) *r m j' k' *r (conj (el b' k s y) *r el b' k' s y)))))).
      { apply s_ext. intros k Hk. apply s_ext. intros k' Hk'. rewrite <- (HB k k' Hk Hk'), E3, E4, s_mul_l. apply s_ext. intros y _. apply s_mul_l. }
      transitivity (sumn (d0 b') (fun k => sumn (d2 b) (fun y => sumn (d1 b) (fun s => sumn (d0 b') (fun k' => conj (m j k) *r m j' k' *r (conj (el b' k s y) *r el b' k' s y)))))).
      { apply s_ext. intros k _. rewrite s_swap. apply s_ext. intros y _. apply s_swap. }
      rewrite s_swap. apply s_ext. intros y _. apply s_swap.
    - apply s_ext. intros y Hy. apply s_ext. intros s Hs. rewrite (EB j s y), (EB j' s y) by auto. rewrite s_conj, s_mul_r. apply s_ext. intros k _. rewrite s_mul_l. apply s_ext. intros k' _. rewrite conj_mul. ring. }
  intros x x' Hx Hx'. rewrite E0 in Hx, Hx'. rewrite <- (CA x x' Hx Hx').
  transitivity (sumn (d1 a) (fun s => sumn (d2 a) (fun j => sumn (d2 a) (fun j' => conj (el a x s j) *r el a x' s j' *r sumn (d0 b') (fun k => conj (m j k) *r m j' k))))).
  - rewrite E1, E2. transitivity (sumn (d0 b') (fun k => sumn (d1 a) (fun s => sumn (d2 a) (fun j => sumn (d2 a) (fun j' => conj (el a x s j) *r el a x' s j' *r (conj (m j k) *r m j' k)))))).
    + apply s_ext. intros k Hk. apply s_ext. intros s Hs. rewrite !EA by auto. rewrite s_conj, s_mul_r. apply s_ext. intros j _. rewrite s_mul_l. apply s_ext. intros j' _. rewrite conj_mul. ring.
    + rewrite s_swap. apply s_ext. intros s _. rewrite s_swap. apply s_ext. intros j _. rewrite s_swap. apply s_ext. intros j' _. rewrite s_mul_l. reflexivity.
  - rewrite s_swap. transitivity (sumn (d1 a) (fun s => sumn (d2 a) (fun j => conj (el a x s j) *r el a x' s j))); [|apply s_swap]. rewrite s_swap.
    apply s_ext. intros s _. apply s_ext. intros j Hj. rewrite <- (s_pick (d2 a) j (fun j' => conj (el a x s j) *r el a x' s j') Hj). apply s_ext. intros j' Hj'. rewrite MM by lia. reflexivity.
Qed.

Variable qr : nat -> gten -> gten * gten.
Hypothesis HQ : exact_gqr R r0 r1 radd rmul conj qr.
Lemma rcano_moved : forall a b D0 p1 D p2 D3, gd a = [D0; p1; D] -> gd b = [D; p2; D3] ->
  exists a' b' K, rcano R r0 radd rmul qr a b = Ok (a', b') /\ gd a' = [D0; p1; K] /\ gd b' = [K; p2; D3] /\ exists m, moved m (ten_of a) (ten_of b) (ten_of a') (ten_of b').
Proof.
  intros a b D0 p1 D p2 D3 EA EB. destruct (rcano_ok R r0 r1 radd rmul rsub ropp Rth conj qr HQ a b _ _ _ _ _ EA EB) as [a' [b' [K [RC [A2 [B2 [_ CB]]]]]]]. exists a', b', K. split; [exact RC|]. split; [exact A2|]. split; [exact B2|].
  assert (exists bt, gtrans R [2; 1; 0] b = Ok bt /\ gd bt = [D3; p2; D] /\ forall i j k, ge bt [i; j; k] = ge b [k; j; i]) as [bt [T1 [T2 T3]]].
  { clear - EB. destruct b as [? b]. cbn in EB. subst. eexists. split; [legs; reflexivity|]. split; [reflexivity|]. intros. legs. reflexivity. }
  assert (HQ' := HQ bt D3 p2 D T2). unfold rcano in RC. rewrite T1 in RC. cbn [bind] in RC. destruct (qr 2 bt) as [q r]. destruct HQ' as [K' [Q1 [Q2 [Q3 Q4]]]].
  assert (exists b1, gtrans R [2; 1; 0] q = Ok b1 /\ gd b1 = [K'; p2; D3] /\ forall i j k, ge b1 [i; j; k] = ge q [k; j; i]) as [b1 [B1 [B1' B3]]].
  { clear - Q1. destruct q as [? q]. cbn in Q1. subst. eexists. split; [legs; reflexivity|]. split; [reflexivity|]. intros. legs. reflexivity. }
  assert (exists a1, gcontract R r0 radd rmul [2] [1] a r = Ok a1 /\ gd a1 = [D0; p1; K'] /\ forall i j k, ge a1 [i; j; k] = sumn D (fun m => ge a [i; j; m] *r ge r [k; m])) as [a1 [A1 [A1' A3]]].
  { clear - EA Q2. destruct a as [? a], r as [? r]. cbn in EA, Q2. subst. eexists. split; [legs; reflexivity|]. split; [reflexivity|]. intros. legs. reflexivity. }
  rewrite B1 in RC. cbn [bind] in RC. rewrite A1 in RC. cbn [bind] in RC. injection RC as -> ->. exists (fun j k => ge r [k; j]).
  destruct (ten_dims R _ _ _ _ A1') as [P0 [P1 P2]]. destruct (ten_dims R _ _ _ _ B1') as [R0 [R1 R2]]. destruct (ten_dims R _ _ _ _ EA) as [U0 [U1 U2]]. destruct (ten_dims R _ _ _ _ EB) as [V0 [V1 V2]].
  unfold moved. repeat split; try congruence; try assumption.
  - intros x s k _ _ _. rewrite U2. cbn [el Legs.ten_of]. apply A3.
  - intros j s y Hj Hs Hy. rewrite V0 in Hj. rewrite V1 in Hs. rewrite V2 in Hy. rewrite R0. cbn [el Legs.ten_of]. rewrite <- T3, Q4 by auto. apply s_ext. intros k _. rewrite B3. ring.
Qed.
Lemma lcano_ok : forall a b D0 p1 D p2 D3, gd a = [D0; p1; D] -> gd b = [D; p2; D3] ->
  exists a' b' K, (let (q, r) := qr 2 a in let! b' := gcontract R r0 radd rmul [1] [0] r b in Ok (q, b')) = Ok (a', b') /\ gd a' = [D0; p1; K] /\ gd b' = [K; p2; D3] /\
  splits D0 p1 p2 D3 (two_site (ten_of a) (ten_of b)) (ten_of a') (ten_of b') /\ left_canonical (ten_of a').
Proof.
  intros a b D0 p1 D p2 D3 EA EB. assert (HQ' := HQ a D0 p1 D EA). destruct (qr 2 a) as [q r]. destruct HQ' as [K [Q1 [Q2 [Q3 Q4]]]].
  assert (exists b', gcontract R r0 radd rmul [1] [0] r b = Ok b' /\ gd b' = [K; p2; D3] /\ forall k s y, ge b' [k; s; y] = sumn D (fun j => ge r [k; j] *r ge b [j; s; y])) as [b' [B1 [B2 B3]]].
  { clear - EB Q2. destruct b as [? b], r as [? r]. cbn in EB, Q2. subst. eexists. split; [legs; reflexivity|]. split; [reflexivity|]. intros. legs. reflexivity. }
  rewrite B1. cbn [bind]. exists q, b', K. split; [reflexivity|]. split; [exact Q1|]. split; [exact B2|]. split; [|exact Q3].
  destruct (ten_dims R _ _ _ _ Q1) as [P0 [P1 P2]]. destruct (ten_dims R _ _ _ _ B2) as [R0 [R1 R2]]. destruct (ten_dims R _ _ _ _ EA) as [U0 [U1 U2]].
  split; try congruence. intros x s s' y Hx Hs Hs' Hy. unfold EffHamSpec.two_site. rewrite P2, U2. cbn [el Legs.ten_of].
  transitivity (sumn K (fun k => sumn D (fun j => ge q [x; s; k] *r ge r [k; j] *r ge b [j; s'; y]))).
  { apply s_ext. intros k _. rewrite B3, s_mul_l. apply s_ext. intros. ring. }
  rewrite s_swap. apply s_ext. intros j Hj. rewrite Q4 by auto. symmetry. apply s_mul_r.
Qed.

(** *** index combiners *)
Definition comb (d e : nat) : gten := mkG R [d; e; d * e] (fun x => if (fused_1 (nth 2 x 0) e =? nth 0 x 0) && (fused_2 (nth 2 x 0) e =? nth 1 x 0) then r1 else r0).
Let cmb i j k e := if (fused_1 k e =? i) && (fused_2 k e =? j) then r1 else r0.
Lemma fuse_lt : forall d e i j, i < d -> j < e -> i * e + j < d * e. Proof. intros. nia. Qed.
Lemma fuse_1 : forall e i j, j < e -> fused_1 (i * e + j) e = i /\ fused_2 (i * e + j) e = j.
Proof. intros e i j H. unfold fused_1, fused_2. split; [rewrite Nat.div_add_l, Nat.div_small by lia; lia|rewrite Nat.add_comm, Nat.mod_add, Nat.mod_small by lia; reflexivity]. Qed.
Lemma fuse_back : forall d e k, k < d * e -> fused_1 k e < d /\ fused_2 k e < e /\ k = fused_1 k e * e + fused_2 k e.
Proof.
  intros d e k H. assert (e <> 0) by nia. unfold fused_1, fused_2. split; [apply Nat.div_lt_upper_bound; nia|]. split; [apply Nat.mod_upper_bound; assumption|]. rewrite (Nat.div_mod k e) at 1 by assumption. lia.
Qed.
Lemma cmb_delta : forall d e i j k, i < d -> j < e -> k < d * e -> cmb i j k e = delta (i * e + j) k.
Proof.
  intros d e i j k Hi Hj Hk. unfold cmb, FmpsSpec.delta. destruct (fuse_back d e k Hk) as [A [B C]].
  destruct (Nat.eqb_spec (i * e + j) k) as [E|E].
  - subst k. destruct (fuse_1 e i j Hj) as [-> ->]. rewrite !Nat.eqb_refl. reflexivity.
  - destruct (Nat.eqb_spec (fused_1 k e) i) as [E1|]; [|reflexivity]. destruct (Nat.eqb_spec (fused_2 k e) j) as [E2|]; [|reflexivity]. subst. congruence.
Qed.
(** sums over pairs *)
Lemma pick2 : forall d e k f, k < d * e -> sumn d (fun i => sumn e (fun j => cmb i j k e *r f i j)) = f (fused_1 k e) (fused_2 k e).
Proof.
  intros d e k f H. destruct (fuse_back d e k H) as [A [B C]].
  transitivity (sumn d (fun i => f i (fused_2 k e) *r delta (fused_1 k e) i)); [|apply (s_pick d (fused_1 k e) (fun i => f i (fused_2 k e)) A)].
  apply s_ext. intros i Hi. transitivity (sumn e (fun j => (f i j *r delta (fused_1 k e) i) *r delta (fused_2 k e) j)); [|apply (s_pick e (fused_2 k e) (fun j => f i j *r delta (fused_1 k e) i) B)].
  apply s_ext. intros j Hj. unfold cmb, FmpsSpec.delta. destruct (fused_1 k e =? i), (fused_2 k e =? j); cbn [andb]; ring.
Qed.
Lemma comb_legs_ok : forall a D0 p1 D, gd a = [D0; p1; D] -> exists t, gcontract R r0 radd rmul [0; 1] [0; 1] (comb D0 p1) a = Ok t /\ gd t = [D0 * p1; D] /\
  forall k j, k < D0 * p1 -> ge t [k; j] = ge a [fused_1 k p1; fused_2 k p1; j].
Proof.
  intros a D0 p1 D EA.
  assert (exists t, gcontract R r0 radd rmul [0; 1] [0; 1] (comb D0 p1) a = Ok t /\ gd t = [D0 * p1; D] /\ forall k j, ge t [k; j] = sumn D0 (fun x => sumn p1 (fun s => cmb x s k p1 *r ge a [x; s; j]))) as [t [T1 [T2 T3]]].
  { clear - EA. unfold comb. generalize (D0 * p1). intros n. destruct a as [? a]. cbn in EA. subst. eexists. split; [legs; reflexivity|]. split; [reflexivity|]. intros. unfold cmb. legs. reflexivity. }
  exists t. split; [exact T1|]. split; [exact T2|]. intros k j Hk. rewrite T3. apply (pick2 D0 p1 k (fun x s => ge a [x; s; j]) Hk).
Qed.
Lemma combL_ok : forall a b D0 p1 D p2 D3, gd a = [D0; p1; D] -> gd b = [D; p2; D3] ->
  exists b', (let! t := gcontract R r0 radd rmul [0; 1] [0; 1] (comb D0 p1) a in let! b' := gcontract R r0 radd rmul [1] [0] t b in Ok (comb D0 p1, b')) = Ok (comb D0 p1, b') /\ gd b' = [D0 * p1; p2; D3] /\
  splits D0 p1 p2 D3 (two_site (ten_of a) (ten_of b)) (ten_of (comb D0 p1)) (ten_of b') /\ left_canonical (ten_of (comb D0 p1)).
Proof.
  intros a b D0 p1 D p2 D3 EA EB. destruct (comb_legs_ok a D0 p1 D EA) as [t [T1 [T2 T3]]].
  assert (exists b', gcontract R r0 radd rmul [1] [0] t b = Ok b' /\ gd b' = [D0 * p1; p2; D3] /\ forall k s y, ge b' [k; s; y] = sumn D (fun j => ge t [k; j] *r ge b [j; s; y])) as [b' [B1 [B2 B3]]].
  { clear - EB T2. revert T2. generalize (D0 * p1). intros n T2. destruct b as [? b], t as [? t]. cbn in EB, T2. subst. eexists. split; [legs; reflexivity|]. split; [reflexivity|]. intros. legs. reflexivity. }
  rewrite T1. cbn [bind]. rewrite B1. cbn [bind]. exists b'. split; [reflexivity|]. split; [exact B2|].
  destruct (ten_dims R _ _ _ _ B2) as [R0 [R1 R2]]. destruct (ten_dims R _ _ _ _ EA) as [U0 [U1 U2]].
  split.
  - split; try reflexivity; try congruence; [cbn [comb d2 Legs.ten_of Legs.gd nth]; congruence|]. intros x s s' y Hx Hs Hs' Hy. unfold EffHamSpec.two_site. rewrite U2. cbn [comb d2 el Legs.ten_of Legs.gd Legs.ge nth].
    change (sumn (D0 * p1) (fun k => cmb x s k p1 *r ge b' [k; s'; y]) = sumn D (fun j => ge a [x; s; j] *r ge b [j; s'; y])).
    transitivity (sumn (D0 * p1) (fun k => ge b' [k; s'; y] *r delta (x * p1 + s) k)).
    { apply s_ext. intros k Hk. rewrite (cmb_delta D0 p1) by auto. ring. }
    assert (L := fuse_lt D0 p1 x s Hx Hs). rewrite (s_pick _ _ (fun k => ge b' [k; s'; y]) L), B3. apply s_ext. intros j _. rewrite T3 by exact L. destruct (fuse_1 p1 x s Hs) as [-> ->]. reflexivity.
  - intros k k' Hk Hk'. cbn [comb d0 d1 d2 el Legs.ten_of Legs.gd Legs.ge nth] in *.
    change (sumn D0 (fun x => sumn p1 (fun s => conj (cmb x s k p1) *r cmb x s k' p1)) = delta k k').
    transitivity (sumn D0 (fun x => sumn p1 (fun s => cmb x s k p1 *r cmb x s k' p1))).
    { apply s_ext. intros x _. apply s_ext. intros s _. f_equal. unfold cmb. destruct (_ && _); auto. }
    rewrite (pick2 D0 p1 k (fun x s => cmb x s k' p1) Hk). destruct (fuse_back D0 p1 k Hk) as [A [B C]]. rewrite (cmb_delta D0 p1) by auto. rewrite <- C. reflexivity.
Qed.
Lemma combR_ok : forall b a D0 p1 D p2 D3, gd b = [D0; p1; D] -> gd a = [D; p2; D3] ->
  exists b' c, (let! c := gtrans R [2; 0; 1] (comb p2 D3) in let! t := gcontract R r0 radd rmul [1; 2] [1; 2] a (gdag R conj c) in let! b' := gcontract R r0 radd rmul [2] [0] b t in Ok (b', c)) = Ok (b', c) /\
  gd b' = [D0; p1; p2 * D3] /\ gd c = [p2 * D3; p2; D3] /\ exists m, moved m (ten_of b) (ten_of a) (ten_of b') (ten_of c).
Proof.
  intros b a D0 p1 D p2 D3 EB EA.
  assert (exists c, gtrans R [2; 0; 1] (comb p2 D3) = Ok c /\ gd c = [p2 * D3; p2; D3] /\ forall k s y, ge c [k; s; y] = cmb s y k D3) as [c [C1 [C2 C3]]].
  { unfold comb. generalize (p2 * D3). intros n. eexists. split; [legs; reflexivity|]. split; [reflexivity|]. intros. unfold cmb. legs. reflexivity. }
  assert (exists t, gcontract R r0 radd rmul [1; 2] [1; 2] a (gdag R conj c) = Ok t /\ gd t = [D; p2 * D3] /\ forall j k, ge t [j; k] = sumn p2 (fun s => sumn D3 (fun y => ge a [j; s; y] *r conj (ge c [k; s; y])))) as [t [T1 [T2 T3]]].
  { clear - EA C2. revert C2. generalize (p2 * D3). intros n C2. destruct a as [? a], c as [? c]. cbn in EA, C2. subst. eexists. split; [legs; reflexivity|]. split; [reflexivity|]. intros. legs. reflexivity. }
  assert (exists b', gcontract R r0 radd rmul [2] [0] b t = Ok b' /\ gd b' = [D0; p1; p2 * D3] /\ forall x s k, ge b' [x; s; k] = sumn D (fun j => ge b [x; s; j] *r ge t [j; k])) as [b' [B1 [B2 B3]]].
  { clear - EB T2. revert T2. generalize (p2 * D3). intros n T2. destruct b as [? b], t as [? t]. cbn in EB, T2. subst. eexists. split; [legs; reflexivity|]. split; [reflexivity|]. intros. legs. reflexivity. }
  rewrite C1. cbn [bind]. rewrite T1. cbn [bind]. rewrite B1. cbn [bind]. exists b', c. split; [reflexivity|]. split; [exact B2|]. split; [exact C2|]. exists (fun j k => ge t [j; k]).
  assert (T4 : forall j k, k < p2 * D3 -> ge t [j; k] = ge a [j; fused_1 k D3; fused_2 k D3]).
  { intros j k Hk. rewrite T3. rewrite <- (pick2 p2 D3 k (fun s y => ge a [j; s; y]) Hk). apply s_ext. intros s _. apply s_ext. intros y _. rewrite C3. unfold cmb. destruct (_ && _); rewrite ?conj1, ?conj0; ring. }
  destruct (ten_dims R _ _ _ _ B2) as [P0 [P1 P2]]. destruct (ten_dims R _ _ _ _ C2) as [R0 [R1 R2]]. destruct (ten_dims R _ _ _ _ EB) as [U0 [U1 U2]]. destruct (ten_dims R _ _ _ _ EA) as [V0 [V1 V2]].
  unfold moved. repeat split; try congruence.
  - intros k k' Hk Hk'. rewrite R0 in Hk, Hk'. rewrite R1, R2. cbn [el Legs.ten_of].
    transitivity (sumn p2 (fun s => sumn D3 (fun y => cmb s y k D3 *r cmb s y k' D3))).
    { rewrite s_swap. apply s_ext. intros s _. apply s_ext. intros y _. rewrite !C3. f_equal. unfold cmb. destruct (_ && _); auto. }
    rewrite (pick2 p2 D3 k (fun s y => cmb s y k' D3) Hk). destruct (fuse_back p2 D3 k Hk) as [A [B C]]. rewrite (cmb_delta p2 D3) by auto. rewrite <- C. reflexivity.
  - intros x s k _ _ _. rewrite U2. cbn [el Legs.ten_of]. apply B3.
  - intros j s y Hj Hs Hy. rewrite V1 in Hs. rewrite V2 in Hy. rewrite R0. cbn [el Legs.ten_of]. assert (L := fuse_lt p2 D3 s y Hs Hy).
    transitivity (sumn (p2 * D3) (fun k => ge t [j; k] *r delta (s * D3 + y) k)).
    + rewrite (s_pick _ _ (fun k => ge t [j; k]) L), T4 by exact L. destruct (fuse_1 D3 s y Hy) as [-> ->]. reflexivity.
    + apply s_ext. intros k Hk. rewrite C3, (cmb_delta p2 D3) by auto. reflexivity.
Qed.
End Facts.
