(** The singular values at a bond of a canonical chain diagonalise the reduced density matrix. *)
From Coq Require Import List Arith Lia Bool Reals Lra Ring.
From Verif Require Import Base FiniteMps FmpsSpec FmpsFacts EffHam EffHamSpec EffHamFacts ChainSpec ChainFacts ChainOne FinMpoFacts MeasureFacts Cx GVec DmrgStep TruncMps TruncMpsSpec TruncMpsMath EntropyMps EntropySpec EntropyMath.
Import ListNotations.
Local Open Scope nat_scope.

(** *** sums over some of the indices *)
Lemma lsum_nth : forall (ks : list nat) f, lsum (seq 0 (length ks)) (fun j => f (nth j ks 0%nat)) = lsum ks f.
Proof.
  induction ks as [|k ks IH]; intros f; [reflexivity|]. cbn [length seq]. change (cadd (f k) (lsum (seq 1 (length ks)) (fun j => f (nth j (k :: ks) 0))) = cadd (f k) (lsum ks f)).
  f_equal. rewrite <- seq_shift, (EffHamFacts.lsum_map cx c0 cadd). cbn [nth]. apply IH.
Qed.
Lemma lsum_filter : forall (P : nat -> bool) l f, (forall k, In k l -> P k = false -> f k = c0) -> lsum (filter P l) f = lsum l f.
Proof.
  induction l as [|k l IH]; intros f H; [reflexivity|]. cbn [filter]. change (lsum (k :: l) f) with (cadd (f k) (lsum l f)). destruct (P k) eqn:E.
  - change (cadd (f k) (lsum (filter P l) f) = cadd (f k) (lsum l f)). rewrite IH; [reflexivity|]. intros; apply H; [right|]; auto.
  - rewrite IH by (intros; apply H; [right|]; auto). rewrite (H k (or_introl eq_refl) E). ring.
Qed.
Lemma lsum_sq_zero : forall A (l : list A) (f : A -> cx), lsum l (fun x => cmul (cconj (f x)) (f x)) = c0 -> forall x, In x l -> f x = c0.
Proof.
  intros A l f. assert (P : forall l, (0 <= fst (lsum l (fun x => cmul (cconj (f x)) (f x))))%R).
  { induction l0 as [|y l0 IH]; [cbn; lra|]. change (0 <= fst (cmul (cconj (f y)) (f y)) + fst (lsum l0 (fun x => cmul (cconj (f x)) (f x))))%R.
    assert (0 <= fst (cmul (cconj (f y)) (f y)))%R by (unfold cmul, cconj; cbn [fst snd]; nra). lra. }
  induction l as [|y l IH]; intros E x Hx; [destruct Hx|]. specialize (P l).
  assert (E1 : (fst (cmul (cconj (f y)) (f y)) + fst (lsum l (fun x => cmul (cconj (f x)) (f x))) = 0)%R) by exact (f_equal fst E).
  assert (E2 : (snd (cmul (cconj (f y)) (f y)) + snd (lsum l (fun x => cmul (cconj (f x)) (f x))) = 0)%R) by exact (f_equal snd E).
  assert (S0 : snd (cmul (cconj (f y)) (f y)) = 0%R) by (unfold cmul, cconj; cbn [fst snd]; ring).
  assert (Q : fst (cmul (cconj (f y)) (f y)) = (fst (f y) * fst (f y) + snd (f y) * snd (f y))%R) by (unfold cmul, cconj; cbn [fst snd]; ring).
  destruct Hx as [<-|Hx].
  - assert (D : fst (f y) = 0%R /\ snd (f y) = 0%R) by (split; nra). destruct (f y) as [u v]. cbn [fst snd] in D. destruct D as [-> ->]. reflexivity.
  - apply IH; [|exact Hx]. assert (Z1 : fst (lsum l (fun x => cmul (cconj (f x)) (f x))) = 0%R) by nra.
    assert (Z2 : snd (lsum l (fun x => cmul (cconj (f x)) (f x))) = 0%R) by lra.
    rewrite (surjective_pairing (lsum l (fun x => cmul (cconj (f x)) (f x)))), Z1, Z2. reflexivity.
Qed.

(** a diagonal form gives a spectral decomposition *)
Lemma diag_spectral : forall psi ds i p A, diagonal psi ds i p A -> Forall (fun x => (0 <= x)%R) p -> exists q v, spectral psi ds i q v.
Proof.
  intros psi ds i p A [O D] HP. set (P := fun k => if Req_EM_T (nth k p 0%R) 0 then false else true).
  set (ks := filter P (seq 0 (length p))).
  assert (KS : forall j, j < length ks -> nth j ks 0%nat < length p /\ nth (nth j ks 0%nat) p 0%R <> 0%R).
  { intros j Hj. pose proof (nth_In ks 0 Hj) as I. unfold ks in I. apply filter_In in I. destruct I as [I1 I2]. apply in_seq in I1. fold ks in I1, I2. split; [lia|].
    unfold P in I2. destruct (Req_EM_T _ _); [discriminate|auto]. }
  assert (N : forall k, (0 <= nth k p 0)%R).
  { intros k. destruct (Nat.lt_ge_cases k (length p)); [|rewrite nth_overflow by auto; lra]. rewrite Forall_forall in HP. apply HP, nth_In. auto. }
  set (pk := fun k => nth k p 0%R).
  exists (map pk ks), (fun j c => cmul (cre (/ sqrt (pk (nth j ks 0%nat)))) (A (nth j ks 0%nat) c)).
  assert (MN : forall j, j < length ks -> nth j (map pk ks) 0%R = pk (nth j ks 0%nat)).
  { intros j Hj. rewrite (nth_indep _ 0%R (pk 0)) by (rewrite map_length; auto). apply map_nth. }
  assert (SQ : forall j, j < length ks -> (0 < sqrt (pk (nth j ks 0%nat)))%R /\ (sqrt (pk (nth j ks 0%nat)) * sqrt (pk (nth j ks 0%nat)) = pk (nth j ks 0%nat))%R).
  { intros j Hj. destruct (KS j Hj) as [_ K]. specialize (N (nth j ks 0%nat)). fold (pk (nth j ks 0%nat)) in K, N. split; [apply sqrt_lt_R0; lra|apply sqrt_sqrt; lra]. }
  constructor.
  - apply Forall_forall. intros x Hx. apply in_map_iff in Hx. destruct Hx as [k [<- _]]. apply N.
  - rewrite map_length. intros j k Hj Hk. destruct (KS j Hj) as [J1 J2], (KS k Hk) as [K1 K2].
    transitivity (cmul (cmul (cre (/ sqrt (pk (nth j ks 0%nat)))) (cre (/ sqrt (pk (nth k ks 0%nat))))) (lsum (left_states ds i) (fun c => cmul (cconj (A (nth j ks 0%nat) c)) (A (nth k ks 0%nat) c)))).
    { rewrite lsum_mul_l. apply lsum_ext. intros. rewrite cconj_mul, cconj_cre. ring. }
    rewrite (O _ _ J1 K1). destruct (Nat.eqb_spec j k) as [->|NE].
    + rewrite Nat.eqb_refl. fold (pk (nth k ks 0%nat)). destruct (SQ k Hk) as [S1 S2]. rewrite <- S2 at 3. rewrite <- !cre_mul, <- cre_1. f_equal. field. lra.
    + destruct (Nat.eqb_spec (nth j ks 0%nat) (nth k ks 0%nat)) as [E|_]; [|ring]. exfalso. apply NE.
      assert (ND : NoDup ks) by (apply NoDup_filter, seq_NoDup). apply (proj1 (NoDup_nth ks 0) ND j k Hj Hk E).
  - intros c c' Hc Hc'. rewrite (D c c' Hc Hc'). rewrite map_length.
    rewrite <- (lsum_filter P). fold ks.
    + rewrite <- lsum_nth. apply lsum_ext. intros j Hj. apply in_seq in Hj. rewrite MN by lia. destruct (SQ j ltac:(lia)) as [S1 S2].
      rewrite cconj_mul, cconj_cre. rewrite <- S2 at 1. rewrite cre_mul.
      assert (E : cmul (cre (sqrt (pk (nth j ks 0%nat)))) (cre (/ sqrt (pk (nth j ks 0%nat)))) = c1) by (rewrite <- cre_mul, <- cre_1; f_equal; field; lra).
      transitivity (cmul (cmul (cmul (cre (sqrt (pk (nth j ks 0%nat)))) (cre (/ sqrt (pk (nth j ks 0%nat))))) (cmul (cre (sqrt (pk (nth j ks 0%nat)))) (cre (/ sqrt (pk (nth j ks 0%nat)))))) (cmul (A (nth j ks 0%nat) c) (cconj (A (nth j ks 0%nat) c')))); [rewrite E; ring|ring].
    + intros k Hk HZ. apply in_seq in Hk. unfold P in HZ. destruct (Req_EM_T (nth k p 0%R) 0) as [Z|]; [|discriminate].
      assert (O0 : lsum (left_states ds i) (fun c => cmul (cconj (A k c)) (A k c)) = c0) by (rewrite (O k k) by lia; rewrite Nat.eqb_refl, Z; reflexivity).
      rewrite (lsum_sq_zero _ _ _ O0 c Hc). ring.
Qed.

(** *** the Schmidt decomposition of a chain *)
Lemma schmidt_diag : forall psi ds l a r us vt s, cfit 1 l (d0 a) -> cfit (d2 a) r 1 -> Forall lcan l -> Forall rcan r -> schmidt_svd a (us, vt, s) ->
  dims (l ++ a :: r) = ds -> (forall c, In c (configs ds) -> psi c = mm (l ++ a :: r) c 0 0) ->
  exists A, diagonal psi ds (length l) (map prob s) A.
Proof.
  intros psi ds l a r us vt s HF HR HL HC [[U0 [U1 [V0 [V1 V2]]]] SR SX SL SP] HD HP.
  exists (fun k c => lsum (seq 0 (d0 a)) (fun x => cmul (mm l c 0 x) (me us x k))). set (A := fun k c => lsum (seq 0 (d0 a)) (fun x => cmul (mm l c 0 x) (me us x k))).
  assert (LS : left_states ds (length l) = configs (dims l)).
  { unfold left_states. f_equal. rewrite <- HD, map_app, firstn_app, map_length, Nat.sub_diag. cbn [firstn]. rewrite app_nil_r, <- (map_length (@d1 cx) l). apply firstn_all. }
  assert (RS : right_states ds (length l) = configs (dims (vt :: r))).
  { unfold right_states. f_equal. rewrite <- HD, map_app, skipn_app, map_length, Nat.sub_diag. rewrite <- (map_length (@d1 cx) l), skipn_all. cbn. rewrite V1. reflexivity. }
  pose proof (left_basis_ok cx c0 c1 cadd cmul csub copp cx_ring cconj cconj0 cconj1 cconj_add cconj_mul l (d0 a) HF HL) as LB.
  assert (RB : right_basis cx c0 c1 cadd cmul cconj (vt :: r) (length s)).
  { apply (right_basis_ok cx c0 c1 cadd cmul csub copp cx_ring cconj cconj0 cconj1 cconj_add cconj_mul); [cbn [EffHamSpec.fit]; split; [exact V0|rewrite V2; exact HR]|constructor; auto]. }
  assert (PR : forall k, k < length s -> cre (nth k (map prob s) 0%R) = cmul (nth k s c0) (nth k s c0)).
  { intros k Hk. rewrite (nth_indep _ 0%R (prob c0)) by (rewrite map_length; auto). rewrite map_nth. rewrite Forall_forall in SX. destruct (SX _ (nth_In s c0 Hk)) as [_ X].
    destruct (nth k s c0) as [x y]. cbn [snd] in X. subst y. unfold prob, cre, cmul. cbn [fst snd]. f_equal; ring. }
  assert (AB : forall c e, In c (configs (dims l)) -> In e (configs (dims (vt :: r))) -> psi (c ++ e) = lsum (seq 0 (length s)) (fun k => cmul (A k c) (mm (vt :: r) e k 0))).
  { intros c e Hc He. assert (LC : length c = length l) by (apply configs_len in Hc; rewrite map_length in Hc; auto).
    rewrite HP.
    2:{ rewrite <- HD. apply FinMpoFacts.cfg_in. apply FinMpoFacts.cfg_in in Hc. apply FinMpoFacts.cfg_in in He. rewrite map_app. apply Forall2_app; auto. cbn [map] in *. rewrite <- V1. exact He. }
    rewrite (mps_mat_app l (a :: r) c e 1 (d0 a) 0 0 HF ltac:(lia) LC).
    transitivity (lsum (seq 0 (d0 a)) (fun x => lsum (seq 0 (length s)) (fun k => cmul (cmul (mm l c 0 x) (me us x k)) (mm (vt :: r) e k 0)))).
    - apply lsum_ext. intros x Hx. apply in_seq in Hx. apply in_configs_nil in He. destruct He as [t [e' [-> [Ht He]]]]. cbn [mps_mat]. rewrite sumn_lsum, V2.
      transitivity (cmul (mm l c 0 x) (lsum (seq 0 (d2 a)) (fun z => lsum (seq 0 (length s)) (fun k => cmul (me us x k) (cmul (el vt k t z) (mm r e' z 0)))))).
      + f_equal. apply lsum_ext. intros z Hz. apply in_seq in Hz. rewrite (SP x t z) by lia. rewrite U1, sumn_lsum, lsum_mul_r. apply lsum_ext. intros. ring.
      + rewrite lsum_swap, lsum_mul_l. apply lsum_ext. intros k _. rewrite sumn_lsum, <- lsum_mul_l. ring.
    - rewrite lsum_swap. apply lsum_ext. intros k _. unfold A. rewrite lsum_mul_r. reflexivity. }
  split; rewrite map_length.
  - intros j k Hj Hk. rewrite LS.
    transitivity (lsum (configs (dims l)) (fun c => lsum (seq 0 (d0 a)) (fun x => lsum (seq 0 (d0 a)) (fun y => cmul (cmul (cconj (me us x j)) (me us y k)) (cmul (cconj (mm l c 0 x)) (mm l c 0 y)))))).
    { apply lsum_ext. intros c _. unfold A. rewrite lsum_conj, lsum_mul_r. apply lsum_ext. intros x _. rewrite lsum_mul_l. apply lsum_ext. intros y _. rewrite cconj_mul. ring. }
    etransitivity; [apply lsum_swap|].
    transitivity (lsum (seq 0 (d0 a)) (fun x => cmul (cconj (me us x j)) (me us x k))).
    2:{ rewrite <- U0, <- sumn_lsum, (SL j k Hj Hk). destruct (Nat.eqb_spec j k) as [->|]; [rewrite PR by auto|]; reflexivity. }
    etransitivity; [|apply (dbl cx c0 c1 cadd cmul csub copp cx_ring (d0 a) (fun x => cconj (me us x j)) (fun y => me us y k) (fun x y => lsum (configs (dims l)) (fun c => cmul (cconj (mm l c 0 x)) (mm l c 0 y))) LB)].
    apply lsum_ext. intros x _. etransitivity; [apply lsum_swap|]. apply lsum_ext. intros y _. rewrite lsum_mul_l. reflexivity.
  - intros c c' Hc Hc'. rewrite LS in Hc, Hc'. unfold rho. rewrite RS. change (@tot) with (fun A => EffHamSpec.lsum cx c0 cadd (A := A)). cbv beta.
    transitivity (lsum (configs (dims (vt :: r))) (fun e => lsum (seq 0 (length s)) (fun k => lsum (seq 0 (length s)) (fun j => cmul (cmul (A k c) (cconj (A j c'))) (cmul (cconj (mm (vt :: r) e j 0)) (mm (vt :: r) e k 0)))))).
    { apply lsum_ext. intros e He. rewrite (AB c e Hc He), (AB c' e Hc' He), lsum_conj, lsum_mul_r. apply lsum_ext. intros k _. rewrite lsum_mul_l. apply lsum_ext. intros j _. rewrite cconj_mul. ring. }
    etransitivity; [apply lsum_swap|].
    etransitivity; [|apply (dbl cx c0 c1 cadd cmul csub copp cx_ring (length s) (fun x => A x c) (fun y => cconj (A y c')) (fun x y => lsum (configs (dims (vt :: r))) (fun e => cmul (cconj (mm (vt :: r) e y 0)) (mm (vt :: r) e x 0))))].
    2:{ intros x y Hx Hy. rewrite (RB y x Hy Hx). unfold FmpsSpec.delta. rewrite Nat.eqb_sym. reflexivity. }
    apply lsum_ext. intros x _. etransitivity; [apply lsum_swap|]. apply lsum_ext. intros y _. rewrite lsum_mul_l. reflexivity.
Qed.
