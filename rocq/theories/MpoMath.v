(** An MPO seen as a chain of tensors with one leg for the pairs of physical indices; matrices between tensors. *)
From Coq Require Import List Arith Lia Bool ZArith Reals Lra Ring.
From Verif Require Import Base CoefOpAlg Numeric FiniteMps FmpsSpec FmpsFacts EffHam EffHamSpec EffHamFacts ChainSpec ChainFacts ChainOne MeasureFacts FinMpo FinMpoSpec FinMpoFacts Cx GVec DmrgStep
  TruncMps TruncMpsSpec TruncMpsMath TruncMpsFacts MpoCano MpoCanoSpec.
Import ListNotations.
Local Open Scope nat_scope.

Definition fuse (t : c4) : cten := mkTen (m0 t) (m1 t * m2 t) (m3 t) (fun a s b => e4 t a (s / m2 t) (s mod m2 t) b).
Notation fz := (map fuse).

Lemma pairs : forall m n (f : nat -> nat -> cx), lsum (seq 0 (m * n)) (fun k => f (k / n) (k mod n)) = lsum (seq 0 m) (fun i => lsum (seq 0 n) (fun j => f i j)).
Proof.
  intros m n f. destruct n as [|n].
  - rewrite Nat.mul_0_r. cbn [seq]. symmetry. apply (EffHamFacts.lsum_0 cx c0 c1 cadd cmul csub copp cx_ring). reflexivity.
  - rewrite <- sumn_lsum. rewrite (FinMpoFacts.s_flat cx c0 c1 cadd cmul csub copp cx_ring m (S n) f) by lia.
    rewrite sumn_lsum. apply lsum_ext. intros. apply sumn_lsum.
Qed.
Lemma left4_fuse : forall t, left4 t <-> lcan (fuse t).
Proof.
  assert (E : forall t k k', ssum (d0 (fuse t)) (fun l => ssum (d1 (fuse t)) (fun s => cmul (cconj (el (fuse t) l s k)) (el (fuse t) l s k'))) =
    ssum (m0 t) (fun l => ssum (m1 t) (fun s => ssum (m2 t) (fun s' => cmul (cconj (e4 t l s s' k)) (e4 t l s s' k'))))).
  { intros t k k'. cbn [fuse d0 d1 el]. rewrite !sumn_lsum. apply lsum_ext. intros l _. rewrite !sumn_lsum.
    rewrite (pairs (m1 t) (m2 t) (fun s s' => cmul (cconj (e4 t l s s' k)) (e4 t l s s' k'))). apply lsum_ext. intros. symmetry. apply sumn_lsum. }
  intros t. split; intros H k k' Hk Hk'; [rewrite E|rewrite <- E]; apply H; auto.
Qed.
Lemma right4_fuse : forall t, right4 t <-> rcan (fuse t).
Proof.
  assert (E : forall t k k', ssum (d2 (fuse t)) (fun r => ssum (d1 (fuse t)) (fun s => cmul (cconj (el (fuse t) k s r)) (el (fuse t) k' s r))) =
    ssum (m3 t) (fun r => ssum (m1 t) (fun s => ssum (m2 t) (fun s' => cmul (cconj (e4 t k s s' r)) (e4 t k' s s' r))))).
  { intros t k k'. cbn [fuse d2 d1 el]. rewrite !sumn_lsum. apply lsum_ext. intros l _. rewrite !sumn_lsum.
    rewrite (pairs (m1 t) (m2 t) (fun s s' => cmul (cconj (e4 t k s s' l)) (e4 t k' s s' l))). apply lsum_ext. intros. symmetry. apply sumn_lsum. }
  intros t. split; intros H k k' Hk Hk'; [rewrite E|rewrite <- E]; apply H; auto.
Qed.
Lemma ten2_fuse : forall t, ten2 t = fst (frob (fuse t)).
Proof.
  intros t. unfold ten2. f_equal. rewrite frob_lsum. cbn [fuse d0 d1 d2 el]. rewrite sumn_lsum. apply lsum_ext. intros a _.
  rewrite (pairs (m1 t) (m2 t) (fun s s' => lsum (seq 0 (m3 t)) (fun y => cmul (cconj (e4 t a s s' y)) (e4 t a s s' y)))).
  rewrite sumn_lsum. apply lsum_ext. intros s _. rewrite sumn_lsum. apply lsum_ext. intros s' _. apply sumn_lsum.
Qed.
Lemma nonzero4_fuse : forall t, nonzero4 t <-> fst (frob (fuse t)) <> 0%R.
Proof.
  intros t. rewrite <- frob_nz. split.
  - intros [a [s [s' [b [Ha [Hs [Hs' [Hb H]]]]]]]]. exists a, (s * m2 t + s'), b. cbn [fuse d0 d1 d2 el].
    assert (m2 t <> 0) by lia. rewrite Nat.div_add_l by lia. rewrite (Nat.div_small s') by lia. rewrite Nat.add_0_r.
    rewrite (Nat.add_comm _ s'), Nat.mod_add by lia. rewrite (Nat.mod_small s') by lia. repeat split; auto. nia.
  - intros [a [s [b [Ha [Hs [Hb H]]]]]]. cbn [fuse d0 d1 d2 el] in *. assert (m2 t <> 0) by nia. exists a, (s / m2 t), (s mod m2 t), b. repeat split; auto.
    + apply Nat.div_lt_upper_bound; lia.
    + apply Nat.mod_upper_bound. auto.
Qed.
Lemma fuse_m4 : forall m t t', contract_m4 m t = Ok t' -> contract_mt cx c0 cadd cmul m (fuse t) = Ok (fuse t') /\ m0 t' = n0 m /\ m1 t' = m1 t /\ m2 t' = m2 t /\ m3 t' = m3 t.
Proof. intros m t t' E. unfold contract_m4 in E. unfold contract_mt. cbn [fuse d0]. destruct (_ =? _); [|discriminate]. injection E as <-. cbn. auto. Qed.
Lemma fuse_4m : forall m t t', contract_4m t m = Ok t' -> contract_tm0 cx c0 cadd cmul (fuse t) m = Ok (fuse t') /\ m0 t' = m0 t /\ m1 t' = m1 t /\ m2 t' = m2 t /\ m3 t' = n1 m.
Proof. intros m t t' E. unfold contract_4m in E. unfold contract_tm0. cbn [fuse d2]. destruct (_ =? _); [|discriminate]. injection E as <-. cbn. auto. Qed.

(** *** configurations of pairs *)
Fixpoint code (ds c c' : list nat) : list nat := match ds, c, c' with d :: ds, s :: c, s' :: c' => (s * d + s') :: code ds c c' | _, _, _ => [] end.
Lemma code_elem : forall ts c c' x y, length c = length ts -> Forall2 (fun s d => s < d) c' (map (@m2 cx) ts) ->
  o4_mat cx c0 c1 cadd cmul ts c c' x y = mm (fz ts) (code (map (@m2 cx) ts) c c') x y.
Proof.
  induction ts as [|t ts IH]; intros [|s c] c' x y HL HF; try discriminate; inversion HF as [|s' d c'' ds H1 H2]; subst; cbn [map code o4_mat mps_mat]; [reflexivity|].
  cbn [fuse d2 el]. apply (sumn_ext cx c0 cadd). intros z Hz. rewrite <- IH by (cbn in HL; auto).
  rewrite Nat.div_add_l, Nat.div_small, Nat.add_0_r by lia. rewrite (Nat.add_comm _ s'), Nat.mod_add, Nat.mod_small by lia. reflexivity.
Qed.
Lemma code_sum : forall ds f, lsum (configs ds) (fun c => lsum (configs ds) (fun c' => f (code ds c c'))) = lsum (configs (map (fun d => d * d) ds)) f.
Proof.
  induction ds as [|d ds IH]; intros f.
  - cbn. ring.
  - cbn [map]. change (d :: ds) with ([d] ++ ds) at 1 2. change (d * d :: map (fun d => d * d) ds) with ([d * d] ++ map (fun d => d * d) ds).
    rewrite !configs_app, !configs_one.
    transitivity (lsum (seq 0 d) (fun s => lsum (seq 0 d) (fun s' => lsum (configs ds) (fun c => lsum (configs ds) (fun c' => f ((s * d + s') :: code ds c c')))))).
    + apply lsum_ext. intros s _. etransitivity; [|apply lsum_swap]. apply lsum_ext. intros c _. rewrite configs_app, configs_one. reflexivity.
    + transitivity (lsum (seq 0 d) (fun s => lsum (seq 0 d) (fun s' => lsum (configs (map (fun d => d * d) ds)) (fun k => f ((s * d + s') :: k))))).
      { apply lsum_ext. intros s _. apply lsum_ext. intros s' _. apply (IH (fun k => f ((s * d + s') :: k))). }
      rewrite <- (pairs d d (fun s s' => lsum (configs (map (fun d => d * d) ds)) (fun k => f ((s * d + s') :: k)))).
      apply lsum_ext. intros k Hk. apply in_seq in Hk. apply lsum_ext. intros c _. cbn [app]. f_equal. f_equal. rewrite (Nat.mul_comm (k / d)). symmetry. apply Nat.div_mod. nia.
Qed.
Lemma code_in : forall ds c c', In c (configs ds) -> In c' (configs ds) -> In (code ds c c') (configs (map (fun d => d * d) ds)).
Proof.
  induction ds as [|d ds IH]; intros c c' H H'; [left; reflexivity|].
  apply in_configs_nil in H. apply in_configs_nil in H'. destruct H as [s [k [-> [Hs Hk]]]], H' as [s' [k' [-> [Hs' Hk']]]].
  cbn [map code]. apply in_configs_cons. split; [nia|auto].
Qed.
Lemma oper_dims : forall ds ts, oper_on cx ds ts -> dims (fz ts) = map (fun d => d * d) ds.
Proof.
  intros ds ts [_ [H1 H2]]. revert ds H1 H2. induction ts as [|t ts IH]; intros ds H1 H2; cbn [map] in *; subst; [reflexivity|].
  injection H2 as E1 E2. cbn [map]. f_equal; [cbn [fuse d1]; rewrite E1; reflexivity|]. apply IH; auto.
Qed.
Lemma elem_code : forall ds ts c c', oper_on cx ds ts -> In c (configs ds) -> In c' (configs ds) -> melem ts c c' = mm (fz ts) (code ds c c') 0 0.
Proof.
  intros ds ts c c' [_ [H1 H2]] Hc Hc'. unfold melem, elem. rewrite <- H2 at 1. apply code_elem.
  - apply configs_len in Hc. rewrite Hc, <- H1, map_length. reflexivity.
  - rewrite H2. apply cfg_in. exact Hc'.
Qed.
Lemma fit4_fuse : forall ts x y, fit4 cx x ts y <-> cfit x (fz ts) y.
Proof. induction ts as [|t ts IH]; intros x y; cbn; [tauto|]. rewrite IH. tauto. Qed.
Lemma hs_fuse : forall ds A B, oper_on cx ds A -> oper_on cx ds B -> hs ds (melem A) (melem B) = inner (fz A) (fz B).
Proof.
  intros ds A B HA HB. unfold hs, csum_l, inner, basis, total. rewrite (oper_dims ds B HB).
  etransitivity; [|exact (code_sum ds (fun s => cmul (cconj (amplitude (fz A) s)) (amplitude (fz B) s)))].
  apply lsum_ext. intros c Hc. apply lsum_ext. intros c' Hc'. rewrite (elem_code ds A), (elem_code ds B) by auto. reflexivity.
Qed.
Lemma hs_any : forall ds (F G : coper) f g, (forall c c', In c (configs ds) -> In c' (configs ds) -> F c c' = f (code ds c c')) ->
  (forall c c', In c (configs ds) -> In c' (configs ds) -> G c c' = g (code ds c c')) ->
  hs ds F G = lsum (configs (map (fun d => d * d) ds)) (fun k => cmul (cconj (f k)) (g k)).
Proof.
  intros ds F G f g HF HG. rewrite <- (code_sum ds (fun k => cmul (cconj (f k)) (g k))). unfold hs, csum_l. apply lsum_ext. intros c Hc. apply lsum_ext. intros c' Hc'.
  rewrite HF, HG by auto. reflexivity.
Qed.

(** *** a matrix between two parts of a chain *)
(** p' is p times m; r is m times r' *)
Definition times (p p' : cten) (m : nat -> nat -> cx) (n : nat) : Prop := d0 p' = d0 p /\ d1 p' = d1 p /\ d2 p' = n /\
  forall x s k, x < d0 p -> s < d1 p -> k < n -> el p' x s k = lsum (seq 0 (d2 p)) (fun j => cmul (el p x s j) (m j k)).
Definition of_times (r r' : list cten) (m : nat -> nat -> cx) (D n : nat) : Prop := dims r' = dims r /\
  forall c j y, In c (configs (dims r)) -> j < D -> mm r c j y = lsum (seq 0 n) (fun k => cmul (m j k) (mm r' c k y)).
Lemma tm0_times : forall p m p', contract_tm0 cx c0 cadd cmul p m = Ok p' -> times p p' (me m) (n1 m).
Proof.
  intros p m p' E. unfold contract_tm0 in E. destruct (_ =? _); [|discriminate]. injection E as <-. repeat split. intros x s k _ _ _. cbn [el]. apply sumn_lsum.
Qed.
Lemma join : forall p p' m n r r' c x y, times p p' m n -> of_times r r' m (d2 p) n -> In c (configs (dims (p :: r))) -> x < d0 p -> mm (p' :: r') c x y = mm (p :: r) c x y.
Proof.
  intros p p' m n r r' c x y [_ [T1 [T2 T3]]] [_ O] HC Hx. apply in_configs_nil in HC. destruct HC as [s [c' [-> [Hs HC]]]]. cbn [mps_mat]. rewrite !sumn_lsum, T2.
  transitivity (lsum (seq 0 n) (fun k => lsum (seq 0 (d2 p)) (fun j => cmul (el p x s j) (cmul (m j k) (mm r' c' k y))))).
  - apply lsum_ext. intros k Hk. apply in_seq in Hk. rewrite T3 by lia. rewrite lsum_mul_r. apply lsum_ext. intros. ring.
  - etransitivity; [apply lsum_swap|]. apply lsum_ext. intros j Hj. apply in_seq in Hj. rewrite O by (auto; lia). rewrite lsum_mul_l. reflexivity.
Qed.
Lemma join_chain : forall l p p' m n r r' c y, cfit 1 l (d0 p) -> times p p' m n -> of_times r r' m (d2 p) n -> In c (configs (dims (l ++ p :: r))) ->
  mm (l ++ p' :: r') c 0 y = mm (l ++ p :: r) c 0 y.
Proof.
  intros l p p' m n r r' c y HF HT HO HC. rewrite map_app in HC. apply cfg_in, Forall2_app_inv_r in HC. destruct HC as [c1' [c2' [H1 [H2 ->]]]].
  assert (L1 : length c1' = length l) by (rewrite (MeasureFacts.Forall2_len _ _ _ _ _ H1), map_length; reflexivity).
  rewrite (mps_mat_app l (p' :: r') c1' c2' 1 (d0 p) 0 y HF ltac:(lia) L1), (mps_mat_app l (p :: r) c1' c2' 1 (d0 p) 0 y HF ltac:(lia) L1).
  apply lsum_ext. intros z Hz. apply in_seq in Hz. f_equal. eapply join; [exact HT|exact HO|apply cfg_in; exact H2|lia].
Qed.
