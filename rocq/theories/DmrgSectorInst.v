(** Decompositions of DMRG that keep quantum numbers, and the hopping model of [SectorInst] as a matrix of operators. *)
From Coq Require Import List Arith Bool Lia ZArith Reals Lra Ring_theory.
From Verif Require Import Base Disk SweepSpec NoiseSpec Dmrg DmrgSpec FiniteMps FmpsSpec FmpsFacts EffHam EffHamSpec EffHamFacts ChainSpec ChainFacts Legs VmpsLocal Lanczos LanczosSpec Krylov KrylovSpec Cx GVec CorrInst DmrgUpdate DmrgStep DmrgVarSpec DmrgVar DmrgVarRun DmrgVarInst DmrgTrunc DmrgTruncSpec DmrgTruncFacts DmrgTruncInst TruncInst SectorSpec SectorFacts SectorInst DmrgSectorSpec.
Import ListNotations.
Local Open Scope nat_scope.

Section Moves.
Variables (G : Type) (q0 : G) (qadd : G -> G -> G) (qopp : G -> G).
Hypothesis QG : q_group q0 qadd qopp.
Variable ch : nat -> nat -> G.
Lemma mergeL_lab : forall bl i D p, d_lab3 G qadd ch bl i (fun k => qadd (bl (k / p)) (ch i (k mod p))) (mergeL D p).
Proof.
  intros bl i D p a s k Ha Hs Hk HN. cbn [mergeL d0 d1 d2 el] in *. unfold delta in HN. destruct (Nat.eqb_spec k (a * p + s)) as [EK|]; [|congruence]. destruct (divmod p a s Hs) as [D' M]. rewrite EK, D', M. reflexivity.
Qed.
Lemma mergeR_lab : forall br i p D, d_lab3 G qadd ch (fun k => qadd (br (k / p)) (qopp (ch i (k mod p)))) i br (mergeR p D).
Proof.
  intros br i p D k t b Hk Ht Hb HN. cbn [mergeR d0 d1 d2 el] in *. unfold delta in HN. destruct (Nat.eqb_spec k (b * p + t)) as [EK|]; [|congruence]. destruct (divmod p b t Ht) as [D' M]. rewrite EK, D', M.
  rewrite <- (qg_assoc _ _ _ QG), (qg_inv_l _ _ _ QG). apply (qg_r _ _ _ QG).
Qed.
Lemma xright_block : block_move G qadd ch xright.
Proof.
  intros bl m br i a b E HA HB. eexists. unfold xright, xsplit. cbn [fst snd]. split; [apply mergeL_lab|].
  intros k s y Hk Hs Hy HN. cbn [d0 d1 d2 el] in *. unfold two_site in HN. destruct (csum_nz _ _ HN) as [j [Hj NZ]]. destruct (mul_nz _ _ NZ) as [N1 N2]. assert (d1 a <> 0) by (intros Z; rewrite Z in Hk; lia).
  rewrite (HA (k / d1 a) (k mod d1 a) j); auto; [|apply Nat.div_lt_upper_bound; lia|apply Nat.mod_upper_bound; auto]. apply (HB j s y); auto. lia.
Qed.
Lemma xleft_block : block_move G qadd ch xleft.
Proof.
  intros bl m br i a b E HA HB. eexists. unfold xleft. cbn [fst snd]. split; [|apply mergeR_lab].
  intros x s k Hx Hs Hk HN. cbn [d0 d1 d2 el] in *. destruct (csum_nz _ _ HN) as [j [Hj NZ]]. destruct (mul_nz _ _ NZ) as [N1 N2]. assert (d1 b <> 0) by (intros Z; rewrite Z in Hk; lia).
  rewrite (HA x s j Hx Hs Hj N1). rewrite <- (HB j (k mod d1 b) (k / d1 b)); auto; [|lia|apply Nat.mod_upper_bound; auto|apply Nat.div_lt_upper_bound; lia].
  rewrite <- (qg_assoc _ _ _ QG), (qg_inv_r _ _ _ QG). symmetry. apply (qg_r _ _ _ QG).
Qed.
Lemma xsvd_block : d_block_svd G qadd ch xsvd.
Proof.
  intros bl i br D0 p1 p2 D3 x _ HL. eexists. eexists. unfold d_keeps, xsvd. split; [apply mergeL_lab|]. split; [apply mergeR_lab|]. cbn [mergeL mergeR d0 d2].
  intros k k' Hk Hk' HN. assert (p1 <> 0) by (intros ->; lia). assert (p2 <> 0) by (intros ->; lia).
  rewrite <- (HL (k / p1) (k mod p1) (k' mod p2) (k' / p2)); auto; try (apply Nat.mod_upper_bound; auto); try (apply Nat.div_lt_upper_bound; lia).
  rewrite <- !(qg_assoc _ _ _ QG), (qg_inv_r _ _ _ QG), (qg_r _ _ _ QG). reflexivity.
Qed.
Lemma t_svd_block : d_block_svd G qadd ch t_svd.
Proof.
  intros bl i br D0 p1 p2 D3 x NZ HL. destruct (r_blocks G qadd ch bl i br (t_arg D0 p1 p2 D3 x)) as [m [m' K]].
  - split; [reflexivity|exact NZ].
  - intros a s t b Ha Hs Ht Hb HN. exact (HL a s t b Ha Hs Ht Hb HN).
  - exists m, m'. unfold d_keeps, t_svd. unfold keeps_labels in K. unfold r_svd in *. cbv zeta in *. destruct K as [K1 [K2 K3]]. split; [|split].
    + intros a s b. exact (K1 a s b).
    + intros a s b. exact (K2 a s b).
    + intros k k' Hk Hk' HN. apply K3; auto.
Qed.
End Moves.

Definition hm_mpo (i : nat) : cmpo :=
  mkMpo cx (match i with 2 => 2 | _ => 1 end) (match i with 1 => 2 | _ => 1 end) (fun r c => match i with 1 => Some (if c =? 0 then oX else oY) | 2 => Some (if r =? 0 then oX else oY) | _ => Some oI end).
Lemma hm_proper : proper_mpo 3 hm_mpo [2; 2; 2].
Proof.
  assert (HI : forall s s', oI s s' = cconj (oI s' s)) by (intros; unfold oI, delta; rewrite (Nat.eqb_sym s'); destruct (s =? s'); symmetry; [apply cconj1|apply cconj0]).
  assert (HX : forall s s', oX s s' = cconj (oX s' s)) by (intros; unfold oX; rewrite (Nat.add_comm s'); destruct (s + s' =? 1); symmetry; [apply cconj1|apply cconj0]).
  assert (HY : forall s s', oY s s' = cconj (oY s' s)).
  { intros s s'. unfold oY. rewrite (Nat.add_comm s'). destruct (Nat.eqb_spec (s + s') 1) as [E|]; [|symmetry; apply cconj0]. destruct s as [|s], s' as [|s']; try lia; cbn [Nat.eqb]; unfold cconj; cbn [fst snd]; f_equal; ring. }
  split.
  - cbn. auto.
  - intros i j Hj. destruct i as [|[|[|i]]]; cbn in *; exists 0; (split; [lia|]); discriminate.
  - intros i j Hj. destruct i as [|[|[|i]]]; cbn in *; exists 0; (split; [lia|]); discriminate.
  - intros [|[|i]] Hi; cbn; lia.
  - apply entries_hermitian. intros i x y s s'. unfold mval, hm_mpo. cbn [ent]. destruct i as [|[|[|i]]]; try apply HI; [destruct (y =? 0); auto|destruct (x =? 0); auto].
Qed.
Lemma hm_mat : forall a b c a' b' c', a < 2 -> b < 2 -> c < 2 -> a' < 2 -> b' < 2 -> c' < 2 ->
  mpo_mat cx c0 c1 cadd cmul (sites 3 hm_mpo) [a; b; c] [a'; b'; c'] 0 0 = h_el a b c a' b' c'.
Proof.
  intros a b c a' b' c' Ha Hb Hc Ha' Hb' Hc'.
  transitivity (cmul (oI a a') (cadd (cmul (oX b b') (oX c c')) (cmul (oY b b') (oY c c')))).
  - cbn -[cadd cmul c0 c1 oX oY oI]. unfold mval, delta. cbn -[cadd cmul c0 c1 oX oY oI]. ring.
  - unfold h_el, oI, delta. destruct (a =? a'); cbn [andb]; [|ring].
    destruct b as [|[|b]]; [| |lia]; (destruct c as [|[|c]]; [| |lia]); (destruct b' as [|[|b']]; [| |lia]); (destruct c' as [|[|c']]; [| |lia]);
    unfold oX, oY; cbn [Nat.eqb Nat.add andb]; unfold c0, c1, cre, cadd, cmul; cbn [fst snd]; f_equal; ring.
Qed.
Lemma hm_conserving : d_conserving Z 0%Z Z.add z_ch 3 hm_mpo [2; 2; 2].
Proof.
  intros c c' Ic Ic' HN. rewrite cfg_222 in Ic, Ic'. assert (F : forall c, In c [[0;0;0];[0;0;1];[0;1;0];[0;1;1];[1;0;0];[1;0;1];[1;1;0];[1;1;1]] -> exists u v w, c = [u; v; w] /\ u < 2 /\ v < 2 /\ w < 2).
  { intros d I. cbn [In] in I. repeat (destruct I as [<-|I]; [do 3 eexists; split; [reflexivity|lia]|]). destruct I. }
  destruct (F c Ic) as [u [v [w [-> [Hu [Hv Hw]]]]]]. destruct (F c' Ic') as [u' [v' [w' [-> [Hu' [Hv' Hw']]]]]]. clear F Ic Ic'. rewrite hm_mat in HN by auto.
  unfold h_el in HN. destruct ((u =? u') && (v + w =? 1) && (v + v' =? 1) && (w + w' =? 1)) eqn:B; [|congruence]. rewrite !andb_true_iff, !Nat.eqb_eq in B. cbn [total]. unfold z_ch. lia.
Qed.
(** basis states *)
Definition hm_ts (f : nat -> nat) (i : nat) : cten := mkTen 1 2 1 (fun _ s _ => cdelta s (f i)).
Lemma hm_blocks : forall f, d_blocks Z Z.add z_ch 3 (h_bt f) (h_q f) (hm_ts f).
Proof.
  intros f. split; [|unfold h_bt, h_q; cbn; lia]. intros i Hi a s b Ha Hs Hb HN. cbn [hm_ts el] in HN. unfold delta in HN. destruct (Nat.eqb_spec s (f i)) as [->|]; [|congruence].
  unfold h_bt, z_ch. rewrite seq_app, fold_left_app. reflexivity.
Qed.
Lemma hm_on : forall f, on_sites 3 [2; 2; 2] (hm_ts f).
Proof. intros f. split; [cbn; auto|reflexivity]. Qed.
Lemma hm_center : forall f, (forall i, f i < 2) -> centered 3 0 (hm_ts f).
Proof.
  intros f Hf. split; intros i Hi; [lia|]. intros k k' Hk Hk'. cbn [hm_ts d0 d1 d2 el] in *. replace k with 0 by lia. replace k' with 0 by lia. cbn [FmpsSpec.sumn]. pose proof (Hf i).
  destruct (f i) as [|[|n]]; [| |lia]; unfold delta; cbn [Nat.eqb]; rewrite ?cconj0, ?cconj1; ring.
Qed.
Lemma hm_nz : forall f, (forall i, f i < 2) -> nonzero 3 (hm_ts f).
Proof.
  intros f Hf. assert (E : cnorm2 (sites 3 (hm_ts f)) = c1).
  { unfold norm2. pose proof (Hf 0) as H0. pose proof (Hf 1) as H1. pose proof (Hf 2) as H2.
    cbn -[cadd cmul cconj c0 c1 delta]. destruct (f 0) as [|[|?]]; [| |lia]; (destruct (f 1) as [|[|?]]; [| |lia]); (destruct (f 2) as [|[|?]]; [| |lia]);
    unfold delta; cbn [Nat.eqb]; repeat (rewrite ?cconj_mul, ?cconj_add, ?cconj0, ?cconj1); ring. }
  unfold nonzero. rewrite E. unfold c0, c1. intros H. injection H as H. lra.
Qed.
Definition hm_d (f : nat -> nat) : dst cten cop (res (real * real)) :=
  mkD _ _ _ (mkW _ _ _ 3 fnone 0 fnone fnone None None (fun i => Some (hm_ts f i)) fnone fnone false) (fun _ => []) (fun _ => []) (fun _ _ _ => None) false false 0.
Definition hm_ts0 (Dmax : nat) (f : nat -> nat) : nat -> cten := snd (prep cten xright xleft (big_l Dmax) small_l (big_r Dmax) small_r xright xleft 3 (hm_ts f)).
Lemma hm_ready : forall Dmax f, ready cten cop (res (real * real)) 3 (fun i => mcols (hm_mpo i)) (fun _ _ _ => c1) (d_grow hm_mpo) xright xleft (big_l Dmax) small_l (big_r Dmax) small_r xright xleft (hm_ts f) (hm_ts0 Dmax f) 0 2 (hm_d f).
Proof.
  intros Dmax f. split; [lia|]. split.
  - assert (E : fst (prep cten xright xleft (big_l Dmax) small_l (big_r Dmax) small_r xright xleft 3 (hm_ts f)) = (0, 2)).
    { unfold prep, half. change (3 / 2) with 1. cbn [Nat.even prep_left prep_right Nat.sub]. destruct (big_l Dmax _); cbn [Nat.eqb]; destruct (big_r Dmax _); reflexivity. }
    unfold hm_ts0. destruct (prep _ _ _ _ _ _ _ _ _ _ _) as [[lb rb] t]. cbn [fst snd] in *. injection E as -> ->. reflexivity.
  - split; [reflexivity|]. split; [intros i _; reflexivity|]. split; [intros i _; reflexivity|]. intros H. discriminate.
Qed.
(** no particle: energy 0; one particle: down to -2 *)
Lemma hm_empty : d_sector_bounded Z 0%Z Z.add z_ch 3 hm_mpo [2; 2; 2] 0%Z 0.
Proof.
  intros v HS. assert (Z : forall a b c, In [a; b; c] (configs [2; 2; 2]) -> a + b + c <> 0 -> v [a; b; c] = c0).
  { intros a b c I NE. destruct (cx_dec (v [a; b; c])) as [E|E]; [exact E|]. exfalso. specialize (HS _ I E). cbn [total] in HS. unfold z_ch in HS. lia. }
  rewrite cfg_222 in *. cbn [lsum fold_right]. rewrite !hm_mat by lia.
  rewrite (Z 0 0 1), (Z 0 1 0), (Z 0 1 1), (Z 1 0 0), (Z 1 0 1), (Z 1 1 0), (Z 1 1 1) by (cbn; auto 10; lia). unfold h_el. cbn [Nat.eqb Nat.add andb].
  match goal with |- (_ <= fst ?z)%R => replace z with c0 by (rewrite ?cconj0; ring) end. cbn. lra.
Qed.
Lemma hm_below : ~ spectrum_above 3 hm_mpo [2; 2; 2] (-1).
Proof.
  intros H. specialize (H (fun c => match c with [0; 0; 1] => c1 | [0; 1; 0] => copp c1 | _ => c0 end)). revert H. rewrite cfg_222. cbn [lsum fold_right]. rewrite !hm_mat by lia. unfold h_el. cbn [Nat.eqb Nat.add andb].
  match goal with |- (_ * fst ?w <= fst ?z)%R -> _ => replace w with (cadd c1 c1) by (rewrite ?cconj0, ?cconj_opp, ?cconj1; ring); replace z with (copp (cmul (cadd c1 c1) (cre 2))) by (rewrite ?cconj0, ?cconj_opp, ?cconj1; ring) end.
  unfold c1, cadd, cmul, copp, cre. cbn [fst snd]. lra.
Qed.
