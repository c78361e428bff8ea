(** A truncated SVD of a six-leg tensor as assumed, and concrete operators for the variational product. *)
From Coq Require Import List Arith Lia Bool ZArith Reals Lra Psatz Ring.
From Verif Require Import Base CoefOpAlg Numeric FiniteMps FmpsSpec FmpsFacts EffHam EffHamSpec EffHamFacts ChainSpec ChainFacts ChainOne MeasureFacts VmpsState Legs VmpsEnv FinMpo FinMpoSpec FinMpoFacts FinMpoExp Cx GVec DmrgStep
  TruncMps TruncMpsSpec TruncMpsMath TruncMpsFacts TruncMpsInst MpoCano MpoCanoSpec MpoMath MpoCanoFacts MpoCanoRun MpoTrunc MpoCanoInst MpoVar MpoSquare MpoVarSpec MpoVarEnv MpoVarStep MpoVarRun MpoVarTop.
Import ListNotations.
Local Open Scope nat_scope.

Section Flat.
Variables (D0 p1 q1 p2 q2 D3 : nat).
Definition flat6 (g : cg) : cten := mkTen p2 (q2 * D3) (D0 * p1 * q1) (fun t z y => ge cx g [y / q1 / p1; (y / q1) mod p1; y mod q1; t; z / D3; z mod D3]).
Definition parts6 (x : cten * list real * cmat * real) : c4 * list real * c4 * real :=
  let '(u, s, vt, e) := x in
  (mkTen4 D0 p1 q1 (length s) (fun o p q k => me vt k ((o * p1 + p) * q1 + q)), s, mkTen4 (length s) p2 q2 D3 (fun k t t' o' => el u t (t' * D3 + o') k), e).
Lemma join : forall m n (f : nat -> cx), lsum (seq 0 m) (fun p => lsum (seq 0 n) (fun q => f (p * n + q))) = lsum (seq 0 (m * n)) f.
Proof. intros m n f. rewrite <- (pairs m n (fun p q => f (p * n + q))). apply lsum_ext. intros k Hk. apply in_seq in Hk. f_equal. rewrite (Nat.mul_comm (k / n)). symmetry. apply Nat.div_mod. nia. Qed.
Lemma flat_norm : forall g, norm6 D0 p1 q1 p2 q2 D3 g = fst (frob (flat6 g)).
Proof.
  intros g. unfold norm6. f_equal. rewrite frob_lsum. cbn [flat6 d0 d1 d2 el]. unfold at6.
  set (F := fun o s s' t t' o' => cmul (cconj (ge cx g [o; s; s'; t; t'; o'])) (ge cx g [o; s; s'; t; t'; o'])).
  transitivity (lsum (seq 0 D0) (fun o => lsum (seq 0 p1) (fun s => lsum (seq 0 q1) (fun s' => lsum (seq 0 p2) (fun t => lsum (seq 0 (q2 * D3)) (fun z => F o s s' t (z / D3) (z mod D3))))))).
  { one. one. one. one. rewrite sumn_lsum, (pairs q2 D3 (fun t' o' => F _ _ _ _ t' o')). apply lsum_ext. intros t' _. rewrite sumn_lsum. reflexivity. }
  transitivity (lsum (seq 0 (D0 * p1 * q1)) (fun y => lsum (seq 0 p2) (fun t => lsum (seq 0 (q2 * D3)) (fun z => F (y / q1 / p1) ((y / q1) mod p1) (y mod q1) t (z / D3) (z mod D3))))).
  { rewrite (pairs (D0 * p1) q1 (fun x s' => lsum (seq 0 p2) (fun t => lsum (seq 0 (q2 * D3)) (fun z => F (x / p1) (x mod p1) s' t (z / D3) (z mod D3))))).
    rewrite (pairs D0 p1 (fun o s => lsum (seq 0 q1) (fun s' => lsum (seq 0 p2) (fun t => lsum (seq 0 (q2 * D3)) (fun z => F o s s' t (z / D3) (z mod D3)))))). reflexivity. }
  etransitivity; [apply lsum_swap|]. apply lsum_ext. intros t _. apply lsum_swap.
Qed.
Lemma parts_good : forall terr Dmin g, norm6 D0 p1 q1 p2 q2 D3 g <> 0%R -> truncated6 D0 p1 q1 p2 q2 D3 terr 1 g (parts6 (svd_one terr Dmin 1 (flat6 g))).
Proof.
  intros terr Dmin g HN. rewrite flat_norm in HN. pose proof (svd_one_good terr Dmin (flat6 g) (proj2 (frob_nz _) HN)) as V. destruct (svd_one terr Dmin 1 (flat6 g)) as [[[u s] vt] e].
  destruct V as [[U0 [U1 [U2 [U3 U4]]]] V2 V3 V4 [V5 V5'] V6]. unfold parts6. cbn [flat6 d0 d1 d2] in *. split; cbn [m0 m1 m2 m3 e4].
  - repeat split.
  - intros k k' Hk Hk'. cbn [m0 m1 m2 m3 e4] in *. assert (k = 0) as -> by lia. assert (k' = 0) as -> by lia. pose proof (V3 0 Hk) as Q. rewrite U4, sumn_lsum in Q.
    change (FmpsSpec.delta cx c0 c1 0 0) with c1. rewrite <- Q. rewrite <- (join (D0 * p1) q1 (fun y => cmul (cconj (me vt 0 y)) (me vt 0 y))).
    rewrite <- (join D0 p1 (fun x => lsum (seq 0 q1) (fun q => cmul (cconj (me vt 0 (x * q1 + q))) (me vt 0 (x * q1 + q))))). one. one. apply sumn_lsum.
  - intros k k' Hk Hk'. cbn [m0 m1 m2 m3 e4] in *. rewrite <- (V2 k k') by lia. rewrite U0, U1. rewrite !sumn_lsum.
    transitivity (lsum (seq 0 D3) (fun o' => lsum (seq 0 p2) (fun t => lsum (seq 0 q2) (fun t' => cmul (cconj (el u t (t' * D3 + o') k)) (el u t (t' * D3 + o') k'))))).
    { apply lsum_ext. intros o' _. one. apply sumn_lsum. }
    etransitivity; [apply lsum_swap|]. apply lsum_ext. intros t _. rewrite sumn_lsum. etransitivity; [apply lsum_swap|]. exact (join q2 D3 (fun z => cmul (cconj (el u t z k)) (el u t z k'))).
  - intros o p q k Ho Hp Hq Hk. set (y := (o * p1 + p) * q1 + q). assert (Hy : y < D0 * p1 * q1) by (apply pair_lt; [apply pair_lt; auto|auto]).
    transitivity (cmul (cre (nth k s 0%R)) (me vt k y)); [|unfold y; ring]. rewrite <- (V4 k y Hk Hy). rewrite !sumn_lsum. apply lsum_ext. intros t _. rewrite !sumn_lsum.
    rewrite <- (join q2 D3 (fun z => cmul (cconj (el u t z k)) (el (flat6 g) t z y))). apply lsum_ext. intros t' _. rewrite sumn_lsum. apply lsum_ext. intros o' Ho'. cbn [flat6 el]. apply in_seq in Ho'.
    destruct (pair_div t' o' D3 ltac:(lia)) as [-> ->]. unfold y. destruct (pair_div (o * p1 + p) q q1 Hq) as [-> ->]. destruct (pair_div o p p1 Hp) as [-> ->]. unfold at6. ring.
  - split; [exact V5|]. unfold sq_sum. rewrite V5'. rewrite flat_norm. reflexivity.
  - exact V6.
Qed.
End Flat.
Definition svd6_one (terr : real) (Dmin Dmax : nat) (g : cg) : c4 * list real * c4 * real :=
  match gd cx g with
  | [D0; p1; q1; p2; q2; D3] => parts6 D0 p1 q1 p2 q2 D3 (svd_one terr Dmin Dmax (flat6 D0 p1 q1 p2 q2 D3 g))
  | _ => (mkTen4 0 0 0 0 (fun _ _ _ _ => c0), [], mkTen4 0 0 0 0 (fun _ _ _ _ => c0), 0%R)
  end.
Lemma svd6_one_good : forall terr Dmin, good6 terr Dmin 1 svd6_one.
Proof. intros terr Dmin D0 p1 q1 p2 q2 D3 g E H. unfold svd6_one. rewrite E. apply parts_good. exact H. Qed.

(** *** operators with entries on the diagonal only *)
Lemma csum_one_in : forall A (l : list A) x f, NoDup l -> In x l -> (forall y, In y l -> y <> x -> f y = c0) -> csum_l l f = f x.
Proof.
  intros A l x f HN. induction HN as [|y l HY HN IH]; intros HI HZ; [destruct HI|]. cbn [csum_l fold_right]. fold (csum_l l f). destruct HI as [->|HI].
  - assert (Z : csum_l l f = c0). { clear IH HN. induction l as [|z l IH]; [reflexivity|]. cbn [csum_l fold_right]. fold (csum_l l f). rewrite IH; [|firstorder|firstorder]. rewrite HZ; [ring|firstorder|intros ->; apply HY; left; reflexivity]. }
    rewrite Z. ring.
  - rewrite IH; auto; [|firstorder]. rewrite HZ; [ring|left; reflexivity|]. intros ->. contradiction.
Qed.
Definition diag (ds : list nat) (A : coper) (w : list nat -> cx) : Prop := forall c c', In c (configs ds) -> In c' (configs ds) -> A c c' = if list_eq_dec Nat.eq_dec c c' then w c else c0.
Lemma diag_hs : forall ds A B v w, NoDup (configs ds) -> diag ds A v -> diag ds B w -> hs ds A B = csum_l (configs ds) (fun c => cmul (cconj (v c)) (w c)).
Proof.
  intros ds A B v w HN HA HB. unfold hs. apply csum_ext. intros c Hc. rewrite (csum_one_in _ _ c); auto.
  - rewrite HA, HB by auto. destruct (list_eq_dec _ _ _); [reflexivity|congruence].
  - intros c' Hc' NE. rewrite HB by auto. destruct (list_eq_dec _ _ _) as [E|]; [congruence|]. ring.
Qed.
Lemma diag_product : forall ds A B v w, NoDup (configs ds) -> diag ds A v -> diag ds B w -> diag ds (product ds A B) (fun c => cmul (v c) (w c)).
Proof.
  intros ds A B v w HN HA HB c c' Hc Hc'. unfold product, o_mul. change (csum_l (configs ds) (fun k => cmul (A k c') (B c k)) = if list_eq_dec Nat.eq_dec c c' then cmul (v c) (w c) else c0).
  rewrite (csum_one_in _ _ c); auto.
  - rewrite HA, HB by auto. destruct (list_eq_dec Nat.eq_dec c c) as [_|]; [|congruence]. destruct (list_eq_dec _ _ _); ring.
  - intros k Hk NE. rewrite HB by auto. destruct (list_eq_dec _ _ _) as [E|]; [congruence|]. ring.
Qed.
Notation d222 := [2%nat; 2%nat; 2%nat]. Notation d22 := [2%nat; 2%nat].
Lemma nodup8 : NoDup (configs d222). Proof. cbn. repeat (constructor; [cbn; intuition discriminate|]). constructor. Qed.
Lemma nodup4 : NoDup (configs d22). Proof. cbn. repeat (constructor; [cbn; intuition discriminate|]). constructor. Qed.

(** 3/5 |000><000| + 4/5 |111><111| *)
Definition gz_m : c4 := mkTen4 2 2 2 2 (fun k s s' k' => if (s =? s') && (s =? k) && (s =? k') then c1 else c0).
Definition gz : list c4 := [pp_a; gz_m; pp_b].
Definition gz_st : cmpo := mkFmpo (map Some gz) [NONE; NONE; NONE] (-1)%Z.
Definition gz_w (c : list nat) : cx := match c with [0; 0; 0] => cre (3 / 5) | [1; 1; 1] => cre (4 / 5) | _ => c0 end.
Lemma gz_diag : diag d222 (melem gz) gz_w.
Proof.
  intros c c' Hc Hc'. cbn in Hc, Hc'. repeat (destruct Hc as [<-|Hc]; [repeat (destruct Hc' as [<-|Hc']; [unfold melem, elem, gz; cbn [o4_mat m3 e4 pp_a pp_b gz_m FmpsSpec.sumn Nat.eqb andb gz_w];
    change (FmpsSpec.delta cx c0 c1 0 0) with c1; destruct (list_eq_dec _ _ _) as [E|E]; try discriminate E; try (exfalso; apply E; reflexivity); ring|]); destruct Hc'|]). destruct Hc.
Qed.
Lemma gz_ok : holds4 cx gz_st gz /\ oper_on cx d222 gz /\ truthful4 gz_st /\ hs d222 (melem gz) (product d222 (melem gz) (melem gz)) <> c0.
Proof.
  split; [split; reflexivity|]. split; [repeat split|]. split; [intros i; cbn [gz_st mtypes]; split; destruct i as [|[|[|[|i]]]]; cbn; intros; discriminate|].
  rewrite (diag_hs _ _ _ gz_w _ nodup8 gz_diag (diag_product _ _ _ _ _ nodup8 gz_diag gz_diag)).
  change (configs d222) with [[0; 0; 0]; [0; 0; 1]; [0; 1; 0]; [0; 1; 1]; [1; 0; 0]; [1; 0; 1]; [1; 1; 0]; [1; 1; 1]]. cbn [csum_l fold_right gz_w]. intros H. apply (f_equal fst) in H. cbn in H. lra.
Qed.
Lemma gz_lossy : exists v ms, mpo_vproduct qr4 svd4 svd6_one (1 / 10) 1 1 true 2 (1 / 100) gz_st gz_st gz_st (fun _ => None) (fun _ => None) = Ok v /\
  variational d222 (1 / 10) 1 (product d222 (melem gz) (melem gz)) (melem gz) (vout v) ms (vlog v) /\ 2 <= length (vlog v) /\ (0 < hsdist2 d222 (melem ms) (product d222 (melem gz) (melem gz)))%R.
Proof.
  destruct gz_ok as [G1 [G2 [G3 G4]]].
  destruct (vproduct_ok qr4 svd4 qr4_ok svd4_ok svd6_one (1 / 10) 1 1 d222 gz gz gz gz_st gz_st gz_st G2 G2 G2 eq_refl eq_refl (or_introl G1) true 2 (1 / 100)%R (fun _ => None) (fun _ => None) (svd6_one_good _ _) ltac:(cbn; lia) ltac:(lia) G4) as [v [ms [A1 [A2 [A3 [A4 _]]]]]].
  exists v, ms. split; [exact A1|]. split; [exact A2|]. split; [rewrite A3; cbn [gz length]; lia|].
  destruct (hs_pos d222 (o_sub (melem ms) (product d222 (melem gz) (melem gz)))) as [P _]. change (fst (hs d222 (o_sub (melem ms) (product d222 (melem gz) (melem gz))) (o_sub (melem ms) (product d222 (melem gz) (melem gz))))) with (hsdist2 d222 (melem ms) (product d222 (melem gz) (melem gz))) in P.
  destruct P as [P|P]; [exact P|exfalso]. symmetry in P. pose proof (zero_dist _ _ _ P) as LS. pose proof (vr_bonds _ _ _ _ _ _ _ _ A2) as B. destruct (vr_oper _ _ _ _ _ _ _ _ A2) as [F [E1 _]].
  clear A1 A2 A3 A4 P G4. destruct ms as [|a [|p [|q [|]]]]; try discriminate E1. cbn [tl] in B. inversion B as [|? ? B1 B2]; subst. inversion B2 as [|? ? B3 _]; subst. cbn in F. destruct F as [_ [F1 [F2 F3]]].
  assert (AM : forall s t u, melem [a; p; q] [s; t; u] [s; t; u] = csum (m3 a) (fun k => cmul (e4 a 0 s s k) (csum (m3 p) (fun k' => cmul (e4 p k t t k') (csum (m3 q) (fun w => cmul (e4 q k' u u w) (FmpsSpec.delta cx c0 c1 w 0))))))).
  { intros. unfold melem, elem. cbn [o4_mat]. reflexivity. }
  assert (X : cmul (melem [a; p; q] [0; 0; 0] [0; 0; 0]) (melem [a; p; q] [1; 1; 1] [1; 1; 1]) = cmul (melem [a; p; q] [0; 0; 1] [0; 0; 1]) (melem [a; p; q] [1; 1; 0] [1; 1; 0])).
  { rewrite !AM. assert (C1 : m3 a = 0 \/ m3 a = 1) by lia. assert (C2 : m3 p = 0 \/ m3 p = 1) by lia. destruct C1 as [-> | ->]; cbn [FmpsSpec.sumn]; [ring|]. destruct C2 as [-> | ->]; cbn [FmpsSpec.sumn]; ring. }
  rewrite !LS in X by (cbn; auto 12). rewrite !(diag_product _ _ _ _ _ nodup8 gz_diag gz_diag) in X by (cbn; auto 12). cbn in X. apply (f_equal fst) in X. cbn in X. lra.
Qed.

(** *** two sites *)
Lemma csum_ones : forall n f, (forall k, k < n -> f k = c1) -> fst (csum n f) = INR n.
Proof. induction n as [|n IH]; intros f H; [reflexivity|]. cbn [FmpsSpec.sumn]. rewrite S_INR, <- (IH f) by auto. rewrite (H n) by lia. reflexivity. Qed.
Lemma csum_zero : forall n f, (forall k, k < n -> f k = c0) -> csum n f = c0.
Proof. induction n as [|n IH]; intros f H; [reflexivity|]. cbn [FmpsSpec.sumn]. rewrite IH, (H n) by auto. ring. Qed.
Lemma left_norm : forall t, left4 t -> ten2 t = INR (m3 t).
Proof.
  intros t H. rewrite <- (csum_ones (m3 t) (fun k => csum (m0 t) (fun l => csum (m1 t) (fun s => csum (m2 t) (fun s' => cmul (cconj (e4 t l s s' k)) (e4 t l s s' k)))))).
  - unfold ten2. f_equal. rewrite !sumn_lsum.
    transitivity (lsum (seq 0 (m0 t)) (fun a => lsum (seq 0 (m3 t)) (fun b => csum (m1 t) (fun s => csum (m2 t) (fun s' => cmul (cconj (e4 t a s s' b)) (e4 t a s s' b)))))).
    + apply lsum_ext. intros a _. rewrite sumn_lsum. transitivity (lsum (seq 0 (m1 t)) (fun s => lsum (seq 0 (m3 t)) (fun b => csum (m2 t) (fun s' => cmul (cconj (e4 t a s s' b)) (e4 t a s s' b))))).
      * apply lsum_ext. intros s _. rewrite sumn_lsum. etransitivity; [apply lsum_ext; intros s' _; apply sumn_lsum|]. etransitivity; [apply lsum_swap|]. apply lsum_ext. intros b _. symmetry. apply sumn_lsum.
      * etransitivity; [apply lsum_swap|]. apply lsum_ext. intros b _. symmetry. apply sumn_lsum.
    + etransitivity; [apply lsum_swap|]. apply lsum_ext. intros b _. symmetry. apply sumn_lsum.
  - intros k Hk. rewrite (H k k Hk Hk). unfold FmpsSpec.delta. rewrite Nat.eqb_refl. reflexivity.
Qed.
Lemma right_norm : forall t, right4 t -> ten2 t = INR (m0 t).
Proof.
  intros t H. rewrite <- (csum_ones (m0 t) (fun k => csum (m3 t) (fun r => csum (m1 t) (fun s => csum (m2 t) (fun s' => cmul (cconj (e4 t k s s' r)) (e4 t k s s' r)))))).
  - unfold ten2. f_equal. rewrite !sumn_lsum. apply lsum_ext. intros a _. rewrite !sumn_lsum.
    transitivity (lsum (seq 0 (m1 t)) (fun s => lsum (seq 0 (m3 t)) (fun b => csum (m2 t) (fun s' => cmul (cconj (e4 t a s s' b)) (e4 t a s s' b))))).
    + apply lsum_ext. intros s _. rewrite sumn_lsum. etransitivity; [apply lsum_ext; intros s' _; apply sumn_lsum|]. etransitivity; [apply lsum_swap|]. apply lsum_ext. intros b _. symmetry. apply sumn_lsum.
    + etransitivity; [apply lsum_swap|]. apply lsum_ext. intros b _. symmetry. apply sumn_lsum.
  - intros k Hk. rewrite (H k k Hk Hk). unfold FmpsSpec.delta. rewrite Nat.eqb_refl. reflexivity.
Qed.
(** half of 3/5 |00><00| + 4/5 |11><11| *)
Definition hf : list c4 := [tscale cx cmul (cre (1 / 2)) pp_a; pp_b].
Definition hf_st : cmpo := mkFmpo (map Some hf) [NONE; NONE] (-1)%Z.
Definition hf_w (c : list nat) : cx := match c with [0; 0] => cre (3 / 10) | [1; 1] => cre (4 / 10) | _ => c0 end.
Lemma hf_diag : diag d22 (melem hf) hf_w.
Proof.
  intros c c' Hc Hc'. destruct (melem_scale d22 [] pp_a [pp_b] (cre (1 / 2)) (proj1 (proj2 pp_ok))) as [_ S2]. cbn [app] in S2. unfold hf. rewrite S2 by auto. change [pp_a; pp_b] with pp. cbn in Hc, Hc'.
  repeat (destruct Hc as [<-|Hc]; [repeat (destruct Hc' as [<-|Hc']; [rewrite pp_elem by lia; cbn [Nat.eqb andb hf_w]; destruct (list_eq_dec _ _ _) as [E|E]; try discriminate E; try (exfalso; apply E; reflexivity); try ring; unfold cre, cmul; cbn [fst snd]; f_equal; lra|]); destruct Hc'|]). destruct Hc.
Qed.
Lemma hf_ok : holds4 cx hf_st hf /\ oper_on cx d22 hf /\ truthful4 hf_st /\ hs2 d22 (melem hf) = (1 / 4)%R /\ hs2 d22 (product d22 (melem hf) (melem hf)) = (337 / 10000)%R.
Proof.
  split; [split; reflexivity|]. split; [repeat split|]. split; [intros i; cbn [hf_st mtypes]; split; destruct i as [|[|[|i]]]; cbn; intros; discriminate|]. unfold hs2.
  rewrite (diag_hs _ _ _ _ _ nodup4 hf_diag hf_diag), (diag_hs _ _ _ _ _ nodup4 (diag_product _ _ _ _ _ nodup4 hf_diag hf_diag) (diag_product _ _ _ _ _ nodup4 hf_diag hf_diag)).
  change (configs d22) with [[0; 0]; [0; 1]; [1; 0]; [1; 1]]. cbn [csum_l fold_right hf_w]. split; unfold cre, c0, cadd, cmul, cconj; cbn [fst snd]; field.
Qed.
Lemma hf_wrong : forall qr svd svd6 terr Dmin Dmax dbg sweeps tol fl fr, qr4_exact qr -> svd4_exact svd ->
  exists st' v ms, mpo_square qr svd svd6 terr Dmin Dmax dbg sweeps tol None hf_st fl fr = Ok (st', v) /\ holds4 cx st' ms /\ same_oper d22 (melem ms) (melem hf) /\ hsdist2 d22 (melem ms) (product d22 (melem hf) (melem hf)) <> 0%R /\ ~ truthful4 st' /\
  exists n st2 ts2, square_normalize qr svd svd6 terr Dmin Dmax dbg sweeps tol None hf_st fl fr = Ok (n, st2) /\ (1 <= fst n)%R /\ holds4 cx st2 ts2 /\ (hs2 d22 (melem ts2) <= 1 / 4)%R.
Proof.
  intros qr svd svd6 terr Dmin Dmax dbg sweeps tol fl fr Q S. destruct hf_ok as [G1 [G2 [G3 [G4 G5]]]].
  destruct (square_none qr svd svd6 terr Dmin Dmax dbg sweeps tol d22 None hf_st hf hf fl fr Q S G1 G2 G2 G3 eq_refl (or_introl eq_refl)) as [st' [v [p [r [A1 [A2 [A3 [A4 [A5 [A6 A7]]]]]]]]]].
  destruct r as [|q [|]]; try (destruct A3 as [_ [A3 _]]; discriminate A3). inversion A5 as [|? ? A5' _]; subst.
  exists st', v, [p; q]. split; [exact A1|]. split; [exact A2|]. split; [exact A4|]. split.
  { intros Z. pose proof (zero_dist _ _ _ Z) as LS. pose proof (hs2_same _ _ _ LS) as E1. pose proof (hs2_same _ _ _ A4) as E2. rewrite G5 in E1. rewrite G4 in E2. lra. }
  assert (N4 : hs2 d22 (melem [p; q]) = (1 / 4)%R) by (rewrite (hs2_same _ _ _ A4); exact G4).
  split.
  { intros T. destruct (T 0) as [T0 _]. rewrite A6, (proj1 A2) in T0. destruct (T0 eq_refl) as [t [E L]]. injection E as <-. pose proof (center_norm d22 [] p [q] A3 (Forall_nil _) A5) as C. cbn [app] in C. rewrite N4, (left_norm p L) in C.
    destruct (m3 p) as [|k]; [cbn in C; lra|]. rewrite S_INR in C. pose proof (pos_INR k). lra. }
  destruct (normalize_form cx cmul norm4 cinv st' [p; q] A2) as [t [E1 E2]]; [right; rewrite A7; cbn; lia|cbn; lia|]. assert (W : where_ cx st' = 1) by (unfold where_; rewrite A7; reflexivity). rewrite W in E1, E2. injection E1 as <-.
  assert (D1 : (1 <= INR (m0 q))%R).
  { destruct (Nat.eq_dec (m0 q) 0) as [Z|Z]; [|change 1%R with (INR 1); apply le_INR; lia]. exfalso. pose proof (center_norm d22 [] p [q] A3 (Forall_nil _) A5) as C. cbn [app] in C. rewrite N4 in C. destruct A3 as [[_ [F _]] _]. rewrite Z in F.
    unfold ten2 in C. rewrite <- F in C. cbn [FmpsSpec.sumn] in C.
    assert (Z3 : csum (m0 p) (fun _ => csum (m1 p) (fun _ => csum (m2 p) (fun _ => c0))) = c0) by (apply csum_zero; intros; apply csum_zero; intros; apply csum_zero; reflexivity).
    rewrite Z3 in C. cbn in C. lra. }
  set (n := norm4 q) in *. assert (NE : n = cre (sqrt (INR (m0 q)))) by (unfold n, norm4; rewrite (right_norm q A5'); reflexivity).
  assert (SQ : (1 <= sqrt (INR (m0 q)))%R) by (rewrite <- sqrt_1; apply sqrt_le_1; lra).
  eexists n, _, [p; tscale cx cmul (cinv n) q]. split.
  { unfold square_normalize. rewrite A1. cbn [bind fst]. rewrite E2. cbn [bind snd mcenter]. rewrite A7. rewrite asserted by reflexivity. cbn [bind]. reflexivity. }
  split; [rewrite NE; exact SQ|]. split; [split; [reflexivity|cbn [mtypes]; rewrite upd_length, A6; reflexivity]|].
  destruct (melem_scale d22 [p] q [] (cinv n) A3) as [_ S2]. cbn [app] in S2.
  assert (CI : cinv n = cre (/ sqrt (INR (m0 q)))) by (rewrite NE; reflexivity). set (x := (/ sqrt (INR (m0 q)))%R) in *.
  assert (X1 : (0 < x <= 1)%R) by (unfold x; split; [apply Rinv_0_lt_compat; lra|rewrite <- Rinv_1; apply Rinv_le_contravar; lra]).
  assert (HH : hs2 d22 (melem [p; tscale cx cmul (cinv n) q]) = (x * x * hs2 d22 (melem [p; q]))%R).
  { unfold hs2. transitivity (fst (cmul (cre (x * x)) (hs d22 (melem [p; q]) (melem [p; q])))).
    - f_equal. unfold hs. rewrite csum_mul. apply csum_ext. intros c Hc. rewrite csum_mul. apply csum_ext. intros c' Hc'. rewrite !S2 by auto. rewrite CI, cconj_mul, cconj_cre, cre_mul. ring.
    - rewrite hs_re. unfold cre, cmul. cbn [fst snd]. ring. }
  rewrite HH, N4. nra.
Qed.

(** *** a start that sees nothing of the product: an operator orthogonal to its square *)
Definition fl1 : c4 := mkTen4 1 2 2 1 (fun _ s s' _ => if s =? s' then c0 else if s =? 0 then cre (3 / 5) else cre (4 / 5)).
Definition bl : list c4 := [fl1; fl1; fl1].
Definition bl_st : cmpo := mkFmpo (map Some bl) [NONE; RIGHT; RIGHT] 0%Z.
Definition blind (st : cmpo) (dbg : bool) (fl fr : nat -> option cg) : Prop := exists fl' fr' le re a1 a2 g, vgen dbg st st st fl fr = Ok (fl', fr') /\ fread fl' 0 = Ok le /\ fread fr' 1 = Ok re /\
  mderef cx st 0 = Ok a1 /\ mderef cx st 1 = Ok a2 /\ two_sites le re a1 a2 a1 a2 = Ok g /\ norm6 1 2 2 2 2 1 g = 0%R.
Lemma fl1_right : right4 fl1.
Proof.
  intros k k' Hk Hk'. cbn [fl1 m0] in Hk, Hk'. assert (k = 0) as -> by lia. assert (k' = 0) as -> by lia. cbn [fl1 m0 m1 m2 m3 e4 FmpsSpec.sumn Nat.eqb]. change (FmpsSpec.delta cx c0 c1 0 0) with c1. unfold cre, c0, c1, cadd, cmul, cconj. cbn [fst snd]. f_equal; field.
Qed.
Lemma bl_ok : holds4 cx bl_st bl /\ oper_on cx d222 bl /\ truthful4 bl_st.
Proof.
  split; [split; reflexivity|]. split; [repeat split|]. intros i. cbn [bl_st bl mtypes mtens map]. split; [destruct i as [|[|[|[|i]]]]; cbn; intros; discriminate|].
  destruct i as [|[|[|[|i]]]]; cbn; intros H; try discriminate; exists fl1; split; auto using fl1_right.
Qed.
Lemma bl_center : forall qr svd dbg, mcentralize qr svd dbg 0 bl_st = Ok bl_st.
Proof. intros qr svd dbg. unfold mcentralize. rewrite asserted by reflexivity. cbn. reflexivity. Qed.
Lemma fl1_square : forall z, z < 4 -> cmul (cconj (el (fuse fl1) 0 z 0)) (el (fuse (pr4 cx c0 cadd cmul fl1 fl1)) 0 z 0) = c0.
Proof. intros z Hz. destruct z as [|[|[|[|z]]]]; try lia; cbn; unfold cre, c0, cadd, cmul, cconj; cbn [fst snd]; f_equal; ring. Qed.
Lemma mm1 : forall t c, d2 t = 1 -> mm [t] [c] 0 0 = el t 0 c 0.
Proof. intros t c H. cbn [mps_mat]. rewrite H. cbn [FmpsSpec.sumn]. change (FmpsSpec.delta cx c0 c1 0 0) with c1. ring. Qed.
Lemma mm3 : forall t u v a b c, d2 t = 1 -> d2 u = 1 -> d2 v = 1 -> mm [t; u; v] [a; b; c] 0 0 = cmul (el t 0 a 0) (cmul (el u 0 b 0) (el v 0 c 0)).
Proof. intros t u v a b c H1 H2 H3. cbn [mps_mat]. rewrite H1, H2, H3. cbn [FmpsSpec.sumn]. change (FmpsSpec.delta cx c0 c1 0 0) with c1. ring. Qed.
Lemma bl_blind : forall dbg fl fr, blind bl_st dbg fl fr.
Proof.
  intros dbg fl fr. destruct bl_ok as [G1 [G2 _]].
  destruct (vgen_ok d222 bl bl bl_st bl_st G2 G2 eq_refl eq_refl dbg bl_st fl1 fl1 [fl1] fl fr ltac:(cbn; lia) eq_refl G2 eq_refl) as [fl' [fr' [ar [br [a1 [a2 [b1 [b2 [V1 [V2 [V3 V4]]]]]]]]]]].
  destruct V2 as [C1 C2 _ _ _]. cbn [app] in C1, C2. unfold bl in C1, C2. injection C1 as <- <- <-. injection C2 as <- <- <-.
  destruct (V3 [] [] [] [] [] [] 1 1 1) as [le [L1 L2]]; try reflexivity. destruct (V4 [] [fl1] [] [fl1] [] [fl1] 1 1 1) as [re [R1 R2]]; try reflexivity; try (repeat split; reflexivity).
  destruct (two_ok [] [fl1] [] [] [fl1] [fl1] 1 1 1 1 1 1 le re fl1 fl1 fl1 fl1 fl1 fl1 2 2 L2 R2) as [g [W1 [W2 W3]]]; try reflexivity; try (exists 2; repeat split; reflexivity).
  exists fl', fr', le, re, fl1, fl1, g. split; [exact V1|]. unfold fread. cbn [length] in L1, R1. rewrite L1, R1. split; [reflexivity|]. split; [reflexivity|]. split; [reflexivity|]. split; [reflexivity|]. split; [exact W1|].
  rewrite flat_norm, frob_lsum. assert (Z : forall t z y, t < 2 -> z < 2 -> y < 4 -> el (flat6 1 2 2 2 2 1 g) t z y = c0).
  { intros t z y Ht Hz Hy. cbn [flat6 el]. assert (Y : y / 2 < 2) by (apply Nat.div_lt_upper_bound; lia). rewrite (Nat.div_small (y / 2) 2), (Nat.mod_small (y / 2) 2), Nat.div_1_r, Nat.mod_1_r by lia.
    change (at6 g 0 (y / 2) (y mod 2) t z 0 = c0). pose proof (W3 0 y (t * 2 + z) 0 ltac:(lia) ltac:(lia)) as E. destruct (pair_div t z 2 Hz) as [E1 E2]. rewrite E1, E2 in E. rewrite E. unfold gp. cbn [map dims]. 
    change (configs []) with [@nil nat]. cbn [EffHamSpec.lsum fold_right app]. 
    rewrite (EffHamFacts.lsum_0 cx c0 c1 cadd cmul csub copp cx_ring); [ring|]. intros cr Hc. cbn in Hc.
    assert (HC : exists w, cr = [w] /\ w < 4) by (destruct Hc as [<-|[<-|[<-|[<-|[]]]]]; eexists; (split; [reflexivity|lia])). destruct HC as [w [-> Hw]]. pose proof (fl1_square w Hw) as Q.
    change (cmul (cmul (cconj c1) (cconj (mm [fuse fl1] [w] 0 0))) (mm [fuse (pr fl1 fl1); fuse (pr fl1 fl1); fuse (pr fl1 fl1)] [y; t * 2 + z; w] 0 0) = c0).
    rewrite mm1, mm3 by reflexivity. set (A := cconj _) in *. set (X := el (fuse (pr fl1 fl1)) 0 w 0) in *. set (P1 := el (fuse (pr fl1 fl1)) 0 y 0). set (P2 := el _ 0 (t * 2 + z) 0).
    transitivity (cmul (cmul (cconj c1) (cmul P1 P2)) (cmul A X)); [unfold A; ring|]. rewrite Q. ring. }
  change (fst c0 = 0%R) || idtac. replace (lsum _ _) with c0; [reflexivity|]. symmetry. apply (EffHamFacts.lsum_0 cx c0 c1 cadd cmul csub copp cx_ring). intros t Ht. apply in_seq in Ht. cbn [flat6 d0 d1 d2] in *.
  apply (EffHamFacts.lsum_0 cx c0 c1 cadd cmul csub copp cx_ring). intros z Hz. apply in_seq in Hz. apply (EffHamFacts.lsum_0 cx c0 c1 cadd cmul csub copp cx_ring). intros y Hy. apply in_seq in Hy. rewrite Z by lia. ring.
Qed.
Lemma bl_square : hs2 d222 (product d222 (melem bl) (melem bl)) <> 0%R.
Proof.
  intros H. assert (N : forall c c', In c (configs d222) -> In c' (configs d222) -> product d222 (melem bl) (melem bl) c c' = c0).
  { intros c c' Hc Hc'. pose proof (zero_dist d222 (product d222 (melem bl) (melem bl)) (fun _ _ => c0)) as ZD. rewrite ZD; auto. unfold hsdist2. rewrite <- H. apply hs2_same. intros x x' _ _. unfold o_sub. ring. }
  pose proof (N [0; 0; 0] [0; 0; 0] ltac:(cbn; auto) ltac:(cbn; auto)) as E. pose proof (prod_same d222 bl bl (proj1 (proj2 bl_ok)) (proj1 (proj2 bl_ok)) [0; 0; 0] [0; 0; 0] ltac:(cbn; auto) ltac:(cbn; auto)) as S.
  rewrite E in S. apply (f_equal fst) in S. cbn in S. lra.
Qed.
