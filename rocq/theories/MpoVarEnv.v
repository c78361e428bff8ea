(** Environments of three chains and the two-site tensor of the variational product are overlaps with the product chain. *)
From Coq Require Import List Arith Lia Bool ZArith Reals Lra Ring.
From Verif Require Import Base CoefOpAlg Numeric FiniteMps FmpsSpec FmpsFacts EffHam EffHamSpec EffHamFacts ChainSpec ChainFacts ChainOne MeasureFacts VmpsState Legs VmpsEnv FinMpo FinMpoSpec FinMpoFacts Cx GVec DmrgStep
  TruncMps TruncMpsSpec TruncMpsMath TruncMpsFacts MpoCano MpoCanoSpec MpoMath MpoCanoFacts MpoCanoRun MpoTrunc MpoVar MpoVarSpec.
Import ListNotations.
Local Open Scope nat_scope.

(** *** elements *)
Lemma vlenv_el : forall le o a b D Da Db p q r, gd cx le = [D; Da; Db] -> m0 o = D -> m0 a = Da -> m0 b = Db -> m1 o = p -> m2 o = q -> m1 b = p -> m2 a = q -> m1 a = r -> m2 b = r ->
  exists e, vlenv le o a b = Ok e /\ gd cx e = [m3 o; m3 a; m3 b] /\ forall x y z, ge cx e [x; y; z] =
    ssum Db (fun i2 => ssum p (fun s => ssum r (fun k => cmul (ssum q (fun s' => ssum Da (fun i1 => cmul (ssum D (fun i0 => cmul (cconj (e4 o i0 s s' x)) (ge cx le [i0; i1; i2]))) (e4 a i1 k s' y)))) (e4 b i2 s k z)))).
Proof.
  intros [dl le] [o0 o1 o2 o3 o] [a0 a1 a2 a3 a] [b0 b1 b2 b3 b] D Da Db p q r E0. cbn in E0 |- *. intros. subst.
  eexists. split; [legs; reflexivity|]. split; [reflexivity|]. intros. legs. reflexivity.
Qed.
Lemma vrenv_el : forall re o a b D Da Db p q r, gd cx re = [D; Da; Db] -> m3 o = D -> m3 a = Da -> m3 b = Db -> m1 o = p -> m2 o = q -> m1 b = p -> m2 a = q -> m1 a = r -> m2 b = r ->
  exists e, vrenv re o a b = Ok e /\ gd cx e = [m0 o; m0 a; m0 b] /\ forall x y z, ge cx e [x; y; z] =
    ssum p (fun s => ssum r (fun k => ssum Db (fun i2 => cmul (ssum q (fun s' => ssum Da (fun i1 => cmul (ssum D (fun i0 => cmul (cconj (e4 o x s s' i0)) (ge cx re [i0; i1; i2]))) (e4 a y k s' i1)))) (e4 b z s k i2)))).
Proof.
  intros [dl re] [o0 o1 o2 o3 o] [a0 a1 a2 a3 a] [b0 b1 b2 b3 b] D Da Db p q r E0. cbn in E0 |- *. intros. subst.
  eexists. split; [legs; reflexivity|]. split; [reflexivity|]. intros. legs. reflexivity.
Qed.
Lemma two_sites_el : forall le re a1 a2 b1 b2 D Da Db D' Da' Db' p1 q1 p2 q2 r1 r2 Ea Eb, gd cx le = [D; Da; Db] -> gd cx re = [D'; Da'; Db'] ->
  m0 a1 = Da -> m0 b1 = Db -> m3 a2 = Da' -> m3 b2 = Db' -> m3 a1 = Ea -> m0 a2 = Ea -> m3 b1 = Eb -> m0 b2 = Eb ->
  m1 b1 = p1 -> m2 a1 = q1 -> m1 b2 = p2 -> m2 a2 = q2 -> m1 a1 = r1 -> m2 b1 = r1 -> m1 a2 = r2 -> m2 b2 = r2 ->
  exists g, two_sites le re a1 a2 b1 b2 = Ok g /\ gd cx g = [D; p1; q1; p2; q2; D'] /\ forall o s s' t t' o', at6 g o s s' t t' o' =
    ssum Eb (fun y => ssum Ea (fun x => cmul
      (ssum Da (fun i => ssum r1 (fun k => cmul (ssum Db (fun j => cmul (ge cx le [o; i; j]) (e4 b1 j s k y))) (e4 a1 i k s' x))))
      (ssum r2 (fun k => ssum Da' (fun i => cmul (ssum Db' (fun j => cmul (e4 b2 y t k j) (ge cx re [o'; i; j]))) (e4 a2 x k t' i)))))).
Proof.
  intros [dl le] [dr re] [a10 a11 a12 a13 a1] [a20 a21 a22 a23 a2] [b10 b11 b12 b13 b1] [b20 b21 b22 b23 b2] D Da Db D' Da' Db' p1 q1 p2 q2 r1 r2 Ea Eb E0 E1. cbn in E0, E1 |- *. intros. subst.
  eexists. split; [legs; reflexivity|]. split; [reflexivity|]. intros. legs. reflexivity.
Qed.

(** *** overlaps of parts of two chains *)
Definition lov (l xl : list cten) (o z : nat) : cx := lsum (configs (dims l)) (fun c => cmul (cconj (mm l c 0 o)) (mm xl c 0 z)).
Definition rov (r xr : list cten) (o z : nat) : cx := lsum (configs (dims r)) (fun c => cmul (cconj (mm r c o 0)) (mm xr c z 0)).
Notation pull2 := (EffHamFacts.pull2 cx c0 c1 cadd cmul csub copp cx_ring).
Notation pull3 := (EffHamFacts.pull3 cx c0 c1 cadd cmul csub copp cx_ring).
Notation pull4 := (EffHamFacts.pull4 cx c0 c1 cadd cmul csub copp cx_ring).
Lemma lov_snoc : forall l xl t x o' z', cfit 1 l (d0 t) -> cfit 1 xl (d0 x) -> dims xl = dims l -> d1 x = d1 t -> o' < d2 t -> z' < d2 x ->
  lov (l ++ [t]) (xl ++ [x]) o' z' = lsum (seq 0 (d0 t)) (fun o => lsum (seq 0 (d0 x)) (fun z => cmul (lov l xl o z) (lsum (seq 0 (d1 t)) (fun s => cmul (cconj (el t o s o')) (el x z s z'))))).
Proof.
  intros l xl t x o' z' H1 H2 HD Hd Ho Hz. unfold lov. rewrite map_app. cbn [map]. rewrite configs_app.
  transitivity (lsum (configs (dims l)) (fun c => lsum (seq 0 (d1 t)) (fun s => lsum (seq 0 (d0 t)) (fun o => lsum (seq 0 (d0 x)) (fun z =>
    cmul (cmul (cconj (mm l c 0 o)) (mm xl c 0 z)) (cmul (cconj (el t o s o')) (el x z s z'))))))).
  { apply lsum_ext. intros c Hc. rewrite configs_one. apply lsum_ext. intros s Hs. assert (LC : length c = length l) by (apply configs_len in Hc; rewrite map_length in Hc; exact Hc).
    assert (LX : length l = length xl) by (rewrite <- (map_length (@d1 cx) l), <- HD, map_length; reflexivity).
    rewrite (snoc_mm l t c s (d0 t) o' H1 eq_refl LC Ho), (snoc_mm xl x c s (d0 x) z' H2 eq_refl (eq_trans LC LX) Hz).
    rewrite lsum_conj, lsum_mul_r. apply lsum_ext. intros o _. rewrite lsum_mul_l. apply lsum_ext. intros z _. rewrite cconj_mul. ring. }
  etransitivity; [apply pull2|]. apply lsum_ext. intros o _. etransitivity; [apply pull2|]. apply lsum_ext. intros z _.
  rewrite lsum_mul_r. apply lsum_ext. intros c _. rewrite lsum_mul_l. reflexivity.
Qed.
Lemma rov_cons : forall r xr t x o z, d1 x = d1 t ->
  rov (t :: r) (x :: xr) o z = lsum (seq 0 (d2 t)) (fun o' => lsum (seq 0 (d2 x)) (fun z' => cmul (rov r xr o' z') (lsum (seq 0 (d1 t)) (fun s => cmul (cconj (el t o s o')) (el x z s z'))))).
Proof.
  intros r xr t x o z Hd. unfold rov. cbn [map]. change (d1 t :: dims r) with ([d1 t] ++ dims r). rewrite configs_app, configs_one.
  transitivity (lsum (seq 0 (d1 t)) (fun s => lsum (configs (dims r)) (fun c => lsum (seq 0 (d2 t)) (fun o' => lsum (seq 0 (d2 x)) (fun z' =>
    cmul (cmul (cconj (mm r c o' 0)) (mm xr c z' 0)) (cmul (cconj (el t o s o')) (el x z s z'))))))).
  { apply lsum_ext. intros s Hs. apply lsum_ext. intros c Hc. cbn [app mps_mat]. rewrite !sumn_lsum.
    rewrite lsum_conj, lsum_mul_r. apply lsum_ext. intros o' _. rewrite lsum_mul_l. apply lsum_ext. intros z' _. rewrite cconj_mul. ring. }
  etransitivity; [apply pull2|]. apply lsum_ext. intros o' _. etransitivity; [apply pull2|]. apply lsum_ext. intros z' _.
  etransitivity; [apply lsum_swap|]. rewrite lsum_mul_r. apply lsum_ext. intros c _. rewrite lsum_mul_l. reflexivity.
Qed.

(** *** environments *)
Notation pr := (pr4 cx c0 cadd cmul). Notation prods := (mpo_prod cx c0 cadd cmul).
Definition lenv_ok (l al bl : list c4) (D Da Db : nat) (e : cg) : Prop := gd cx e = [D; Da; Db] /\
  forall o z, o < D -> z < Da * Db -> ge cx e [o; z / Db; z mod Db] = lov (fz l) (fz (prods al bl)) o z.
Definition renv_ok (r ar br : list c4) (D Da Db : nat) (e : cg) : Prop := gd cx e = [D; Da; Db] /\
  forall o z, o < D -> z < Da * Db -> ge cx e [o; z / Db; z mod Db] = rov (fz r) (fz (prods ar br)) o z.
(** tensors of one site with the same physical dimension *)
Definition site3 (o a b : c4) : Prop := exists p, m1 o = p /\ m2 o = p /\ m1 a = p /\ m2 a = p /\ m1 b = p /\ m2 b = p.
Ltac one := rewrite sumn_lsum; apply lsum_ext; intros ? _.
Ltac oner := rewrite sumn_lsum, lsum_mul_r; apply lsum_ext; intros ? _.
Notation pull5 := (EffHamFacts.pull5 cx c0 c1 cadd cmul csub copp cx_ring).

Lemma prod_app : forall al bl al' bl', length al = length bl -> prods (al ++ al') (bl ++ bl') = prods al bl ++ prods al' bl'.
Proof. induction al as [|a al IH]; intros [|b bl] al' bl' H; try discriminate; [reflexivity|]. cbn [app mpo_prod]. rewrite IH by (cbn in H; lia). reflexivity. Qed.
Lemma lenv_step : forall l al bl D Da Db e o a b, lenv_ok l al bl D Da Db e -> m0 o = D -> m0 a = Da -> m0 b = Db -> site3 o a b ->
  fit4 cx 1 l D -> fit4 cx 1 (prods al bl) (Da * Db) -> dims (fz (prods al bl)) = dims (fz l) -> length al = length bl ->
  exists e', vlenv e o a b = Ok e' /\ lenv_ok (l ++ [o]) (al ++ [a]) (bl ++ [b]) (m3 o) (m3 a) (m3 b) e'.
Proof.
  intros l al bl D Da Db e o a b [G1 G2] H0 H1 H2 [p [P1 [P2 [P3 [P4 [P5 P6]]]]]] F1 F2 HD HL.
  destruct (vlenv_el e o a b D Da Db p p p) as [e' [V1 [V2 V3]]]; auto. exists e'. split; [exact V1|]. split; [exact V2|]. intros o' z' Ho Hz.
  rewrite prod_app by exact HL. cbn [mpo_prod]. rewrite !map_app. cbn [map].
  rewrite lov_snoc; [|cbn [fuse d0]; rewrite H0; apply fit4_fuse; exact F1|cbn [fuse d0 pr4 m0]; rewrite H1, H2; apply fit4_fuse; exact F2|exact HD|cbn; congruence|exact Ho|exact Hz].
  rewrite V3. cbn [fuse d0 d1 d2 el pr4 m0 m1 m2 m3 e4]. rewrite H0, H1, H2, P1, P2, P3, P4.
  assert (HDb : Db = 0 \/ 0 < Db) by lia.
  etransitivity.
  2:{ apply lsum_ext. intros i0 Hi0. apply in_seq in Hi0. symmetry.
      etransitivity; [apply lsum_ext; intros z Hz0; apply in_seq in Hz0; rewrite <- G2 by lia; reflexivity|].
      etransitivity; [apply (pairs Da Db (fun i1 i2 => cmul (ge cx e [i0; i1; i2]) (lsum (seq 0 (p * p)) (fun s => cmul (cconj (e4 o i0 (s / p) (s mod p) o'))
        (ssum p (fun k => cmul (e4 a i1 k (s mod p) (z' / m3 b)) (e4 b i2 (s / p) k (z' mod m3 b)))))))) |].
      apply lsum_ext. intros i1 _. apply lsum_ext. intros i2 _.
      rewrite (pairs p p (fun s s' => cmul (cconj (e4 o i0 s s' o')) (ssum p (fun k => cmul (e4 a i1 k s' (z' / m3 b)) (e4 b i2 s k (z' mod m3 b)))))). reflexivity. }
  transitivity (lsum (seq 0 Db) (fun i2 => lsum (seq 0 p) (fun s => lsum (seq 0 p) (fun k => lsum (seq 0 p) (fun s' => lsum (seq 0 Da) (fun i1 => lsum (seq 0 D) (fun i0 =>
    cmul (cmul (cmul (cconj (e4 o i0 s s' o')) (ge cx e [i0; i1; i2])) (e4 a i1 k s' (z' / m3 b))) (e4 b i2 s k (z' mod m3 b))))))))).
  { one. one. one. oner. oner. rewrite sumn_lsum, !lsum_mul_r. reflexivity. }
  etransitivity; [apply pull5|]. apply lsum_ext. intros i0 _. etransitivity; [apply pull4|]. apply lsum_ext. intros i1 _. apply lsum_ext. intros i2 _.
  rewrite lsum_mul_l. apply lsum_ext. intros s _. rewrite lsum_mul_l. etransitivity; [apply lsum_swap|]. apply lsum_ext. intros s' _. rewrite sumn_lsum, !lsum_mul_l. apply lsum_ext. intros k _. ring.
Qed.
Lemma renv_step : forall r ar br D Da Db e o a b, renv_ok r ar br D Da Db e -> m3 o = D -> m3 a = Da -> m3 b = Db -> site3 o a b ->
  exists e', vrenv e o a b = Ok e' /\ renv_ok (o :: r) (a :: ar) (b :: br) (m0 o) (m0 a) (m0 b) e'.
Proof.
  intros r ar br D Da Db e o a b [G1 G2] H0 H1 H2 [p [P1 [P2 [P3 [P4 [P5 P6]]]]]].
  destruct (vrenv_el e o a b D Da Db p p p) as [e' [V1 [V2 V3]]]; auto. exists e'. split; [exact V1|]. split; [exact V2|]. intros x z Ho Hz.
  cbn [mpo_prod map]. rewrite rov_cons by (cbn; congruence). rewrite V3. cbn [fuse d0 d1 d2 el pr4 m0 m1 m2 m3 e4]. rewrite H0, H1, H2, P1, P2, P3, P4.
  etransitivity.
  2:{ apply lsum_ext. intros i0 Hi0. apply in_seq in Hi0. symmetry.
      etransitivity; [apply lsum_ext; intros z0 Hz0; apply in_seq in Hz0; rewrite <- G2 by lia; reflexivity|].
      etransitivity; [apply (pairs Da Db (fun i1 i2 => cmul (ge cx e [i0; i1; i2]) (lsum (seq 0 (p * p)) (fun s => cmul (cconj (e4 o x (s / p) (s mod p) i0))
        (ssum p (fun k => cmul (e4 a (z / m0 b) k (s mod p) i1) (e4 b (z mod m0 b) (s / p) k i2))))))) |].
      apply lsum_ext. intros i1 _. apply lsum_ext. intros i2 _.
      rewrite (pairs p p (fun s s' => cmul (cconj (e4 o x s s' i0)) (ssum p (fun k => cmul (e4 a (z / m0 b) k s' i1) (e4 b (z mod m0 b) s k i2))))). reflexivity. }
  transitivity (lsum (seq 0 p) (fun s => lsum (seq 0 p) (fun k => lsum (seq 0 Db) (fun i2 => lsum (seq 0 p) (fun s' => lsum (seq 0 Da) (fun i1 => lsum (seq 0 D) (fun i0 =>
    cmul (cmul (cmul (cconj (e4 o x s s' i0)) (ge cx e [i0; i1; i2])) (e4 a (z / m0 b) k s' i1)) (e4 b (z mod m0 b) s k i2)))))))).
  { one. one. one. oner. oner. rewrite sumn_lsum, !lsum_mul_r. reflexivity. }
  etransitivity; [apply pull5|]. apply lsum_ext. intros i0 _. etransitivity; [apply pull4|]. apply lsum_ext. intros i1 _. etransitivity; [apply pull2|]. apply lsum_ext. intros i2 _.
  rewrite lsum_mul_l. apply lsum_ext. intros s _. rewrite lsum_mul_l. etransitivity; [apply lsum_swap|]. apply lsum_ext. intros s' _. rewrite sumn_lsum, !lsum_mul_l. apply lsum_ext. intros k _. ring.
Qed.

(** *** the two-site tensor is the product projected on the bases of the parts *)
Definition gp (l r : list cten) (X : list nat -> cx) (o s t o' : nat) : cx :=
  lsum (configs (dims l)) (fun cl => lsum (configs (dims r)) (fun cr => cmul (cmul (cconj (mm l cl 0 o)) (cconj (mm r cr o' 0))) (X (cl ++ [s; t] ++ cr)))).
Lemma gp_chain : forall l r xl x1 x2 xr o s t o', cfit 1 xl (d0 x1) -> dims xl = dims l ->
  gp l r (fun c => mm (xl ++ x1 :: x2 :: xr) c 0 0) o s t o' =
  lsum (seq 0 (d2 x1)) (fun z => cmul (lsum (seq 0 (d0 x1)) (fun y => cmul (lov l xl o y) (el x1 y s z))) (lsum (seq 0 (d2 x2)) (fun w => cmul (el x2 z t w) (rov r xr o' w)))).
Proof.
  intros l r xl x1 x2 xr o s t o' HF HD. unfold gp.
  transitivity (lsum (configs (dims l)) (fun cl => lsum (configs (dims r)) (fun cr => lsum (seq 0 (d0 x1)) (fun y => lsum (seq 0 (d2 x1)) (fun z => lsum (seq 0 (d2 x2)) (fun w =>
    cmul (cmul (cmul (cconj (mm l cl 0 o)) (mm xl cl 0 y)) (cmul (el x1 y s z) (el x2 z t w))) (cmul (cconj (mm r cr o' 0)) (mm xr cr w 0)))))))).
  { apply lsum_ext. intros cl Hc. apply lsum_ext. intros cr _.
    assert (LC : length cl = length xl) by (apply configs_len in Hc; rewrite map_length in Hc; rewrite Hc, <- (map_length (@d1 cx) l), <- HD, map_length; reflexivity).
    rewrite (mps_mat_app xl (x1 :: x2 :: xr) cl ([s; t] ++ cr) 1 (d0 x1) 0 0 HF ltac:(lia) LC). rewrite lsum_mul_l. apply lsum_ext. intros y _.
    cbn [app mps_mat]. rewrite sumn_lsum, !lsum_mul_l. apply lsum_ext. intros z _. rewrite sumn_lsum, !lsum_mul_l. apply lsum_ext. intros w _. ring. }
  etransitivity; [apply pull2|]. etransitivity.
  { apply lsum_ext. intros y _. etransitivity; [apply pull2|]. apply lsum_ext. intros z _. etransitivity; [apply pull2|].
    instantiate (1 := fun z => lsum (seq 0 (d2 x2)) (fun w => cmul (cmul (lov l xl o y) (cmul (el x1 y s z) (el x2 z t w))) (rov r xr o' w))). cbv beta.
    apply lsum_ext. intros w _. unfold lov, rov. rewrite !lsum_mul_r. apply lsum_ext. intros cl _. rewrite lsum_mul_l. reflexivity. }
  etransitivity; [apply lsum_swap|]. apply lsum_ext. intros z _. rewrite lsum_mul_r. apply lsum_ext. intros y _. rewrite lsum_mul_l. apply lsum_ext. intros w _. ring.
Qed.

Lemma two_ok : forall l r al bl ar br D Da Db D' Da' Db' le re o1 o2 a1 a2 b1 b2 p1 p2, lenv_ok l al bl D Da Db le -> renv_ok r ar br D' Da' Db' re -> site3 o1 a1 b1 -> site3 o2 a2 b2 -> m1 o1 = p1 -> m1 o2 = p2 ->
  m0 a1 = Da -> m0 b1 = Db -> m3 a2 = Da' -> m3 b2 = Db' -> m3 a1 = m0 a2 -> m3 b1 = m0 b2 -> fit4 cx 1 (prods al bl) (Da * Db) -> dims (fz (prods al bl)) = dims (fz l) -> length al = length bl ->
  exists g, two_sites le re a1 a2 b1 b2 = Ok g /\ gd cx g = [D; p1; p1; p2; p2; D'] /\ forall o s t o', o < D -> o' < D' ->
    at6 g o (s / p1) (s mod p1) (t / p2) (t mod p2) o' = gp (fz l) (fz r) (fun c => mm (fz (prods (al ++ a1 :: a2 :: ar) (bl ++ b1 :: b2 :: br))) c 0 0) o s t o'.
Proof.
  intros l r al bl ar br D Da Db D' Da' Db' le re o1 o2 a1 a2 b1 b2 p1 p2 [G1 G2] [K1 K2] [p [P1 [P2 [P3 [P4 [P5 P6]]]]]] [q [Q1 [Q2 [Q3 [Q4 [Q5 Q6]]]]]] EP1 EP2 H1 H2 H3 H4 H5 H6 HF HD HL.
  assert (E1 : p = p1) by congruence. assert (E2 : q = p2) by congruence. rewrite E1 in *. rewrite E2 in *. clear E1 E2 p q.
  destruct (two_sites_el le re a1 a2 b1 b2 D Da Db D' Da' Db' p1 p1 p2 p2 p1 p2 (m0 a2) (m0 b2)) as [g [V1 [V2 V3]]]; auto. exists g. split; [exact V1|]. split; [exact V2|]. intros o s t o' Ho Ho'.
  rewrite prod_app by exact HL. cbn [mpo_prod]. rewrite map_app. cbn [map]. rewrite gp_chain; [|cbn [fuse d0 pr4 m0]; rewrite H1, H2; apply fit4_fuse; exact HF|exact HD].
  rewrite V3. cbn [fuse d0 d1 d2 el pr4 m0 m1 m2 m3 e4]. rewrite H1, H2, H3, H4, H5, H6, P3, P4, Q3, Q4.
  rewrite (pairs (m0 a2) (m0 b2) (fun x y => cmul
     (lsum (seq 0 (Da * Db)) (fun z => cmul (lov (fz l) (fz (prods al bl)) o z) (ssum p1 (fun k => cmul (e4 a1 (z / Db) k (s mod p1) x) (e4 b1 (z mod Db) (s / p1) k y)))))
     (lsum (seq 0 (Da' * Db')) (fun w => cmul (ssum p2 (fun k => cmul (e4 a2 x k (t mod p2) (w / Db')) (e4 b2 y (t / p2) k (w mod Db')))) (rov (fz r) (fz (prods ar br)) o' w))))).
  rewrite sumn_lsum. etransitivity; [apply lsum_ext; intros; apply sumn_lsum|]. etransitivity; [apply lsum_swap|]. apply lsum_ext. intros x _. apply lsum_ext. intros y _. f_equal.
  - transitivity (lsum (seq 0 (Da * Db)) (fun z => cmul (ge cx le [o; z / Db; z mod Db]) (ssum p1 (fun k => cmul (e4 a1 (z / Db) k (s mod p1) x) (e4 b1 (z mod Db) (s / p1) k y))))).
    2:{ apply lsum_ext. intros z Hz. apply in_seq in Hz. rewrite G2 by lia. reflexivity. }
    rewrite (pairs Da Db (fun i j => cmul (ge cx le [o; i; j]) (ssum p1 (fun k => cmul (e4 a1 i k (s mod p1) x) (e4 b1 j (s / p1) k y))))).
    rewrite sumn_lsum. apply lsum_ext. intros i _. transitivity (lsum (seq 0 p1) (fun k => lsum (seq 0 Db) (fun j => cmul (cmul (ge cx le [o; i; j]) (e4 b1 j (s / p1) k y)) (e4 a1 i k (s mod p1) x)))).
    { rewrite sumn_lsum. apply lsum_ext. intros k _. rewrite sumn_lsum, lsum_mul_r. reflexivity. }
    etransitivity; [apply lsum_swap|]. apply lsum_ext. intros j _. rewrite sumn_lsum, lsum_mul_l. apply lsum_ext. intros k _. ring.
  - transitivity (lsum (seq 0 (Da' * Db')) (fun w => cmul (ssum p2 (fun k => cmul (e4 a2 x k (t mod p2) (w / Db')) (e4 b2 y (t / p2) k (w mod Db')))) (ge cx re [o'; w / Db'; w mod Db']))).
    2:{ apply lsum_ext. intros z Hz. apply in_seq in Hz. rewrite K2 by lia. reflexivity. }
    rewrite (pairs Da' Db' (fun i j => cmul (ssum p2 (fun k => cmul (e4 a2 x k (t mod p2) i) (e4 b2 y (t / p2) k j))) (ge cx re [o'; i; j]))).
    transitivity (lsum (seq 0 p2) (fun k => lsum (seq 0 Da') (fun i => lsum (seq 0 Db') (fun j => cmul (cmul (e4 b2 y (t / p2) k j) (ge cx re [o'; i; j])) (e4 a2 x k (t mod p2) i))))).
    { rewrite sumn_lsum. apply lsum_ext. intros k _. rewrite sumn_lsum. apply lsum_ext. intros i _. rewrite sumn_lsum, lsum_mul_r. reflexivity. }
    etransitivity; [apply lsum_swap|]. apply lsum_ext. intros i _. etransitivity; [apply lsum_swap|]. apply lsum_ext. intros j _. rewrite sumn_lsum, lsum_mul_r. apply lsum_ext. intros k _. ring.
Qed.
