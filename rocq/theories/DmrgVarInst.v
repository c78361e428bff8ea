(** Exact decompositions, a LAPACK for spaces of two vectors, and a chain of three spins: a whole run meets every hypothesis. *)
From Coq Require Import List Arith Bool Lia Reals Lra Ring_theory.
From Verif Require Import Base Disk SweepSpec NoiseSpec Dmrg DmrgSpec FiniteMps FmpsSpec FmpsFacts EffHam EffHamSpec EffHamFacts ChainSpec ChainFacts Lanczos LanczosSpec LanczosEig Krylov KrylovSpec Cx DmrgUpdate DmrgStep DmrgVarSpec DmrgVar DmrgVarRun.
Import ListNotations.
Local Open Scope nat_scope.
Notation csum := (FmpsSpec.sumn cx c0 cadd).
Notation cdelta := (FmpsSpec.delta cx c0 c1).
Notation csum_one := (FmpsFacts.sumn_one cx c0 c1 cadd cmul csub copp cx_ring).
Notation csum_e := (FmpsFacts.sumn_ext cx c0 cadd).

(** *** isometries that merge two legs *)
Lemma flat_sum : forall p n f, csum n (fun l => csum p (fun s => f (l * p + s))) = csum (n * p) f.
Proof.
  intros p. assert (A : forall m n f, csum (n + m) f = cadd (csum n f) (csum m (fun i => f (n + i)))).
  { induction m as [|m IH]; intros n f; [rewrite Nat.add_0_r; cbn [FmpsSpec.sumn]; ring|]. rewrite Nat.add_succ_r. cbn [FmpsSpec.sumn]. rewrite IH. ring. }
  induction n as [|n IH]; intros f; [reflexivity|]. cbn [FmpsSpec.sumn Nat.mul]. rewrite IH, (Nat.add_comm p), A. reflexivity.
Qed.
Lemma dd : forall k k' n, k < n -> csum n (fun j => cmul (cconj (cdelta k j)) (cdelta k' j)) = cdelta k k'.
Proof.
  intros k k' n H. rewrite (csum_one n k) by (auto; intros i _ Hi; unfold delta; replace (k =? i) with false by (symmetry; apply Nat.eqb_neq; auto); rewrite cconj0; ring).
  unfold delta. rewrite Nat.eqb_refl, cconj1, (Nat.eqb_sym k'). destruct (k =? k'); ring.
Qed.
Lemma pick : forall k n f, k < n -> csum n (fun j => cmul (cdelta j k) (f j)) = f k.
Proof. intros k n f H. rewrite (csum_one n k) by (auto; intros i _ Hi; unfold delta; replace (i =? k) with false by (symmetry; apply Nat.eqb_neq; auto); ring). unfold delta. rewrite Nat.eqb_refl. ring. Qed.
Lemma divmod : forall p x s, s < p -> (x * p + s) / p = x /\ (x * p + s) mod p = s.
Proof. intros p x s H. split; [rewrite Nat.div_add_l by lia; rewrite Nat.div_small by auto; lia|rewrite Nat.add_comm, Nat.mod_add by lia; apply Nat.mod_small; auto]. Qed.
Definition mergeL (D p : nat) : cten := mkTen D p (D * p) (fun x s k => cdelta k (x * p + s)).
Definition mergeR (p D : nat) : cten := mkTen (D * p) p D (fun k s y => cdelta k (y * p + s)).
Lemma mergeL_left : forall D p, cleft (mergeL D p).
Proof. intros D p k k' Hk Hk'. cbn [mergeL d0 d1 d2 el] in *. rewrite (flat_sum p D (fun j => cmul (cconj (cdelta k j)) (cdelta k' j))). apply dd. auto. Qed.
Lemma mergeR_right : forall D p, cright (mergeR p D).
Proof. intros D p k k' Hk Hk'. cbn [mergeR d0 d1 d2 el] in *. rewrite (flat_sum p D (fun j => cmul (cconj (cdelta k j)) (cdelta k' j))). apply dd. auto. Qed.
Definition xsplit (rt : bool) (D0 p1 p2 D3 : nat) (g : cten4) : cten * cten :=
  if rt then (mergeL D0 p1, mkTen (D0 * p1) p2 D3 (fun k s y => g (k / p1) (k mod p1) s y))
  else (mkTen D0 p1 (D3 * p2) (fun x s k => g x s (k mod p2) (k / p2)), mergeR p2 D3).
Lemma xsplit_ok : exact_split cx c0 c1 cadd cmul cconj xsplit.
Proof.
  intros [] D0 p1 p2 D3 g; cbn [xsplit]; (split; [|apply mergeL_left || apply mergeR_right]); split; try reflexivity; intros x s s' y Hx Hs Hs' Hy; unfold two_site; cbn [d2 el mergeL mergeR].
  - rewrite (pick (x * p1 + s) (D0 * p1) (fun j => g (j / p1) (j mod p1) s' y)) by nia. destruct (divmod p1 x s Hs) as [-> ->]. reflexivity.
  - rewrite (csum_e _ _ (fun j => cmul (cdelta j (y * p2 + s')) (g x s (j mod p2) (j / p2)))) by (intros; ring). rewrite (pick (y * p2 + s') (D3 * p2) (fun j => g x s (j mod p2) (j / p2))) by nia. destruct (divmod p2 y s' Hs') as [-> ->]. reflexivity.
Qed.
Definition xsvd (D0 p1 p2 D3 : nat) (g : cten4) : cten * (nat -> nat -> cx) * cten := (mergeL D0 p1, fun k m => g (k / p1) (k mod p1) (m mod p2) (m / p2), mergeR p2 D3).
Lemma xsvd_ok : exact_svd cx c0 c1 cadd cmul cconj xsvd.
Proof.
  intros D0 p1 p2 D3 g. cbn [xsvd]. do 4 (split; [reflexivity|]). split; [apply mergeL_left|]. split; [apply mergeR_right|]. intros x s s' y Hx Hs Hs' Hy. cbn [mergeL mergeR d0 d2 el].
  rewrite (csum_e _ _ (fun k => cmul (cdelta k (x * p1 + s)) (g (k / p1) (k mod p1) s' y))).
  - rewrite (pick (x * p1 + s) (D0 * p1) (fun k => g (k / p1) (k mod p1) s' y)) by nia. destruct (divmod p1 x s Hs) as [-> ->]. reflexivity.
  - intros k Hk. rewrite (csum_e _ _ (fun m => cmul (cdelta m (y * p2 + s')) (cmul (cdelta k (x * p1 + s)) (g (k / p1) (k mod p1) (m mod p2) (m / p2))))) by (intros; ring).
    rewrite (pick (y * p2 + s') (D3 * p2) (fun m => cmul (cdelta k (x * p1 + s)) (g (k / p1) (k mod p1) (m mod p2) (m / p2)))) by nia. destruct (divmod p2 y s' Hs') as [-> ->]. reflexivity.
Qed.
Definition xright (a b : cten) : cten * cten := xsplit true (d0 a) (d1 a) (d1 b) (d2 b) (ctwo a b).
Lemma xright_ok : moves_right cx c0 c1 cadd cmul cconj xright.
Proof. intros a b _. exact (xsplit_ok true (d0 a) (d1 a) (d1 b) (d2 b) (ctwo a b)). Qed.
Definition xleft (a b : cten) : cten * cten :=
  let m := fun j k => el b j (k mod d1 b) (k / d1 b) in
  (mkTen (d0 a) (d1 a) (d2 b * d1 b) (fun x s k => csum (d2 a) (fun j => cmul (el a x s j) (m j k))), mergeR (d1 b) (d2 b)).
Lemma xleft_ok : moves_left cx c0 c1 cadd cmul cconj xleft.
Proof.
  intros a b _. unfold xleft. exists (fun j k => el b j (k mod d1 b) (k / d1 b)). do 5 (split; [reflexivity|]). split; [apply mergeR_right|]. split; [reflexivity|].
  intros j s y Hj Hs Hy. cbn [mergeR d0 el]. rewrite (csum_e _ _ (fun k => cmul (cdelta k (y * d1 b + s)) (el b j (k mod d1 b) (k / d1 b)))) by (intros; ring).
  rewrite (pick (y * d1 b + s) (d2 b * d1 b) (fun k => el b j (k mod d1 b) (k / d1 b))) by nia. destruct (divmod (d1 b) y s Hs) as [-> ->]. reflexivity.
Qed.

(** *** symmetric matrices of two rows *)
Section Two.
Local Open Scope R_scope.
Definition stev2 (d e : list real) : list real * list real :=
  let a := nth 0 d 0 in let b := nth 1 d 0 in let c := nth 0 e 0 in
  if is_zero c then (if Rle_dec a b then ([a; b], [1; 0; 0; 1]) else ([b; a], [0; 1; 1; 0]))
  else let r := sqrt ((a - b) * (a - b) + 4 * (c * c)) in let x := (a + b - r) / 2 in let y := (a + b + r) / 2 in let n := / sqrt (c * c + (x - a) * (x - a)) in
  ([x; y], [c * n; - (x - a) * n; (x - a) * n; c * n]).
Lemma stev2_ok : forall a b c, let (dv, z) := stev2 [a; b] [c] in eigensystem 0 1 Rplus Rmult Rle [a; b] [c] dv z.
Proof.
  intros a b c. unfold stev2. cbn [nth]. unfold is_zero. destruct (Req_EM_T c 0) as [->|NZ].
  - destruct (Rle_dec a b) as [H|H]; (split; cbn [length]; [reflexivity|reflexivity| | | |]).
    1,5: intros [|[|i]] [|[|j]] Hi Hj; try lia; cbn; ring.
    1,2,4,5: intros [|[|i]] [|[|j]] Hi Hj; try lia; cbn; ring.
    1,2: intros [|[|j]] Hj; try lia; cbn; lra.
  - set (r := sqrt _). set (x := (a + b - r) / 2). set (y := (a + b + r) / 2). set (q := c * c + (x - a) * (x - a)).
    assert (R0 : 0 <= r) by apply sqrt_pos.
    assert (RR : r * r = (a - b) * (a - b) + 4 * (c * c)). { unfold r. apply sqrt_sqrt. pose proof (Rle_0_sqr (a - b)). pose proof (Rle_0_sqr c). unfold Rsqr in *. lra. }
    assert (Q : 0 < q). { unfold q. pose proof (Rsqr_pos_lt c NZ). pose proof (Rle_0_sqr (x - a)). unfold Rsqr in *. lra. }
    assert (XY : x + y = a + b) by (unfold x, y; lra). assert (PR : (x - a) * (y - a) = - (c * c)) by (unfold x, y; nra).
    set (n := / sqrt q). assert (NN : n * n * q = 1). { unfold n. pose proof (sqrt_lt_R0 q Q) as S. rewrite <- (sqrt_sqrt q) at 3 by lra. field. lra. }
    assert (E1 : c * c = - ((x - a) * (b - x))) by (rewrite <- (Ropp_involutive (c * c)), <- PR; replace (y - a) with (b - x) by lra; reflexivity).
    clearbody n. split; cbn [length]; [reflexivity|reflexivity| | | |].
    + intros [|[|i]] [|[|j]] Hi Hj; try lia; cbn; replace y with (a + b - x) by lra; try ring.
      * transitivity (n * (- (a * (x - a)) + c * c)); [ring|]. rewrite E1. ring.
      * transitivity (n * (c * c + b * (x - a))); [ring|]. rewrite E1. ring.
    + unfold q in NN. intros [|[|i]] [|[|j]] Hi Hj; try lia; cbn; try ring; rewrite <- NN; ring.
    + unfold q in NN. intros [|[|i]] [|[|j]] Hi Hj; try lia; cbn; try ring; rewrite <- NN; ring.
    + intros [|[|j]] Hj; try lia; cbn; unfold x, y; lra.
Qed.
End Two.
(** with a Krylov space of two vectors, whatever the chain *)
Lemma stev2_at : forall ws close size l gl gr t1 t2, lapack_at ws stev2 close 2 size l gl gr t1 t2.
Proof.
  intros ws close size l gl gr t1 t2. unfold lapack_at. intros r g E n Hn.
  set (D0 := d0 t1) in *. set (p1 := d1 t1) in *. set (p2 := d1 t2) in *. set (D3 := d2 t2) in *. set (mul := fun x => match d_mul ws l gl gr t1 t2 x with Ok y => y | _ => x end) in *. set (v := d_init t1 t2) in *.
  assert (I : iters real r <= 2).
  { unfold v_lanczos in E.
    destruct (eig_solver_ok real cten4 real 0%R (fun x => (x * x)%R) is_zero mul (v_dot D0 p1 p2 D3) v_lc1 v_lc2 (v_normalize D0 p1 p2 D3) (fun x => x) (fun _ => eq_refl) (gs_eng real 0%R stev2) (gs_vec real 0%R stev2) v_comb close v 2 (size D0 p1 p2 D3) (mkH cten4 real [Some v] []) 0 eq_refl ltac:(lia)) as [m [r' [h' [M [_ [O RUN]]]]]].
    rewrite RUN in E. cbn [bind] in E. destruct (rd cten4 real (gs real r') h'); try discriminate. cbn [bind] in E. injection E as -> _.
    destruct O as [[_ [-> _]]|[_ [_ [-> _]]]]; lia. }
  replace n with 2 by lia. unfold als, bes. cbn [Nat.sub seq map]. apply stev2_ok.
Qed.
Lemma stev2_along : forall N ws close size split bs s, lapack_along N ws stev2 close 2 size split bs s.
Proof. intros N ws close size split bs. induction bs as [|b bs IH]; intros s; cbn [lapack_along]; [exact I|]. split; [apply stev2_at|apply IH]. Qed.

(** *** Hermitian elements make a Hermitian operator *)
Lemma entries_hermitian : forall N ws ds, (forall i x y s s', mval cx c0 (ws i) x y s s' = cconj (mval cx c0 (ws i) x y s' s)) -> hermitian_mpo cx c0 c1 cadd cmul cconj ds (sites N ws).
Proof.
  intros N ws ds H c c' _ _. unfold sites. generalize (seq 0 N). intros l.
  assert (G : forall c c' x y, mpo_mat cx c0 c1 cadd cmul (map ws l) c c' x y = cconj (mpo_mat cx c0 c1 cadd cmul (map ws l) c' c x y)); [|apply G]. clear c c'.
  induction l as [|i l IH]; intros [|s c] [|s' c'] x y; cbn [map mpo_mat]; try (symmetry; apply cconj0).
  - unfold delta. destruct (x =? y); symmetry; [apply cconj1|apply cconj0].
  - rewrite (conj_sumn cx c0 cadd cconj cconj0 cconj_add). apply csum_e. intros z Hz. rewrite cconj_mul, <- H, <- IH. reflexivity.
Qed.

(** *** three spins in a transverse field: H = X_0 + X_1 + X_2, initially all up *)
Definition oI : cop := fun s s' => cdelta s s'.
Definition oX : cop := fun s s' => if (s + s') =? 1 then c1 else c0.
Definition x_mpo (i : nat) : cmpo :=
  mkMpo cx (if i =? 0 then 1 else 2) (if i =? 2 then 1 else 2)
    (fun r c => match i with
                | 0 => if c =? 0 then Some oI else Some oX
                | 2 => if r =? 0 then Some oX else Some oI
                | _ => if r =? c then Some oI else if (r <? c) then Some oX else None
                end).
Definition x_ts (i : nat) : cten := mkTen 1 2 1 (fun _ s _ => cdelta s 0).
Lemma x_proper : proper_mpo 3 x_mpo [2; 2; 2].
Proof.
  split.
  - cbn. auto.
  - intros i j Hj. destruct i as [|[|[|i]]]; cbn in *.
    + exists 0. split; [lia|]. destruct (j =? 0); discriminate.
    + exists j. split; [lia|]. rewrite Nat.eqb_refl. discriminate.
    + exists 0. split; [lia|]. discriminate.
    + exists j. split; [lia|]. rewrite Nat.eqb_refl. discriminate.
  - intros i j Hj. destruct i as [|[|[|i]]]; cbn in *.
    + exists 0. split; [lia|]. discriminate.
    + exists j. split; [lia|]. rewrite Nat.eqb_refl. discriminate.
    + exists 0. split; [lia|]. destruct (j =? 0); discriminate.
    + exists j. split; [lia|]. rewrite Nat.eqb_refl. discriminate.
  - intros [|[|i]] Hi; cbn; lia.
  - apply entries_hermitian. assert (HI : forall s s', oI s s' = cconj (oI s' s)) by (intros; unfold oI, delta; rewrite (Nat.eqb_sym s'); destruct (s =? s'); symmetry; [apply cconj1|apply cconj0]).
    assert (HX : forall s s', oX s s' = cconj (oX s' s)) by (intros; unfold oX; rewrite (Nat.add_comm s'); destruct (s + s' =? 1); symmetry; [apply cconj1|apply cconj0]).
    intros i x y s s'. unfold mval, x_mpo. cbn [ent]. destruct i as [|[|[|i]]].
    + destruct (y =? 0); auto.
    + destruct (x =? y); auto. destruct (x <? y); auto. symmetry. apply cconj0.
    + destruct (x =? 0); auto.
    + destruct (x =? y); auto. destruct (x <? y); auto. symmetry. apply cconj0.
Qed.
Lemma x_on : on_sites 3 [2; 2; 2] x_ts.
Proof. split; [cbn; auto|reflexivity]. Qed.
Lemma x_center : centered 3 0 x_ts.
Proof.
  split; [intros i Hi; lia|]. intros i _ k k' Hk Hk'. cbn [x_ts d0 d1 d2 el] in *. replace k with 0 by lia. replace k' with 0 by lia. cbn [FmpsSpec.sumn]. unfold delta. cbn [Nat.eqb]. rewrite cconj0, cconj1. ring.
Qed.
Lemma x_norm : normalized 3 x_ts.
Proof.
  unfold normalized, norm2. cbn [sites map seq x_ts d1 configs flat_map app EffHamSpec.lsum fold_right mps_mat FmpsSpec.sumn d2 el]. unfold delta. cbn [Nat.eqb].
  assert (Z : forall x, cmul c0 x = c0) by (intros; ring). assert (Y : forall x, cmul x c0 = c0) by (intros; ring). assert (A : forall x, cadd c0 x = x) by (intros; ring). assert (B : forall x, cadd x c0 = x) by (intros; ring). assert (M : cmul c1 c1 = c1) by ring.
  rewrite ?A, ?Z, ?M, ?A, ?Z, ?M, ?A, ?Z, ?M, ?cconj0, ?cconj1, ?Z, ?Y, ?M, ?A, ?B. reflexivity.
Qed.
(** its files, nothing in memory, no temporary files *)
Definition x_w : world cten unit (res real) := mkW _ _ _ 3 fnone 0 fnone fnone None None (fun i => Some (x_ts i)) fnone fnone false.
Definition x_d : dst cten cop (res real) := mkD _ _ _ x_w (fun _ => []) (fun _ => []) (fun _ _ _ => None) false false 0.
Definition x_small (t : cten) : bool := d2 t <? d0 t * d1 t.
Definition x_ts0 : nat -> cten := snd (prep cten xright xleft (fun _ => false) x_small (fun _ => false) x_small xright xleft 3 x_ts).
Lemma x_ready : ready cten cop (res real) 3 (fun i => mcols (x_mpo i)) (fun _ _ _ => c1) (d_grow x_mpo) xright xleft (fun _ => false) x_small (fun _ => false) x_small xright xleft x_ts x_ts0 0 2 x_d.
Proof.
  split; [lia|]. split; [reflexivity|]. split; [reflexivity|]. split; [intros i _; reflexivity|]. split; [intros i _; reflexivity|]. intros H. discriminate.
Qed.
