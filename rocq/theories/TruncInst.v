(** A decomposition that keeps one singular vector: of the rows of the matrix (legs 0 and 1 against legs 2 and 3) only the first that is not zero. *)
From Coq Require Import List Arith Bool Lia QArith Qreals Reals Lra Ring_theory.
From Verif Require Import Base Disk SweepSpec TwoSite TwoSiteFacts Tdvp TdvpSpec TdvpRun FiniteMps FmpsSpec FmpsFacts EffHam EffHamSpec EffHamFacts ChainSpec Legs VmpsLocal VmpsSpec Lanczos LanczosSpec Krylov KrylovSpec Cx KrylovInst GVec GVecFacts DmrgStep ChainUpdate DmrgVarSpec DmrgVar DmrgVarInst ConserveSpec ConserveFacts ConserveRun ConserveInst TruncUpdate TruncSpec TruncFacts TruncRun.
Import ListNotations.
Local Open Scope nat_scope.

Section Row.
Variables (D0 p1 p2 D3 : nat) (x : cvec).
(** weight of a row *)
Definition row_w (q : nat * nat) : cx := csum p2 (fun s => csum D3 (fun b => cmul (x [fst q; snd q; s; b]) (cconj (x [fst q; snd q; s; b])))).
Definition row_nz (q : nat * nat) : bool := if Req_EM_T (fst (row_w q)) 0 then false else true.
Definition row : nat * nat := match find row_nz (list_prod (seq 0 D0) (seq 0 p1)) with Some q => q | None => (0, 0) end.
Lemma sq_im : forall z, snd (cmul z (cconj z)) = 0%R.
Proof. intros [a b]. unfold cmul, cconj. cbn [fst snd]. ring. Qed.
Lemma csum_im : forall n f, (forall i, i < n -> snd (f i) = 0%R) -> snd (csum n f) = 0%R.
Proof. induction n as [|n IH]; intros f H; cbn [FmpsSpec.sumn]; [reflexivity|]. change (snd (cadd (csum n f) (f n))) with (snd (csum n f) + snd (f n))%R. rewrite IH by auto. rewrite H by lia. ring. Qed.
Lemma row_pos : forall q, (0 <= fst (row_w q))%R /\ snd (row_w q) = 0%R.
Proof.
  intros q. split.
  - apply (csum_pos p2). intros s _. apply (csum_pos D3). intros b _. apply sq_pos.
  - apply csum_im. intros s _. apply csum_im. intros b _. apply sq_im.
Qed.
Lemma row_cre : forall q, row_w q = cre (fst (row_w q)).
Proof. intros q. pose proof (proj2 (row_pos q)) as P. destruct (row_w q) as [a b]. cbn in *. subst b. reflexivity. Qed.
Notation total := (csum D0 (fun a => csum p1 (fun s => row_w (a, s)))).
Lemma ip_rows : g_ip [D0; p1; p2; D3] x x = total.
Proof. reflexivity. Qed.
Lemma csum_ge : forall n f k, (forall i, i < n -> (0 <= fst (f i))%R) -> k < n -> (fst (f k) <= fst (csum n f))%R.
Proof.
  induction n as [|n IH]; intros f k H Hk; [lia|]. cbn [FmpsSpec.sumn]. change (fst (cadd (csum n f) (f n))) with (fst (csum n f) + fst (f n))%R. pose proof (H n ltac:(lia)) as P.
  destruct (Nat.eq_dec k n) as [->|]; [pose proof (proj1 (csum_pos n f ltac:(auto))); lra|]. specialize (IH f k ltac:(auto) ltac:(lia)). lra.
Qed.
Lemma row_in : g_ip [D0; p1; p2; D3] x x <> c0 -> fst row < D0 /\ snd row < p1 /\ (0 < fst (row_w row) <= fst total)%R.
Proof.
  intros NZ. unfold row. destruct (find row_nz _) as [[a s]|] eqn:F.
  - destruct (find_some _ _ F) as [I B]. apply in_prod_iff in I. rewrite !in_seq in I. cbn [fst snd]. split; [lia|]. split; [lia|]. unfold row_nz in B. destruct (Req_EM_T _ 0) as [|N]; [discriminate|]. pose proof (proj1 (row_pos (a, s))). split; [lra|].
    apply Rle_trans with (fst (csum p1 (fun s => row_w (a, s)))); [apply (csum_ge p1 (fun s => row_w (a, s)) s); [intros; apply row_pos|lia]|].
    apply (csum_ge D0 (fun a => csum p1 (fun s => row_w (a, s))) a); [|lia]. intros i _. apply (csum_pos p1). intros. apply row_pos.
  - exfalso. apply NZ. rewrite ip_rows. rewrite (csum_ext D0 _ (fun _ => cmul c0 c0)).
    + clear. induction D0 as [|n IH]; cbn [FmpsSpec.sumn]; [reflexivity|]. rewrite IH. ring.
    + intros a Ha. rewrite (csum_ext p1 _ (fun _ => c0)).
      * clear. induction p1 as [|n IH]; cbn [FmpsSpec.sumn]; [ring|]. rewrite IH. ring.
      * intros s Hs. pose proof (find_none _ _ F (a, s) ltac:(apply in_prod_iff; rewrite !in_seq; lia)) as Z. unfold row_nz in Z. destruct (Req_EM_T _ 0) as [E|]; [|discriminate]. rewrite row_cre, E. reflexivity.
Qed.
End Row.
Notation x_row x := (row (nth 0 (cgd x) 0) (nth 1 (cgd x) 0) (nth 2 (cgd x) 0) (nth 3 (cgd x) 0) (cge x)).
Notation x_w x := (fst (row_w (nth 2 (cgd x) 0) (nth 3 (cgd x) 0) (cge x) (x_row x))).
Definition r_svd (n : nat) (x : cg) : cg * cg * cg :=
  (mkG cx [nth 0 (cgd x) 0; nth 1 (cgd x) 0; 1] (fun l => if (nth 0 l 0 =? fst (x_row x)) && (nth 1 l 0 =? snd (x_row x)) then c1 else c0),
   mkG cx [1; 1] (fun _ => cre (sqrt (x_w x))),
   mkG cx [1; nth 2 (cgd x) 0; nth 3 (cgd x) 0] (fun l => cmul (cre (/ sqrt (x_w x))) (cge x [fst (x_row x); snd (x_row x); nth 1 l 0; nth 2 l 0]))).
Definition r_err (x : cg) : real := (1 - x_w x / fst (g_ip (cgd x) (cge x) (cge x)))%R.
Lemma r_capped : capped_gsvd 1 r_svd.
Proof. intros x D0 p1 p2 D3 _. cbn. lia. Qed.
Lemma csum_at : forall n k f, k < n -> (forall i, i < n -> i <> k -> f i = c0) -> csum n f = f k.
Proof. intros n k f Hk H. apply csum_one; auto. Qed.
Definition r_kept (x : cg) : cvec := fun l => if (nth 0 l 0 =? fst (x_row x)) && (nth 1 l 0 =? snd (x_row x)) then cge x l else c0.
Lemma r_svd_kept : forall x D0 p1 p2 D3, cgd x = [D0; p1; p2; D3] -> let ip := g_ip (cgd x) in ip (cge x) (cge x) <> c0 -> let y := r_kept x in
  factors cx c0 cadd cmul r_svd 2 x (mkG cx (cgd x) y) /\ (let '(u, _, vt) := r_svd 2 x in cleft (cten_of u) /\ cright (cten_of vt)) /\
  ip y (cge x) = ip y y /\ ip y y = cmul (cre (1 - r_err x)) (ip (cge x) (cge x)) /\ (0 <= r_err x < 1)%R.
Proof.
  intros [xd x] D0 p1 p2 D3 E. cbn [gd ge] in *. subst xd. cbv zeta. intros NZ. unfold r_kept.
  destruct (row_in D0 p1 p2 D3 x NZ) as [R0 [R1 [R2 R3]]]. unfold r_err, r_svd. cbn [gd ge nth]. set (q := row D0 p1 p2 D3 x) in *. set (w := fst (row_w p2 D3 x q)) in *. rewrite <- ip_rows in R3.
  set (y := fun l : list nat => if (nth 0 l 0 =? fst q) && (nth 1 l 0 =? snd q) then x l else c0).
  assert (SW : (0 < sqrt w)%R) by (apply sqrt_lt_R0; exact R2).
  assert (WR : row_w p2 D3 x q = cre w) by apply row_cre.
  assert (IP : forall u, g_ip [D0; p1; p2; D3] y u = csum p2 (fun s => csum D3 (fun b => cmul (x [fst q; snd q; s; b]) (cconj (u [fst q; snd q; s; b]))))).
  { intros u. change (g_ip [D0; p1; p2; D3] y u) with (csum D0 (fun a => csum p1 (fun t => csum p2 (fun s => csum D3 (fun b => cmul (y [a; t; s; b]) (cconj (u [a; t; s; b]))))))).
    assert (Z : forall n, csum n (fun _ => c0) = c0) by (induction n as [|n IH]; cbn [FmpsSpec.sumn]; [reflexivity|rewrite IH; ring]).
    assert (Z2 : forall a t, (a =? fst q) && (t =? snd q) = false -> csum p2 (fun s => csum D3 (fun b => cmul (y [a; t; s; b]) (cconj (u [a; t; s; b])))) = c0).
    { intros a t F. rewrite (csum_ext p2 _ (fun _ => c0)); [apply Z|]. intros s _. rewrite (csum_ext D3 _ (fun _ => c0)); [apply Z|]. intros b _. unfold y. cbn [nth]. rewrite F. ring. }
    rewrite (csum_at D0 (fst q)); [|exact R0|].
    - rewrite (csum_at p1 (snd q)); [|exact R1|].
      + apply csum_ext. intros s _. apply csum_ext. intros b _. unfold y. cbn [nth]. rewrite !Nat.eqb_refl. reflexivity.
      + intros t _ Ht. apply Z2. apply Bool.andb_false_iff. right. apply Nat.eqb_neq. exact Ht.
    - intros a _ Ha. rewrite (csum_ext p1 _ (fun _ => c0)); [apply Z|]. intros t _. apply Z2. apply Bool.andb_false_iff. left. apply Nat.eqb_neq. exact Ha. }
  assert (YX : g_ip [D0; p1; p2; D3] y x = cre w) by (rewrite IP; exact WR).
  assert (YY : g_ip [D0; p1; p2; D3] y y = cre w).
  { rewrite IP, <- WR. apply csum_ext. intros s _. apply csum_ext. intros b _. unfold y. cbn [nth]. rewrite !Nat.eqb_refl. reflexivity. }
  assert (XX : g_ip [D0; p1; p2; D3] x x = cre (fst (g_ip [D0; p1; p2; D3] x x))).
  { rewrite ip_rows. set (t := csum D0 _). assert (snd t = 0%R) by (apply csum_im; intros; apply csum_im; intros; apply row_pos). destruct t. cbn in *. subst. reflexivity. }
  set (W := fst (g_ip [D0; p1; p2; D3] x x)) in *.
  fold y. split; [|split; [|split; [|split]]].
  - unfold factors, r_svd. cbn [gd ge nth]. fold q. fold w. split; [reflexivity|]. exists 1, 1. split; [reflexivity|]. split; [reflexivity|]. split; [reflexivity|]. intros i j Hi Hij. destruct (cfg4 D0 p1 p2 D3 _ Hij) as [a [t [s [b [E [Ha [Ht [Hs Hb]]]]]]]].
    destruct i as [|a' [|t' [|? ?]]]; try discriminate. cbn [app] in E. injection E as -> -> ->. cbn [app FmpsSpec.sumn ge nth]. unfold y. cbn [nth].
    destruct ((a =? fst q) && (t =? snd q)) eqn:B; [|ring]. apply andb_true_iff in B. destruct B as [B1 B2]. apply Nat.eqb_eq in B1, B2. subst a t.
    transitivity (cmul (cmul (cre (sqrt w)) (cre (/ sqrt w))) (x [fst q; snd q; s; b])); [|ring]. replace (cmul (cre (sqrt w)) (cre (/ sqrt w))) with c1; [ring|]. unfold cmul, cre, c1. cbn [fst snd]. f_equal; field; lra.
  - split; intros k k' Hk Hk'; cbn [Legs.ten_of gd ge nth d0 d1 d2 el] in *; replace k with 0 by lia; replace k' with 0 by lia; unfold delta; cbn [Nat.eqb].
    + rewrite (csum_at D0 (fst q)); [|exact R0|].
      * rewrite (csum_at p1 (snd q)); [rewrite !Nat.eqb_refl; cbn [andb]; rewrite cconj1; ring|exact R1|]. intros t _ Ht. apply Nat.eqb_neq in Ht. rewrite Ht, andb_false_r. ring.
      * intros a _ Ha. apply Nat.eqb_neq in Ha. rewrite Ha. cbn [andb]. clear. induction p1 as [|n IH]; cbn [FmpsSpec.sumn]; [reflexivity|]. rewrite IH. ring.
    + transitivity (cmul (cre (/ w)) (row_w p2 D3 x q)); [|rewrite WR; unfold cmul, cre, c1; cbn [fst snd]; f_equal; field; lra]. unfold row_w. rewrite (FmpsFacts.sumn_swap cx c0 c1 cadd cmul csub copp cx_ring D3 p2).
      rewrite (FmpsFacts.sumn_mul_l cx c0 c1 cadd cmul csub copp cx_ring). apply csum_ext. intros s _. rewrite (FmpsFacts.sumn_mul_l cx c0 c1 cadd cmul csub copp cx_ring). apply csum_ext. intros b _. rewrite cconj_mul.
      set (z := x [fst q; snd q; s; b]). replace (cre (/ w)) with (cmul (cconj (cre (/ sqrt w))) (cre (/ sqrt w))); [ring|]. unfold cmul, cconj, cre. cbn [fst snd]. f_equal; [|ring].
      transitivity (/ (sqrt w * sqrt w))%R; [field; lra|]. rewrite sqrt_sqrt by lra. reflexivity.
  - rewrite YX, YY. reflexivity.
  - rewrite YY, XX. unfold cmul, cre. cbn [fst snd]. f_equal; field; lra.
  - assert (0 < w / W <= 1)%R; [|lra]. split; [apply Rdiv_lt_0_compat; lra|]. apply Rmult_le_reg_r with W; [lra|]. unfold Rdiv. rewrite Rmult_assoc, Rinv_l by lra. lra.
Qed.
Lemma r_svd_ok : trunc_gsvd r_err r_svd.
Proof. intros x D0 p1 p2 D3 E ip NZ. exists (r_kept x). exact (r_svd_kept x D0 p1 p2 D3 E NZ). Qed.
Lemma r_along : forall N ws size svd err close bs rs, along_lapack N ws stev2 2 size svd err close bs rs.
Proof. intros N ws size svd err close bs. induction bs as [|b bs IH]; intros rs; cbn [along_lapack]; [exact I|]. split; [|apply IH]. unfold bond_lapack. intros. apply y_eig. Qed.
