(** A decomposition that keeps one singular vector, and two DMRG runs with it on three sites: spins in a transverse field, and a Bell pair that the
    truncation destroys. *)
From Coq Require Import List Arith Bool Lia Reals Lra Ring_theory.
From Verif Require Import Base Disk SweepSpec NoiseSpec Dmrg DmrgSpec FiniteMps FmpsSpec FmpsFacts EffHam EffHamSpec EffHamFacts ChainSpec ChainFacts Legs VmpsSpec ChainUpdate ConserveSpec GVec Lanczos LanczosSpec Krylov KrylovSpec Cx DmrgUpdate DmrgStep DmrgVarSpec DmrgVar DmrgVarRun DmrgVarInst TruncInst DmrgTrunc DmrgTruncSpec DmrgTruncFacts DmrgTruncRun ThinQr VmpsState.
Import ListNotations.
Local Open Scope nat_scope.

(** *** one row is kept *)
Definition t_arg (D0 p1 p2 D3 : nat) (g : cten4) : cg := mkG cx [D0; p1; p2; D3] (fun l => g (nth 0 l 0) (nth 1 l 0) (nth 2 l 0) (nth 3 l 0)).
Definition t_svd (D0 p1 p2 D3 : nat) (g : cten4) : cten * (nat -> nat -> cx) * cten :=
  let '(u, s, vt) := r_svd 2 (t_arg D0 p1 p2 D3 g) in (cten_of u, fun k m => cge s [k; m], cten_of vt).
(** a single row is kept exactly *)
Definition t_err (D0 p1 p2 D3 : nat) (g : cten4) : real := if D0 * p1 =? 1 then 0%R else r_err (t_arg D0 p1 p2 D3 g).
Lemma one_row : forall p2 D3 g, v_ip 1 1 p2 D3 g g <> c0 -> r_err (t_arg 1 1 p2 D3 g) = 0%R.
Proof.
  intros p2 D3 g NZ. destruct (row_in 1 1 p2 D3 (cge (t_arg 1 1 p2 D3 g)) NZ) as [R0 [R1 [R2 R3]]]. unfold r_err. cbn [t_arg gd nth] in *. set (q := row 1 1 p2 D3 _) in *.
  assert (Q : q = (0, 0)) by (destruct q as [a b]; cbn in R0, R1; f_equal; lia). rewrite Q in *. cbn [fst snd] in *.
  set (w := row_w p2 D3 _ (0, 0)) in *. change (g_ip [1; 1; p2; D3] (ge cx (t_arg 1 1 p2 D3 g)) (ge cx (t_arg 1 1 p2 D3 g))) with (cadd c0 (cadd c0 w)). replace (cadd c0 (cadd c0 w)) with w by ring. field. lra.
Qed.
Lemma t_svd_ok : trunc_svd t_err t_svd.
Proof.
  intros D0 p1 p2 D3 g ip NZ. pose proof (r_svd_kept (t_arg D0 p1 p2 D3 g) D0 p1 p2 D3 eq_refl) as K. cbv zeta in K. specialize (K NZ). destruct K as [F [CUV [K1 [K2 K3]]]].
  set (yy := r_kept (t_arg D0 p1 p2 D3 g)) in *.
  assert (ER : t_err D0 p1 p2 D3 g = r_err (t_arg D0 p1 p2 D3 g)).
  { unfold t_err. destruct (Nat.eqb_spec (D0 * p1) 1) as [E|]; [|reflexivity]. apply Nat.eq_mul_1 in E. destruct E as [-> ->]. symmetry. apply one_row. exact NZ. }
  cbv zeta. unfold t_svd. unfold factors in F. destruct (r_svd 2 (t_arg D0 p1 p2 D3 g)) as [[u s] vt] eqn:SV. destruct CUV as [CU CV]. cbn [t_arg gd firstn skipn app] in F.
  destruct F as [_ [K [L [G1 [G2 [G3 G4]]]]]]. split; [cbn [Legs.ten_of d0]; rewrite G1; reflexivity|]. split; [cbn [Legs.ten_of d1]; rewrite G1; reflexivity|]. split; [cbn [Legs.ten_of d1]; rewrite G3; reflexivity|]. split; [cbn [Legs.ten_of d2]; rewrite G3; reflexivity|].
  split; [exact CU|]. split; [exact CV|]. rewrite ER.
  set (y := fun _ _ _ _ : nat => _).
  assert (Y : forall a s1 s2 b, a < D0 -> s1 < p1 -> s2 < p2 -> b < D3 -> y a s1 s2 b = yy [a; s1; s2; b]).
  { intros a s1 s2 b Ha H1 H2 Hb. unfold y. cbn [Legs.ten_of d0 d2 el]. rewrite G1, G3. cbn [nth]. symmetry. apply (G4 [a; s1] [s2; b] eq_refl). apply VmpsState.in_configs4; auto. }
  assert (YX : forall x, ip y x = ip (fun a s1 s2 b => yy [a; s1; s2; b]) x) by (intros x; apply ip_ext; intros; apply Y; auto).
  assert (YY : ip y y = ip (fun a s1 s2 b => yy [a; s1; s2; b]) (fun a s1 s2 b => yy [a; s1; s2; b])) by (rewrite YX; unfold ip; rewrite <- ip_conj; fold ip; rewrite YX; apply ip_conj).
  rewrite YX, YY. split; [exact K1|]. split; [exact K2|exact K3].
Qed.
Lemma t_capped : capped_svd 1 t_svd.
Proof. intros D0 p1 p2 D3 g. cbn. lia. Qed.
Lemma upd_factors : forall ws stev close maxit size svd err rt l gl t1 t2 gr a b e d, d_update_e ws stev close maxit size svd err rt l gl t1 t2 gr = (a, b, Ok (e, d)) ->
  exists g, d_split svd rt (d0 t1) (d1 t1) (d1 t2) (d2 t2) g = (a, b) /\ d = err (d0 t1) (d1 t1) (d1 t2) (d2 t2) g.
Proof.
  intros ws stev close maxit size svd err rt l gl t1 t2 gr a b e d U. unfold d_update_e in U. destruct (negb _); [discriminate U|]. destruct (d_mul _ _ _ _ _ _ _) as [z| |]; try discriminate U. cbv zeta in U.
  destruct (v_lanczos _ _ _ _ _ _ _ _ _ _) as [[r g]| |]; try discriminate U. destruct (d_split svd rt _ _ _ _ g) as [a' b'] eqn:SP. injection U as -> -> _ <-. exists g. split; [exact SP|reflexivity].
Qed.
Lemma stev2_trunc : forall N ws close size svd err bs s, lapack_trunc N ws stev2 close 2 size svd err bs s.
Proof. intros N ws close size svd err bs. induction bs as [|b bs IH]; intros s; cbn [lapack_trunc]; [exact I|]. split; [apply stev2_at|apply IH]. Qed.

(** *** three spins in a transverse field with Dmax = 1 *)
Definition tx_w : world cten unit (res (real * real)) := mkW _ _ _ 3 fnone 0 fnone fnone None None (fun i => Some (x_ts i)) fnone fnone false.
Definition tx_d : dst cten cop (res (real * real)) := mkD _ _ _ tx_w (fun _ => []) (fun _ => []) (fun _ _ _ => None) false false 0.
Definition tx_ts0 : nat -> cten := snd (prep cten xright qleft (big_l 1) small_l (big_r 1) small_r xright xleft 3 x_ts).
Lemma tx_ready : ready cten cop (res (real * real)) 3 (fun i => mcols (x_mpo i)) (fun _ _ _ => c1) (d_grow x_mpo) xright qleft (big_l 1) small_l (big_r 1) small_r xright xleft x_ts tx_ts0 0 2 tx_d.
Proof.
  split; [lia|]. split; [reflexivity|]. split; [reflexivity|]. split; [intros i _; reflexivity|]. split; [intros i _; reflexivity|]. intros H. discriminate.
Qed.

(** *** H = - X_1 X_2 - Z_1 Z_2 behind a site of dimension one; initially (|00> + |11>) / sqrt 2, the state of lowest energy *)
Definition oZ : cop := fun s s' => if s =? s' then (if s =? 0 then c1 else copp c1) else c0.
Definition oneg (o : cop) : cop := fun s s' => copp (o s s').
Definition b_mpo (i : nat) : cmpo :=
  mkMpo cx (if i =? 2 then 2 else 1) (if i =? 1 then 2 else 1)
    (fun r c => match i with 1 => Some (if c =? 0 then oneg oX else oneg oZ) | 2 => Some (if r =? 0 then oX else oZ) | _ => Some oI end).
Definition b_ts (i : nat) : cten :=
  match i with 0 => mkTen 1 1 1 (fun _ _ _ => c1) | 1 => mkTen 1 2 2 (fun _ s k => if s =? k then (/ 2, / 2)%R else c0) | _ => mkTen 2 2 1 (fun k s _ => cdelta k s) end.
Lemma b_proper : proper_mpo 3 b_mpo [1; 2; 2].
Proof.
  assert (HI : forall s s', oI s s' = cconj (oI s' s)) by (intros; unfold oI, delta; rewrite (Nat.eqb_sym s'); destruct (s =? s'); symmetry; [apply cconj1|apply cconj0]).
  assert (HX : forall s s', oX s s' = cconj (oX s' s)) by (intros; unfold oX; rewrite (Nat.add_comm s'); destruct (s + s' =? 1); symmetry; [apply cconj1|apply cconj0]).
  assert (HN : forall z, cconj (copp z) = copp (cconj z)) by (intros [a b]; unfold cconj, copp; cbn [fst snd]; f_equal).
  assert (HZ : forall s s', oZ s s' = cconj (oZ s' s)).
  { intros. unfold oZ. rewrite (Nat.eqb_sym s'). destruct (Nat.eqb_spec s s') as [<-|]; [|symmetry; apply cconj0]. destruct (s =? 0); rewrite ?HN, cconj1; reflexivity. }
  split.
  - cbn. auto.
  - intros i j Hj. destruct i as [|[|[|i]]]; cbn in *; exists 0; (split; [lia|]); discriminate.
  - intros i j Hj. destruct i as [|[|[|i]]]; cbn in *; exists 0; (split; [lia|]); discriminate.
  - intros [|[|i]] Hi; cbn; lia.
  - apply entries_hermitian. intros i x y s s'. unfold mval, b_mpo. cbn [ent]. destruct i as [|[|[|i]]]; try apply HI.
    + destruct (y =? 0); unfold oneg; rewrite HN; f_equal; [apply HX|apply HZ].
    + destruct (x =? 0); [apply HX|apply HZ].
Qed.
Lemma b_on : on_sites 3 [1; 2; 2] b_ts.
Proof. split; [cbn; auto|reflexivity]. Qed.
Lemma b_center : centered 3 0 b_ts.
Proof.
  split; [intros i Hi; lia|]. intros i Hi k k' Hk Hk'. assert (i = 1 \/ i = 2) as [-> | ->] by lia; cbn [b_ts d0 d1 d2 el] in *.
  - replace k with 0 by lia. replace k' with 0 by lia. cbn [FmpsSpec.sumn Nat.eqb]. unfold delta, cadd, cmul, cconj, c0, c1. cbn [Nat.eqb fst snd]. f_equal; lra.
  - destruct k as [|[|k]], k' as [|[|k']]; try lia; cbn [FmpsSpec.sumn]; unfold delta, cadd, cmul, cconj, c0, c1; cbn [Nat.eqb fst snd]; f_equal; lra.
Qed.
(** amplitudes and energy in terms of the four configurations *)
Notation amp ts s1 s2 := (mps_mat cx c0 c1 cadd cmul (sites 3 ts) [0; s1; s2] 0 0).
Lemma b_norm_of : forall ts, on_sites 3 [1; 2; 2] ts -> cnorm2 (sites 3 ts) =
  let w := fun z => cmul (cconj z) z in cadd (w (amp ts 0 0)) (cadd (w (amp ts 0 1)) (cadd (w (amp ts 1 0)) (w (amp ts 1 1)))).
Proof. intros ts [_ HD]. unfold norm2. rewrite HD. cbn [configs seq flat_map map app lsum fold_right]. ring. Qed.
Lemma b_energy_of : forall ts, on_sites 3 [1; 2; 2] ts -> cenergy (sites 3 ts) (sites 3 b_mpo) =
  let p := fun z z' => cmul (cconj z) z' in
  copp (cadd (cadd (cadd (p (amp ts 0 0) (amp ts 1 1)) (p (amp ts 1 1) (amp ts 0 0))) (cadd (p (amp ts 0 1) (amp ts 1 0)) (p (amp ts 1 0) (amp ts 0 1))))
    (csub (cadd (p (amp ts 0 0) (amp ts 0 0)) (p (amp ts 1 1) (amp ts 1 1))) (cadd (p (amp ts 0 1) (amp ts 0 1)) (p (amp ts 1 0) (amp ts 1 0))))).
Proof.
  intros ts [_ HD]. unfold EffHamSpec.energy. rewrite HD. cbn [configs seq flat_map map app lsum fold_right].
  set (A := amp ts 0 0). set (B := amp ts 0 1). set (C := amp ts 1 0). set (D := amp ts 1 1). clearbody A B C D.
  cbn [sites map seq mpo_mat b_mpo mcols mrows ent Nat.eqb FmpsSpec.sumn mval]. unfold oneg, oX, oZ, oI, delta. cbn [Nat.add Nat.eqb]. cbv zeta. ring.
Qed.
Lemma b_amps : amp b_ts 0 0 = (/ 2, / 2)%R /\ amp b_ts 0 1 = c0 /\ amp b_ts 1 0 = c0 /\ amp b_ts 1 1 = (/ 2, / 2)%R.
Proof. repeat split; cbn [sites map seq b_ts mps_mat d2 el Nat.eqb FmpsSpec.sumn]; unfold delta; cbn [Nat.eqb]; ring. Qed.
Lemma b_energy : energy_of 3 b_mpo b_ts (-2).
Proof.
  destruct b_amps as [E0 [E1 [E2 E3]]]. split.
  - unfold normalized. rewrite (b_norm_of _ b_on), E0, E1, E2, E3. unfold cadd, cmul, cconj, c0, c1. cbn [fst snd]. f_equal; lra.
  - rewrite (b_energy_of _ b_on), E0, E1, E2, E3. unfold copp, csub, cadd, cmul, cconj, cre, c0, c1. cbn [fst snd]. f_equal; lra.
Qed.
(** a chain whose middle spin is fixed has at least the energy -1 *)
Lemma b_fixed : forall ts q, on_sites 3 [1; 2; 2] ts -> nonzero 3 ts -> (forall s1 s2, s1 < 2 -> s1 <> q -> amp ts s1 s2 = c0) -> (-1 <= expect 3 b_mpo ts)%R.
Proof.
  intros ts q HO NZ HQ. unfold DmrgVarSpec.expect. unfold DmrgVarSpec.nonzero in NZ. rewrite (b_norm_of _ HO) in *. rewrite (b_energy_of _ HO). cbv zeta in *.
  assert (Z : (amp ts 0 0 = c0 /\ amp ts 0 1 = c0) \/ (amp ts 1 0 = c0 /\ amp ts 1 1 = c0)). { destruct (Nat.eq_dec q 0) as [->|]; [right|left]; split; apply HQ; lia. }
  set (A := amp ts 0 0) in *. set (B := amp ts 0 1) in *. set (C := amp ts 1 0) in *. set (D := amp ts 1 1) in *. clearbody A B C D. clear HQ HO.
  assert (G : forall X Y z, (0 < X)%R -> (- X <= Y)%R -> z = (Y / X)%R -> (-1 <= z)%R).
  { intros X Y z HX HY ->. apply Rmult_le_reg_r with X; [exact HX|]. unfold Rdiv. rewrite Rmult_assoc, Rinv_l by lra. lra. }
  destruct A as [a a'], B as [b b'], C as [c c'], D as [d d']. unfold cadd, csub, copp, cmul, cconj, c0 in *. cbn [fst snd] in *.
  pose proof (Rle_0_sqr a). pose proof (Rle_0_sqr a'). pose proof (Rle_0_sqr b). pose proof (Rle_0_sqr b'). pose proof (Rle_0_sqr c). pose proof (Rle_0_sqr c'). pose proof (Rle_0_sqr d). pose proof (Rle_0_sqr d'). unfold Rsqr in *.
  eapply G; [| |reflexivity].
  - match goal with |- (0 < ?t)%R => assert (0 <= t)%R by lra; assert (t <> 0)%R; [|lra] end. intros E. apply NZ. f_equal; [exact E|ring].
  - destruct Z as [[Z1 Z2]|[Z1 Z2]]; injection Z1 as -> ->; injection Z2 as -> ->; lra.
Qed.
Definition b_w : world cten unit (res (real * real)) := mkW _ _ _ 3 fnone 0 fnone fnone None None (fun i => Some (b_ts i)) fnone fnone false.
Definition b_d : dst cten cop (res (real * real)) := mkD _ _ _ b_w (fun _ => []) (fun _ => []) (fun _ _ _ => None) false false 0.
Definition b_ts0 : nat -> cten := snd (prep cten xright qleft (big_l 1) small_l (big_r 1) small_r xright xleft 3 b_ts).
Lemma b_ready : ready cten cop (res (real * real)) 3 (fun i => mcols (b_mpo i)) (fun _ _ _ => c1) (d_grow b_mpo) xright qleft (big_l 1) small_l (big_r 1) small_r xright xleft b_ts b_ts0 0 2 b_d.
Proof.
  split; [lia|]. split; [reflexivity|]. split; [reflexivity|]. split; [intros i _; reflexivity|]. split; [intros i _; reflexivity|]. intros H. discriminate.
Qed.
Section Bell.
Variables (stev : list real -> list real -> list real * list real) (close : real -> real -> bool) (maxit : nat) (size : nat -> nat -> nat -> nat -> nat) (dT : cten) (dbg : bool).
Hypothesis Hmax : 2 <= maxit.
Hypothesis HLA : lapack_trunc 3 b_mpo stev close maxit size t_svd t_err (all_bonds 0 2 1) (b_ts0, None).
Notation En := (res (real * real)).
Notation upd := (d_update_e b_mpo stev close maxit size t_svd t_err).
Notation execute := (execute cten cop En dT (fun i => mrows (b_mpo i)) (fun i => mcols (b_mpo i)) (fun _ _ _ => c1) (d_grow b_mpo) upd xright qleft (big_l 1) small_l (big_r 1) small_r xright xleft dbg).
Lemma bell_run : forall arr, no_emergency cten cop En arr b_d -> exists d' ts' e del, execute arr 1 b_d = Ok d' /\ complete cten cop En 3 ts' d' /\ Disk.eng cten unit En (Dmrg.W cten cop En d') = Some (Ok (e, del)) /\
  on_sites 3 [1; 2; 2] ts' /\ (e <= -2)%R /\ (-1 <= expect 3 b_mpo ts')%R.
Proof.
  intros arr HE. pose proof b_energy as BE. assert (BZ : nonzero 3 b_ts) by (apply normalized_nz; exact (proj1 BE)).
  destruct (trunc_run_ok 3 b_mpo [1; 2; 2] stev close maxit size t_svd t_err b_proper t_svd_ok Hmax xright qleft (big_l 1) small_l (big_r 1) small_r xright xleft xright_ok qleft_ok xright_ok xleft_ok dT dbg
    arr 1 b_ts b_ts0 0 2 b_d b_ready HE ltac:(lia) b_on b_center BZ HLA) as [m [d' [e [del [ph [A0 [A1 [A2 [A3 [A4 A5]]]]]]]]]].
  cbv zeta in *. assert (m = 1) by lia. subst m. rewrite sweeps_opts in *.
  destruct (prep_ok 3 [1; 2; 2] xright qleft (big_l 1) small_l (big_r 1) small_r xright xleft xright_ok qleft_ok xright_ok xleft_ok b_ts b_ts0 0 2 ltac:(lia) b_on b_center eq_refl) as [P1 [P2 P3]].
  assert (NZ0 : nonzero 3 b_ts0) by (unfold DmrgVarSpec.nonzero in *; rewrite (same_norm2 cx c0 c1 cadd cmul cconj _ _ P2); exact BZ).
  pose proof (path_all 3 0 2 1 ltac:(lia) ltac:(lia)) as PA. pose proof (centered_mixed 3 maxit Hmax _ _ P3) as M0.
  pose proof (trunc_each 3 b_mpo [1; 2; 2] stev close maxit size t_svd t_err b_proper t_svd_ok Hmax _ 0 0 b_ts0 None PA P1 M0 NZ0 HLA) as TE.
  destruct (TE 0 ltac:(cbn; lia)) as [x0 [del0 [ph0 [T1 [T2 T3]]]]]. destruct (TE 1 ltac:(cbn; lia)) as [x1 [del1 [ph1 [S1 [S2 S3]]]]].
  destruct (trunc_opts 3 b_mpo [1; 2; 2] stev close maxit size t_svd t_err b_proper t_svd_ok Hmax _ 0 0 b_ts0 None PA P1 M0 NZ0 HLA) as [Q1 [Q2 [Q3 [_ _]]]]. clear TE.
  cbv zeta in *. change (all_bonds 0 2 1) with [(true, 0); (false, 1)] in *. cbn [firstn] in *. cbn [SweepSpec.opts fold_left] in *.
  set (s1 := SweepSpec.opt _ _ _ _ _ _ _ (true, 0) _) in *. set (s2 := SweepSpec.opt _ _ _ _ _ _ _ (false, 1) s1) in *.
  (* the first update is exact *)
  assert (D0 : del0 = 0%R).
  { unfold s1, SweepSpec.opt in T1. destruct (upd _ _ _ _ _ _) as [[a b] r] eqn:U in T1. cbn [snd] in T1. injection T1 as ->. destruct (upd_factors _ _ _ _ _ _ _ _ _ _ _ _ _ _ _ _ _ U) as [g [_ ->]]. reflexivity. }
  subst del0. destruct (no_loss 3 b_mpo [1; 2; 2] _ _ _ T2) as [_ E1].
  assert (X0 : expect 3 b_mpo b_ts0 = (-2)%R).
  { unfold DmrgVarSpec.expect. rewrite (same_energy cx c0 c1 cadd cmul cconj _ _ _ P2), (same_norm2 cx c0 c1 cadd cmul cconj _ _ P2). destruct BE as [B1 B2]. unfold normalized in B1. rewrite B1, B2. unfold c1, cre. cbn [fst]. field. }
  assert (X1 : expect 3 b_mpo (fst s1) = x0). { unfold DmrgVarSpec.expect. destruct E1 as [B1 B2]. unfold normalized in B1. rewrite B1, B2. unfold c1, cre. cbn [fst]. field. }
  (* the run returns the energy of the second update *)
  destruct (center_ok 3 [1; 2; 2] qleft qleft_ok (0 + 1) (fst s2) ltac:(lia) Q1) as [C1 [C2 _]]; [intros; apply Q2; lia|intros; apply Q2; lia|].
  assert (A6 : Disk.eng cten unit En (Dmrg.W cten cop En d') = snd s2).
  { destruct (DmrgMore.no_emg_run cten cop En dT (fun i => mrows (b_mpo i)) (fun i => mcols (b_mpo i)) (fun _ _ _ => c1) (d_grow b_mpo) upd xright qleft (big_l 1) small_l (big_r 1) small_r xright xleft dbg 3 eq_refl eq_refl (wlink 3 b_mpo [1; 2; 2] b_proper)
      (fun i g t => grow_len_l b_mpo i g t (pm_cols _ _ _ b_proper i)) (fun i g t => grow_len_r b_mpo i g t (pm_rows _ _ _ b_proper i)) arr 1 b_ts b_ts0 0 2 b_d b_ready HE) as [m [d2' [N1 [_ [N3 [N4 [N5 _]]]]]]].
    specialize (N5 ltac:(lia)). specialize (N3 ltac:(lia)). assert (m = 1) by lia. subst m. rewrite A1 in N1. injection N1 as <-. rewrite N3, sweeps_opts. reflexivity. }
  rewrite A6, S1 in A3. injection A3 as <- <-.
  exists d', (center_to_0 cten qleft (0 + 1) (fst s2)), x1, del1. split; [exact A1|]. split; [exact A2|]. split; [rewrite A6; exact S1|]. split; [exact C1|]. split; [rewrite X1 in S3; cbn [fst] in T3; rewrite X0 in T3; lra|].
  assert (ES : expect 3 b_mpo (center_to_0 cten qleft (0 + 1) (fst s2)) = expect 3 b_mpo (fst s2)).
  { unfold DmrgVarSpec.expect. rewrite (same_energy cx c0 c1 cadd cmul cconj _ _ _ C2), (same_norm2 cx c0 c1 cadd cmul cconj _ _ C2). reflexivity. }
  rewrite ES.
  assert (Q : exists q, forall s1' s2', s1' < 2 -> s1' <> q -> amp (fst s2) s1' s2' = c0).
  { unfold s2, SweepSpec.opt in S1 |- *. destruct s1 as [t1 r1] eqn:ES1. destruct (upd _ _ _ _ _ _) as [[a b] r] eqn:U in S1 |- *. cbn [fst snd] in *. injection S1 as ->. destruct (upd_factors _ _ _ _ _ _ _ _ _ _ _ _ _ _ _ _ _ U) as [g [SP _]].
    unfold d_split, t_svd, r_svd in SP. cbn [fst snd] in SP. set (q := row _ _ _ _ _) in SP. exists (snd q). intros s1' s2' _ NE. injection SP as <- _.
    cbn [sites map seq mps_mat]. unfold fset. cbn [Nat.eqb Nat.add Legs.ten_of gd ge nth d0 d1 d2 el FmpsSpec.sumn].
    replace (s1' =? snd q) with false by (symmetry; apply Nat.eqb_neq; exact NE). rewrite (csum_e _ _ (fun _ => c0)); [induction (d2 (t1 0)) as [|n IH]; cbn [FmpsSpec.sumn]; [reflexivity|rewrite IH; ring]|].
    intros k _. rewrite andb_false_r. ring. }
  destruct Q as [q HQ]. exact (b_fixed (fst s2) q Q1 Q3 HQ).
Qed.
End Bell.
