(** Exact decompositions of tensors with legs and a chain of three spins. *)
From Coq Require Import List Arith Bool Lia QArith Qreals Reals Lra Ring_theory.
From Verif Require Import Base Disk SweepSpec TwoSite TwoSiteFacts Tdvp TdvpSpec TdvpRun FiniteMps FmpsSpec FmpsFacts EffHam EffHamSpec EffHamFacts ChainSpec Legs VmpsLocal VmpsSpec Lanczos LanczosSpec LanczosEig LanczosExp Krylov KrylovSpec KrylovRun Cx KrylovInst GVec GVecFacts ChainUpdate DmrgStep DmrgVarSpec DmrgVar DmrgVarInst ConserveSpec ConserveFacts.
Import ListNotations.
Local Open Scope nat_scope.

(** *** legs of a tensor with three indices *)
Definition g_of_ten (t : ten cx) : cg := mkG cx [d0 t; d1 t; d2 t] (fun l => el t (nth 0 l 0) (nth 1 l 0) (nth 2 l 0)).
Lemma g_of_ten_back : forall t, cten_of (g_of_ten t) = t.
Proof. intros [a b c f]. reflexivity. Qed.
(** isometries that merge the outer leg with the physical one *)
Definition y_svd (n : nat) (x : cg) : cg * cg * cg :=
  let D0 := nth 0 (cgd x) 0 in let p1 := nth 1 (cgd x) 0 in let p2 := nth 2 (cgd x) 0 in let D3 := nth 3 (cgd x) 0 in
  (g_of_ten (mergeL D0 p1), mkG cx [D0 * p1; D3 * p2] (fun l => cge x [nth 0 l 0 / p1; nth 0 l 0 mod p1; nth 1 l 0 mod p2; nth 1 l 0 / p2]), g_of_ten (mergeR p2 D3)).
Lemma y_svd_ok : exact_gsvd y_svd.
Proof.
  intros [xd x] D0 p1 p2 D3 E. cbn in E. subst xd. split.
  - split; [reflexivity|]. unfold y_svd. cbn [gd nth]. exists (D0 * p1), (D3 * p2). split; [reflexivity|]. split; [reflexivity|]. split; [reflexivity|].
    intros i j Hi Hij. destruct (cfg4 D0 p1 p2 D3 _ Hij) as [a [s1 [s2 [b [E [Ha [H1 [H2 Hb]]]]]]]]. destruct i as [|a' [|s1' [|? ?]]]; try discriminate. cbn [app] in E. injection E as -> -> ->. cbn [app].
    pose proof (xsvd_ok D0 p1 p2 D3 (fun a s1 s2 b => x [a; s1; s2; b])) as P. cbn [xsvd] in P. destruct P as [_ [_ [_ [_ [_ [_ P]]]]]].
    specialize (P a s1 s2 b Ha H1 H2 Hb). cbn [mergeL mergeR d0 d1 d2 el g_of_ten ge nth] in *. symmetry. exact P.
  - unfold y_svd. cbn [gd nth]. rewrite !g_of_ten_back. split; [apply mergeL_left|apply mergeR_right].
Qed.
Definition y_qr (n : nat) (x : cg) : cg * cg :=
  let D := nth 0 (cgd x) 0 in let p := nth 1 (cgd x) 0 in
  (g_of_ten (mergeL D p), mkG cx [D * p; nth 2 (cgd x) 0] (fun l => cge x [nth 0 l 0 / p; nth 0 l 0 mod p; nth 1 l 0])).
Lemma y_qr_ok : exact_qr y_qr.
Proof.
  intros [xd x] a p b E. cbn in E. subst xd. unfold y_qr. cbn [gd nth]. exists (a * p). split; [reflexivity|]. split; [reflexivity|]. rewrite g_of_ten_back. split; [apply mergeL_left|].
  intros i j k Hi Hj Hk. cbn [ge g_of_ten nth el mergeL]. rewrite (pick (i * p + j) (a * p) (fun m => x [m / p; m mod p; k])) by nia. destruct (divmod p i j Hj) as [-> ->]. reflexivity.
Qed.

(** *** with Krylov spaces of two vectors, whatever the operator *)
Lemma y_eig : forall size close ls mul v, eig_lapack_ok stev2 2 size close ls mul v.
Proof.
  intros size close ls mul v r g E lc2 n Hn.
  assert (I : iters real r <= 2).
  { unfold g_lanczos in E.
    destruct (eig_solver_ok real cvec real 0%R (fun x => (x * x)%R) g_isz mul (g_dot ls) g_lc1 (g_lc2 sqrt) (g_normalize ls) (fun x => x) (fun _ => eq_refl) (gs_eng real 0%R stev2) (gs_vec real 0%R stev2) (fun c l => g_comb (map cre c) l) close v 2 (size ls) (mkH cvec real [Some v] []) 0 eq_refl ltac:(lia)) as [m [r' [h' [M [_ [O RUN]]]]]].
    rewrite RUN in E. cbn [bind] in E. destruct (rd cvec real (gs real r') h'); try discriminate. cbn [bind] in E. injection E as -> _.
    destruct O as [[_ [-> _]]|[_ [_ [-> _]]]]; lia. }
  replace n with 2 by lia. unfold als, bes. cbn [Nat.sub seq map]. apply stev2_ok.
Qed.
Lemma y_exp : forall size far ls mul t v, exp_lapack_ok stev2 2 size far ls mul t v.
Proof.
  intros size far ls mul t v r g E lc2 n Hn.
  assert (I : xiters r <= 2).
  { unfold g_expmv in E.
    destruct (exp_solver_ok real cvec cx 0%R g_isz mul (g_dot ls) g_lc1 (g_lc2 (fun x => x)) (g_normalize ls) g_comb c0 (expme1 real cx 0%R c0 cadd cmul cre (cph (Q2R t)) stev2) far g_diff (vscale real cx cmul cre) (g_phase (Q2R t))
      (tx_len real cx 0%R c0 cadd cmul cre stev2 (cph (Q2R t))) g_diff_len (vs_len real cx cmul cre) v 2 (size ls) (mkH cvec cx [Some v] []) 0 eq_refl ltac:(lia)) as [m [r' [h' [M [_ [O RUN]]]]]].
    rewrite RUN in E. cbn [bind] in E. destruct (rd cvec cx (expmv r') h'); try discriminate. cbn [bind] in E. injection E as -> _.
    destruct O as [[_ [-> _]]|[_ [_ [-> _]]]]; lia. }
  replace n with 2 by lia. unfold als, bes. cbn [Nat.sub seq map]. apply stev2_ok.
Qed.
Lemma y_subs : forall N ws size svd far ss rs, subs_lapack N ws stev2 2 size svd far ss rs.
Proof. intros N ws size svd far ss. induction ss as [|s ss IH]; intros rs; cbn [subs_lapack]; [exact I|]. split; [|apply IH]. destruct s; cbn [sub_lapack]; intros; apply y_exp. Qed.
Lemma y_steps : forall N ws size svd far tau k rs, steps_lapack N ws stev2 2 size svd far tau k rs.
Proof. intros N ws size svd far tau k. induction k as [|k IH]; intros rs; cbn [steps_lapack]; [exact I|]. split; [apply IH|apply y_subs]. Qed.
Lemma y_opts : forall N ws size svd close bs s, opts_lapack N ws stev2 2 size svd close bs s.
Proof. intros N ws size svd close bs. induction bs as [|b bs IH]; intros s; cbn [opts_lapack]; [exact I|]. split; [intros; apply y_eig|apply IH]. Qed.

(** *** three spins, H = X_0 + X_1 + X_2, each in the state (3/5, 4/5) *)
Definition y_ws (i : nat) : cg := mkG cx [mrows (x_mpo i); 2; 2; mcols (x_mpo i)] (fun l => mval cx c0 (x_mpo i) (nth 0 l 0) (nth 3 l 0) (nth 1 l 0) (nth 2 l 0)).
Definition y_vec (s : nat) : cx := if s =? 0 then cre (3 / 5) else cre (4 / 5).
Definition y_gen (v : nat -> cx) (i : nat) : cg := mkG cx [1; 2; 1] (fun l => v (nth 1 l 0)).
Definition y_ts : nat -> cg := y_gen y_vec.
Lemma y_herm : hermitian_chain 3 y_ws [2; 2; 2].
Proof.
  unfold hermitian_chain. unfold sites. rewrite map_map. apply (entries_hermitian 3 (fun i => csite_of (y_ws i))).
  assert (HI : forall s s', oI s s' = cconj (oI s' s)) by (intros; unfold oI, delta; rewrite (Nat.eqb_sym s'); destruct (s =? s'); symmetry; [apply cconj1|apply cconj0]).
  assert (HX : forall s s', oX s s' = cconj (oX s' s)) by (intros; unfold oX; rewrite (Nat.add_comm s'); destruct (s + s' =? 1); symmetry; [apply cconj1|apply cconj0]).
  intros i x y s s'. unfold mval at 1 2. cbn [site_of ent y_ws ge nth]. unfold mval, x_mpo. cbn [ent]. destruct i as [|[|[|i]]].
  - destruct (y =? 0); auto.
  - destruct (x =? y); auto. destruct (x <? y); auto. symmetry. apply cconj0.
  - destruct (x =? 0); auto.
  - destruct (x =? y); auto. destruct (x <? y); auto. symmetry. apply cconj0.
Qed.
Lemma y_chain : chain 3 y_ws [2; 2; 2] y_ts.
Proof. split; [|reflexivity]. split; [|split; cbn; auto]. repeat constructor; repeat eexists. Qed.
Lemma y_center : center_at 3 0 y_ts.
Proof.
  split; [intros i Hi; lia|]. intros i _ k k' Hk Hk'. cbn [y_ts y_gen Legs.ten_of gd nth d0 d1 d2 el] in *. replace k with 0 by lia. replace k' with 0 by lia.
  cbn [FmpsSpec.sumn]. unfold delta. cbn. unfold c1, c0, cadd, cmul, cconj, cre. cbn [fst snd]. f_equal; field.
Qed.
(** the operator X on site 1 *)
Definition y_op : cg := mkG cx [2; 2] (fun l => oX (nth 0 l 0) (nth 1 l 0)).
Definition y_tag (v : nat -> cx) (i : nat) : cg := match (if i =? 1 then t_act y_op (Ok (y_gen v 1)) else Ok (y_gen v i)) with Ok t => t | _ => y_gen v i end.
Definition y_ta : nat -> cg := y_tag y_vec.
Lemma y_acted : holds 3 (acted (res cg) (t_act y_op) None 1 (fun i => Ok (y_ts i))) y_ta.
Proof. intros [|[|[|i]]] Hi; try lia; reflexivity. Qed.
Lemma y_ta_chain : chain 3 y_ws [2; 2; 2] y_ta.
Proof. split; [|reflexivity]. split; [|split; cbn; auto]. repeat constructor; repeat eexists. Qed.
Lemma y_ta_right : forall i, 1 < i < 3 -> cright (cten_of (y_ta i)).
Proof. intros i Hi. replace i with 2 by lia. apply (proj2 y_center 2). lia. Qed.
Section Gen.
Variable v : nat -> cx.
Notation n := (cadd (cmul (cconj (v 0)) (v 0)) (cmul (cconj (v 1)) (v 1))).
Notation x := (cadd (cmul (cconj (v 0)) (v 1)) (cmul (cconj (v 1)) (v 0))).
Lemma y_norm_gen : sq_norm 3 (y_gen v) = cmul n (cmul n n).
Proof. unfold sq_norm, norm2. cbn -[cadd cmul cconj c0 c1]. repeat (rewrite ?cconj_mul, ?cconj_add, ?cconj0, ?cconj1). ring. Qed.
Lemma y_energy_gen : energy_val 3 y_ws (y_gen v) = cmul (cadd (cadd x x) x) (cmul n n).
Proof. unfold energy_val, EffHamSpec.energy. cbn -[cadd cmul cconj c0 c1]. unfold oX, oI, delta, mval. cbn -[cadd cmul cconj c0 c1]. repeat (rewrite ?cconj_mul, ?cconj_add, ?cconj0, ?cconj1). ring. Qed.
Lemma y_ta_norm_gen : sq_norm 3 (y_tag v) = cmul n (cmul n n).
Proof. unfold sq_norm, norm2. cbn -[cadd cmul cconj c0 c1]. unfold oX. cbn -[cadd cmul cconj c0 c1]. repeat (rewrite ?cconj_mul, ?cconj_add, ?cconj0, ?cconj1). ring. Qed.
Lemma y_ta_energy_gen : energy_val 3 y_ws (y_tag v) = cmul (cadd (cadd x x) x) (cmul n n).
Proof. unfold energy_val, EffHamSpec.energy. cbn -[cadd cmul cconj c0 c1]. unfold oX, oI, delta, mval. cbn -[cadd cmul cconj c0 c1]. repeat (rewrite ?cconj_mul, ?cconj_add, ?cconj0, ?cconj1). ring. Qed.
End Gen.
Lemma y_n : cadd (cmul (cconj (y_vec 0)) (y_vec 0)) (cmul (cconj (y_vec 1)) (y_vec 1)) = c1.
Proof. unfold y_vec. cbn [Nat.eqb]. unfold c1, cadd, cmul, cconj, cre. cbn [fst snd]. f_equal; field. Qed.
Lemma y_norms : sq_norm 3 y_ts = c1 /\ sq_norm 3 y_ta = c1.
Proof. unfold y_ts, y_ta. rewrite y_norm_gen, y_ta_norm_gen, y_n. split; ring. Qed.
Lemma y_energies : energy_val 3 y_ws y_ts = cre (72 / 25) /\ energy_val 3 y_ws y_ta = cre (72 / 25).
Proof. unfold y_ts, y_ta. rewrite y_energy_gen, y_ta_energy_gen, y_n. unfold y_vec. cbn [Nat.eqb]. unfold c1, cadd, cmul, cconj, cre. cbn [fst snd]. split; f_equal; field. Qed.
Lemma y_nz : sq_norm 3 y_ts <> c0 /\ sq_norm 3 y_ta <> c0.
Proof. destruct y_norms as [-> ->]. unfold c0, c1. split; intros E; injection E as E; lra. Qed.
Lemma y_mixed : mixed_at 3 0 y_ts.
Proof. destruct y_center as [A B]. split; intros i Hi; [lia|apply B; lia]. Qed.
Definition y_w {En} : world (res cg) (res cg) En := mkW _ _ _ 3 fnone 0 fnone fnone None None (fun i => Some (Ok (y_ts i))) fnone fnone false.
