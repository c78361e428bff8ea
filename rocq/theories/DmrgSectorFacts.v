(** Symmetry sectors for DMRG: what vanishes stays zero in the solver, in the effective Hamiltonian and in the factors; one update and a sequence of updates. *)
From Coq Require Import List Arith Bool Lia Reals Lra Ring_theory.
From Verif Require Import Base Disk SweepSpec NoiseSpec DmrgSpec VmpsInitFacts FiniteMps FmpsSpec FmpsFacts EffHam EffHamSpec EffHamFacts ChainSpec ChainFacts Lanczos LanczosSpec LanczosEig Krylov KrylovSpec Cx KrylovInst DmrgUpdate DmrgStep DmrgVarSpec DmrgVar DmrgVarRun DmrgVarInst DmrgTrunc DmrgTruncSpec DmrgTruncFacts SectorSpec SectorFacts DmrgSectorSpec.
Import ListNotations.
Local Open Scope nat_scope.

(** *** tensors that vanish outside a set of indices *)
Section Within.
Variable L : nat -> nat -> nat -> nat -> Prop.
Definition v_within (v : cten4) : Prop := forall a s t b, v a s t b <> c0 -> L a s t b.
Lemma vw_lc1 : forall a q g, v_within q -> v_within g -> v_within (v_lc1 a q g).
Proof. intros a q g Hq Hg i s t k H. destruct (sub_nz _ _ H) as [A|A]; [apply Hg; exact A|]. apply Hq. apply (mul_nz _ _ A). Qed.
Lemma vw_lc2 : forall a q n q' g, v_within q -> v_within q' -> v_within g -> v_within (v_lc2 a q n q' g).
Proof. intros. unfold v_lc2. apply vw_lc1; [assumption|]. apply vw_lc1; assumption. Qed.
Lemma vw_scale : forall a x, v_within x -> v_within (v_scale a x).
Proof. intros a x H i s t k E. apply H. apply (mul_nz _ _ E). Qed.
Lemma vw_comb : forall c l, (forall v, In v l -> v_within v) -> v_within (v_comb c l).
Proof.
  intros c l H i s t k. unfold v_comb. revert l H. induction c as [|a c IH]; intros [|v l] H E; try (cbn in E; exfalso; apply E; reflexivity). cbn [List.combine fold_right fst snd] in E.
  destruct (add_nz _ _ E) as [A|A]; [apply (H v (or_introl eq_refl)); apply (mul_nz _ _ A)|]. apply (IH l); [|exact A]. intros u Iu. apply H. right. exact Iu.
Qed.
Variables D0 p1 p2 D3 : nat.
Lemma vw_normalize : forall v, v_within v -> v_within (fst (v_normalize D0 p1 p2 D3 v)).
Proof. intros v H. unfold v_normalize. destruct (is_zero _); cbn [fst]; [exact H|]. apply vw_scale. exact H. Qed.
Variable mul : cten4 -> cten4.
Hypothesis MW : forall v, v_within v -> v_within (mul v).
Notation kr := (kr real cten4 0%R mul (v_dot D0 p1 p2 D3) v_lc1 v_lc2 (v_normalize D0 p1 p2 D3)).
Notation qv := (qv real cten4 0%R mul (v_dot D0 p1 p2 D3) v_lc1 v_lc2 (v_normalize D0 p1 p2 D3)).
Notation qvs := (qvs real cten4 0%R mul (v_dot D0 p1 p2 D3) v_lc1 v_lc2 (v_normalize D0 p1 p2 D3)).
Lemma vw_kr : forall off v, v_within v -> forall m, let '(q, q', _) := kr off v m in v_within q /\ v_within q'.
Proof.
  intros off v HV. induction m as [|m IH]; cbn [LanczosSpec.kr]; [split; apply vw_normalize; exact HV|].
  destruct (kr off v m) as [[q q'] n]. destruct IH as [A B]. split; [|exact A]. apply vw_normalize.
  destruct (m =? 0); [apply vw_lc1|apply vw_lc2]; auto.
Qed.
Lemma vw_qv : forall off v, v_within v -> forall m, v_within (qv off v m).
Proof. intros off v HV m. pose proof (vw_kr off v HV m) as P. unfold LanczosSpec.qv. destruct (kr off v m) as [[q q'] n]. apply P. Qed.
Lemma vw_qvs : forall off v, v_within v -> forall k u, In u (qvs off v k) -> v_within u.
Proof. intros off v HV k u Iu. apply in_map_iff in Iu. destruct Iu as [m [<- _]]. apply vw_qv. exact HV. Qed.
Variables (stev : list real -> list real -> list real * list real) (maxit dim : nat).
Hypothesis Hmax : 2 <= maxit.
Lemma vw_lanczos : forall close v r g, v_within v -> v_lanczos D0 p1 p2 D3 mul stev close maxit dim v = Ok (r, g) -> v_within g.
Proof.
  intros close v r g HV E.
  destruct (eig_solver_ok real cten4 real 0%R (fun x => (x * x)%R) is_zero mul (v_dot D0 p1 p2 D3) v_lc1 v_lc2 (v_normalize D0 p1 p2 D3) (fun x => x) (fun _ => eq_refl) (gs_eng real 0%R stev) (gs_vec real 0%R stev) v_comb close v maxit dim (mkH cten4 real [Some v] []) 0 eq_refl Hmax)
    as [m [r' [h [_ [_ [O RUN]]]]]].
  unfold v_lanczos in E. rewrite RUN in E. cbn [bind] in E. unfold rd in E.
  assert (GW : forall k, v_within (ground real cten4 real 0%R (fun x => (x * x)%R) mul (v_dot D0 p1 p2 D3) v_lc1 v_lc2 (v_normalize D0 p1 p2 D3) (gs_vec real 0%R stev) v_comb v k)).
  { intros k. unfold ground. destruct (k =? 1); [apply vw_qv; exact HV|]. apply vw_comb. intros u. apply vw_qvs. exact HV. }
  destruct O as [[_ [_ [_ O]]]|[_ [_ [_ [_ O]]]]]; destruct O as [_ [_ [_ [O _]]]]; rewrite O in E; cbn [bind] in E; injection E as _ <-; apply GW.
Qed.
End Within.

Section Labels.
Variables (G : Type) (q0 : G) (qadd : G -> G -> G) (qopp : G -> G).
Hypothesis QG : q_group q0 qadd qopp.
Variable ch : nat -> nat -> G.
Infix "+q" := qadd (at level 50, left associativity).
Notation total := (total G q0 qadd ch). Notation lab3 := (d_lab3 G qadd ch). Notation lab4 := (d_lab4 G qadd ch).
Let qassoc := q_assoc G q0 qadd qopp QG.
(** along a part of a chain *)
Lemma d_mps_label : forall (ts : nat -> cten) (bt : nat -> nat -> G) n i x0 y0 c x y, fit cx x0 (map ts (seq i n)) y0 -> x < x0 -> (forall j, i <= j < i + n -> lab3 (bt j) j (bt (j + 1)) (ts j)) ->
  In c (configs (map (@d1 cx) (map ts (seq i n)))) -> mps_mat cx c0 c1 cadd cmul (map ts (seq i n)) c x y <> c0 -> bt i x +q total i c = bt (i + n) y.
Proof.
  intros ts bt. induction n as [|n IH]; intros i x0 y0 c x y HF Hx HL HI HN; cbn [seq map configs] in *.
  - destruct HI as [<-|[]]. cbn [EffHamSpec.mps_mat SectorSpec.total] in *. rewrite Nat.add_0_r. unfold delta in HN. destruct (Nat.eqb_spec x y) as [->|]; [apply (qg_r _ _ _ QG)|]. exfalso. apply HN. reflexivity.
  - apply in_flat_map in HI. destruct HI as [s [Is HI]]. apply in_map_iff in HI. destruct HI as [c' [<- HI]]. apply in_seq in Is. cbn [fit] in HF. destruct HF as [F1 F2]. cbn [EffHamSpec.mps_mat] in HN. cbn [SectorSpec.total].
    destruct (csum_nz _ _ HN) as [z [Hz NZ]]. destruct (mul_nz _ _ NZ) as [N1 N2].
    assert (E : bt i x +q ch i s = bt (i + 1) z). { apply (HL i ltac:(lia)); try exact N1; [rewrite F1; exact Hx|lia|exact Hz]. }
    rewrite qassoc, E. replace (i + 1) with (S i) by lia. rewrite (IH (S i) _ y0 c' z y F2 Hz); [f_equal; lia| |exact HI|exact N2]. intros j Hj. apply HL. lia.
Qed.

Section Chain.
Variable N : nat.
Variable ws : nat -> cmpo.
Variable ds : list nat.
Notation on_sites := (on_sites N ds). Notation blocks := (d_blocks G qadd ch N). Notation in_sector := (in_sector G q0 qadd ch ds). Notation conserving := (d_conserving G q0 qadd ch N ws ds).
Notation coef := (coef N). Notation nonzero := (nonzero N). Notation expect := (expect N ws).
(** a chain in block form has amplitudes in one sector only *)
Lemma d_blocks_sector : forall bt q ts, on_sites ts -> blocks bt q ts -> in_sector q (coef ts).
Proof.
  intros bt q ts [HF HD] [HB HQ] c Ic HN. unfold sites in HF, HD. rewrite <- HD in Ic.
  pose proof (d_mps_label ts bt N 0 1 1 c 0 0 HF ltac:(lia) ltac:(intros j Hj; apply HB; lia) Ic HN) as P. cbn [Nat.add] in P. rewrite <- HQ in P. apply (q_cancel_l G q0 qadd qopp QG _ _ _ P).
Qed.
Lemma d_above_energy : forall q lam ts e, d_sector_bounded G q0 qadd ch N ws ds q lam -> on_sites ts -> in_sector q (coef ts) -> energy_of N ws ts e -> (lam <= e)%R.
Proof.
  intros q lam ts e HB [_ HD] HI [H1 H2]. specialize (HB (coef ts) HI). unfold normalized, norm2 in H1. unfold EffHamSpec.energy in H2. rewrite HD in H1, H2.
  change (lsum cx c0 cadd (configs ds) (fun c => cmul (cconj (coef ts c)) (coef ts c)) = c1) in H1.
  change (lsum cx c0 cadd (configs ds) (fun c' => lsum cx c0 cadd (configs ds) (fun c => cmul (cmul (cconj (coef ts c')) (mpo_mat cx c0 c1 cadd cmul (sites N ws) c c' 0 0)) (coef ts c))) = cre e) in H2.
  rewrite H1, H2 in HB. unfold c1, cre in HB. cbn [fst] in HB. lra.
Qed.
Hypothesis PM : proper_mpo N ws ds.

Section Two.
Variables (ts : nat -> cten) (bt : nat -> nat -> G) (q : G) (l : nat).
Hypothesis HO : on_sites ts.
Hypothesis HB : blocks bt q ts.
Hypothesis Hl : l + 1 < N.
Notation D0 := (d0 (ts l)). Notation p1 := (d1 (ts l)). Notation p2 := (d1 (ts (l + 1))). Notation D3 := (d2 (ts (l + 1))).
Notation tl := (sites l ts). Notation tr := (map ts (seq (l + 2) (N - (l + 2)))).
Notation wl := (sites l ws). Notation wr := (map ws (seq (l + 2) (N - (l + 2)))).
Definition lab_at (a s t b : nat) : Prop := a < D0 -> s < p1 -> t < p2 -> b < D3 -> bt l a +q ch l s +q ch (l + 1) t = bt (l + 2) b.
Lemma lab_at_iff : forall v, v_within lab_at v <-> lab4 (bt l) l (bt (l + 2)) D0 p1 p2 D3 v.
Proof. intros v. split; intros H a s t b; [intros Ha Hs Ht Hb HN; apply (H a s t b HN); auto|intros HN Ha Hs Ht Hb; apply (H a s t b); auto]. Qed.
Lemma d_two_fit : fit cx 1 tl D0 /\ fit cx D3 tr 1.
Proof. destruct (cut_at N ws ds PM ts l HO Hl) as [HC _]. split; [apply (cut_l _ _ _ _ _ _ _ _ _ HC)|apply (cut_r _ _ _ _ _ _ _ _ _ HC)]. Qed.
Lemma d_tl_label : forall cl a, In cl (configs (map (@d1 cx) tl)) -> mps_mat cx c0 c1 cadd cmul tl cl 0 a <> c0 -> bt 0 0 +q total 0 cl = bt l a.
Proof. intros cl a Ic HN. destruct d_two_fit as [F1 _]. refine (d_mps_label ts bt l 0 1 D0 cl 0 a F1 ltac:(lia) _ Ic HN). intros j Hj. apply HB. lia. Qed.
Lemma d_tr_label : forall cr b, b < D3 -> In cr (configs (map (@d1 cx) tr)) -> mps_mat cx c0 c1 cadd cmul tr cr b 0 <> c0 -> bt (l + 2) b +q total (l + 2) cr = bt 0 0 +q q.
Proof.
  intros cr b Hb Ic HN. destruct d_two_fit as [_ F3]. destruct HB as [HB1 HB2]. rewrite HB2. replace N with (l + 2 + (N - (l + 2))) at 1 by lia. refine (d_mps_label ts bt _ (l + 2) D3 1 cr b 0 F3 Hb _ Ic HN). intros j Hj. apply HB1. lia.
Qed.
Lemma d_cl_len : forall cl, In cl (configs (map (@d1 cx) tl)) -> length cl = l.
Proof. intros cl Ic. apply EffHamFacts.configs_len in Ic. rewrite Ic. unfold sites. rewrite !map_length, seq_length. reflexivity. Qed.
Lemma d_total_mid : forall cl s1 s2 cr, length cl = l -> total 0 (cl ++ [s1; s2] ++ cr) = total 0 cl +q ch l s1 +q ch (l + 1) s2 +q total (l + 2) cr.
Proof. intros cl s1 s2 cr E. rewrite (total_app G q0 qadd qopp QG ch), E. cbn [Nat.add app SectorSpec.total]. rewrite !qassoc. replace (S l) with (l + 1) by lia. replace (S (l + 1)) with (l + 2) by lia. reflexivity. Qed.
Lemma d_whole_sector : forall v cl s1 s2 cr, v_within lab_at v -> In cl (configs (map (@d1 cx) tl)) -> s1 < p1 -> s2 < p2 -> In cr (configs (map (@d1 cx) tr)) ->
  whole cx c0 c1 cadd cmul tl tr D0 D3 v cl s1 s2 cr <> c0 -> total 0 (cl ++ [s1; s2] ++ cr) = q.
Proof.
  intros v cl s1 s2 cr HV I1 H1 H2 I2 HN. unfold whole in HN. destruct (csum_nz _ _ HN) as [a [Ha HNa]]. destruct (csum_nz _ _ HNa) as [b [Hb HNb]]. destruct (mul_nz _ _ HNb) as [HNc N3]. destruct (mul_nz _ _ HNc) as [N1 N2].
  pose proof (d_tl_label cl a I1 N1) as A. pose proof (d_tr_label cr b Hb I2 N3) as B. pose proof (HV _ _ _ _ N2 Ha H1 H2 Hb) as C.
  rewrite (d_total_mid cl s1 s2 cr (d_cl_len cl I1)). apply (q_cancel_l G q0 qadd qopp QG (bt 0 0)). rewrite !qassoc, A, C, B. reflexivity.
Qed.
Lemma two_ds : ds = map (@d1 cx) tl ++ [p1; p2] ++ map (@d1 cx) tr.
Proof. rewrite <- (proj2 HO), (sites_mid N _ ts l Hl), !map_app. reflexivity. Qed.
Hypothesis HCons : conserving.
Lemma d_projected_sector : forall v a' s1' s2' b', v_within lab_at v -> a' < D0 -> s1' < p1 -> s2' < p2 -> b' < D3 ->
  projected cx c0 c1 cadd cmul cconj tl tr wl (ws l) (ws (l + 1)) wr D0 p1 p2 D3 v a' s1' s2' b' <> c0 -> bt l a' +q ch l s1' +q ch (l + 1) s2' = bt (l + 2) b'.
Proof.
  intros v a' s1' s2' b' HV Ha H1 H2 Hb HN. unfold projected in HN.
  destruct (lsum_nz _ _ _ HN) as [cl' [I1' HN1]]. destruct (lsum_nz _ _ _ HN1) as [cr' [I2' HN2]]. clear HN HN1. destruct (mul_nz _ _ HN2) as [HN3 HN4]. destruct (mul_nz _ _ HN3) as [N1 N2]. apply conj_nz in N1, N2.
  destruct (lsum_nz _ _ _ HN4) as [cl [I1 HN5]]. destruct (csum_nz _ _ HN5) as [s1 [Hs1 HN6]]. destruct (csum_nz _ _ HN6) as [s2 [Hs2 HN7]]. destruct (lsum_nz _ _ _ HN7) as [cr [I2 HN8]]. destruct (mul_nz _ _ HN8) as [N5 N6].
  clear HN2 HN3 HN4 HN5 HN6 HN7 HN8.
  pose proof (d_whole_sector v cl s1 s2 cr HV I1 Hs1 Hs2 I2 N6) as W.
  assert (WS : sites N ws = wl ++ [ws l; ws (l + 1)] ++ wr) by (apply (sites_mid N _ ws l Hl)).
  assert (T : total 0 (cl ++ [s1; s2] ++ cr) = total 0 (cl' ++ [s1'; s2'] ++ cr')).
  { apply HCons; [rewrite two_ds; apply (in_over cx tl tr p1 p2); auto|rewrite two_ds; apply (in_over cx tl tr p1 p2); auto|rewrite WS; exact N5]. }
  pose proof (d_tl_label cl' a' I1' N1) as A. pose proof (d_tr_label cr' b' Hb I2' N2) as B. rewrite W in T. rewrite (d_total_mid cl' s1' s2' cr' (d_cl_len cl' I1')) in T.
  apply (q_cancel_r G q0 qadd qopp QG (total (l + 2) cr')). rewrite B, T, !qassoc, A. reflexivity.
Qed.
Notation trivs := (fun s : side => triv_group cx c1).
Notation lenv := (left_env cten (list cop) trivs (d_grow ws)). Notation renv := (right_env cten (list cop) trivs (d_grow ws) N).
(** the product of the solver *)
Lemma d_mul_within : forall v, v_within lab_at v ->
  v_within lab_at (match d_mul ws l (lenv ts l) (renv ts (N - (l + 2))) (ts l) (ts (l + 1)) v with Ok y => y | _ => v end).
Proof.
  intros v HV. destruct (cut_at N ws ds PM ts l HO Hl) as [HC H12].
  destruct (eff_ham_ok cx c0 c1 cadd cmul csub copp cx_ring cconj cconj0 cconj1 cconj_add cconj_mul tl tr wl (ws l) (ws (l + 1)) wr _ _ HC) as [gl [gr [GL [GR GM]]]].
  rewrite (left_env_ops ws ts l gl GL).
  assert (RE : renv ts (N - (l + 2)) = gr) by (apply right_env_ops; [lia|]; replace (N - (N - (l + 2))) with (l + 2) by lia; exact GR). rewrite RE.
  unfold d_mul. destruct (GM p1 p2 v) as [y [z [Y [_ E]]]]. rewrite Y. intros a s t b HN Ha Hs Ht Hb. destruct (E a s t b Ha Hb) as [E1 _]. rewrite E1 in HN.
  exact (d_projected_sector v a s t b HV Ha Hs Ht Hb HN).
Qed.
Lemma d_init_within : v_within lab_at (d_init (ts l) (ts (l + 1))).
Proof.
  intros a s t b HN Ha Hs Ht Hb. unfold d_init in HN. destruct (csum_nz _ _ HN) as [m [Hm NZ]]. destruct (mul_nz _ _ NZ) as [N1 N2]. destruct (cut_at N ws ds PM ts l HO Hl) as [_ H12]. destruct HB as [HB1 _].
  rewrite (HB1 l ltac:(lia) a s m Ha Hs Hm N1). rewrite (HB1 (l + 1) Hl m t b); [f_equal; lia|rewrite <- H12; exact Hm|exact Ht|exact Hb|exact N2].
Qed.
(** a chain whose two tensors in the middle give [g] *)
Lemma d_set_sector : forall a b g, csplits D0 p1 p2 D3 g a b -> v_within lab_at g -> in_sector q (coef (fset (fset ts l a) (l + 1) b)).
Proof.
  intros a b g SP HV c Ic HN. unfold DmrgTruncSpec.coef in HN. rewrite (sites_set N _ _ _ _ _ Hl) in HN. rewrite two_ds in Ic.
  assert (CS : exists cl s1 s2 cr, c = cl ++ [s1; s2] ++ cr /\ In cl (configs (map (@d1 cx) tl)) /\ s1 < p1 /\ s2 < p2 /\ In cr (configs (map (@d1 cx) tr))).
  { clear - Ic. revert c Ic. generalize (map (@d1 cx) tl). induction l0 as [|d l0 IH]; intros c Ic; cbn [app configs] in Ic.
    - apply in_flat_map in Ic. destruct Ic as [s1 [I1 Ic]]. apply in_map_iff in Ic. destruct Ic as [c' [<- Ic]]. apply in_flat_map in Ic. destruct Ic as [s2 [I2 Ic]]. apply in_map_iff in Ic. destruct Ic as [c'' [<- Ic]].
      apply in_seq in I1, I2. exists [], s1, s2, c''. split; [reflexivity|]. split; [left; reflexivity|]. split; [lia|]. split; [lia|exact Ic].
    - apply in_flat_map in Ic. destruct Ic as [s [I1 Ic]]. apply in_map_iff in Ic. destruct Ic as [c' [<- Ic]]. destruct (IH c' Ic) as [cl [s1 [s2 [cr [-> [A B]]]]]]. exists (s :: cl), s1, s2, cr.
      split; [reflexivity|]. split; [|exact B]. cbn [configs]. apply in_flat_map. exists s. split; [exact I1|]. apply in_map. exact A. }
  destruct CS as [cl [s1 [s2 [cr [-> [I1 [H1 [H2 I2]]]]]]]].
  rewrite (mid_whole cx c0 c1 cadd cmul csub copp cx_ring tl tr _ _ g D0 p1 p2 D3 cl s1 s2 cr (proj1 d_two_fit) SP I1 H1 H2) in HN.
  exact (d_whole_sector g cl s1 s2 cr HV I1 H1 H2 I2 HN).
Qed.
End Two.
(** the two factors *)
Lemma d_split_labels : forall svd (rt : bool) bl i br D0 p1 p2 D3 x m m' a b, (let '(u, s, vt) := svd D0 p1 p2 D3 x in d0 u = D0 /\ d1 u = p1 /\ d1 vt = p2 /\ d2 vt = D3) ->
  d_keeps G qadd ch svd bl i br D0 p1 p2 D3 x m m' -> d_split svd rt D0 p1 p2 D3 x = (a, b) -> let mm := if rt then m else m' in lab3 bl i mm a /\ lab3 mm (i + 1) br b.
Proof.
  intros svd rt bl i br D0 p1 p2 D3 x m m' a b HS HK HD. unfold d_keeps in HK. unfold d_split in HD. destruct (svd D0 p1 p2 D3 x) as [[u s] vt]. destruct HK as [K1 [K2 K3]]. cbv zeta. destruct rt; injection HD as <- <-.
  - split; [exact K1|]. intros k t c Hk Ht Hc HN. cbn [d0 d1 d2 el] in *. destruct (csum_nz _ _ HN) as [n [Hn NZ]]. destruct (mul_nz _ _ NZ) as [N1 N2]. rewrite (K3 k n Hk Hn N1). apply (K2 n t c); auto.
  - split; [|exact K2]. intros c t k Hc Ht Hk HN. cbn [d0 d1 d2 el] in *. destruct (csum_nz _ _ HN) as [n [Hn NZ]]. destruct (mul_nz _ _ NZ) as [N1 N2]. rewrite <- (K3 n k Hn Hk N2). apply (K1 c t n); auto.
Qed.
Lemma d_blocks_set : forall bt q ts l a b mm, l + 1 < N -> blocks bt q ts -> lab3 (bt l) l mm a -> lab3 mm (l + 1) (bt (l + 2)) b -> blocks (fset bt (l + 1) mm) q (fset (fset ts l a) (l + 1) b).
Proof.
  intros bt q ts l a b mm Hl [HB HQ] HA Hb. split.
  - intros i Hi. destruct (Nat.eq_dec i l) as [->|N1]; [|destruct (Nat.eq_dec i (l + 1)) as [->|N2]].
    + unfold fset. replace (l =? l + 1) with false by (symmetry; apply Nat.eqb_neq; lia). rewrite !Nat.eqb_refl. exact HA.
    + unfold fset. rewrite Nat.eqb_refl. replace (l + 1 + 1 =? l + 1) with false by (symmetry; apply Nat.eqb_neq; lia). replace (l + 1 + 1) with (l + 2) by lia. exact Hb.
    + unfold fset. replace (i =? l + 1) with false by (symmetry; apply Nat.eqb_neq; lia). replace (i =? l) with false by (symmetry; apply Nat.eqb_neq; lia). replace (i + 1 =? l + 1) with false by (symmetry; apply Nat.eqb_neq; lia). apply HB. exact Hi.
  - unfold fset. replace (0 =? l + 1) with false by (symmetry; apply Nat.eqb_neq; lia). replace (N =? l + 1) with false by (symmetry; apply Nat.eqb_neq; lia). exact HQ.
Qed.

Variables (stev : list real -> list real -> list real * list real) (close : real -> real -> bool) (maxit : nat) (size : nat -> nat -> nat -> nat -> nat).
Variables (svd : nat -> nat -> nat -> nat -> cten4 -> cten * (nat -> nat -> cx) * cten) (err : nat -> nat -> nat -> nat -> cten4 -> real).
Hypothesis ET : trunc_svd err svd.
Hypothesis Hmax : 2 <= maxit.
Hypothesis HCons : conserving.
Notation trivs := (fun s : side => triv_group cx c1).
Notation upd := (d_update_e ws stev close maxit size svd err).
Notation lenv := (left_env cten (list cop) trivs (d_grow ws)). Notation renv := (right_env cten (list cop) trivs (d_grow ws) N).
Notation opt := (opt cten (list cop) (res (real * real)) trivs (d_grow ws) upd N). Notation opts := (opts cten (list cop) (res (real * real)) trivs (d_grow ws) upd N).
Notation lapack_at := (lapack_at ws stev close maxit size). Notation lapack_trunc := (lapack_trunc N ws stev close maxit size svd err).
Notation truncated := (truncated N ws ds).
Notation along := (d_along G qadd ch N ws svd stev close maxit size err). Notation solved := (d_solved ws stev close maxit size).
Notation keeps := (d_keeps G qadd ch svd).
Lemma d_one : forall rt l ts bt q, l + 1 < N -> on_sites ts -> cmixed N ts l -> nonzero ts -> lapack_at l (lenv ts l) (renv ts (N - (l + 2))) (ts l) (ts (l + 1)) -> blocks bt q ts ->
  let D0 := d0 (ts l) in let p1 := d1 (ts l) in let p2 := d1 (ts (l + 1)) in let D3 := d2 (ts (l + 1)) in
  exists a b e d ph g, upd rt l (lenv ts l) (ts l) (ts (l + 1)) (renv ts (N - (l + 2))) = (a, b, Ok (e, d)) /\
  let ts' := fset (fset ts l a) (l + 1) b in
  truncated ts' e d ph /\ (if rt then cleft a else cright b) /\ in_sector q (coef ph) /\
  solved l (lenv ts l) (ts l) (ts (l + 1)) (renv ts (N - (l + 2))) = Ok g /\ v_ip D0 p1 p2 D3 g g <> c0 /\ lab4 (bt l) l (bt (l + 2)) D0 p1 p2 D3 g /\
  (forall m m', keeps (bt l) l (bt (l + 2)) D0 p1 p2 D3 g m m' -> blocks (fset bt (l + 1) (if rt then m else m')) q ts').
Proof.
  intros rt l ts bt q Hl HO HM HZ HLA HB D0 p1 p2 D3. destruct (cut_at N ws ds PM ts l HO Hl) as [HC H12]. destruct (sites_bases N ws ds maxit PM Hmax ts l HO Hl HM) as [LB RB].
  destruct (update_ok N ws ds stev close maxit size xsplit PM xsplit_ok Hmax rt l ts Hl HO HM HZ HLA) as [a' [b' [e [U [O1 [C1 [E1 L1]]]]]]]. cbv zeta in *.
  unfold d_update in U. rewrite H12, Nat.eqb_refl in U. cbn [negb] in U.
  destruct (d_mul ws l (lenv ts l) (renv ts (N - (l + 2))) (ts l) (ts (l + 1)) (d_init (ts l) (ts (l + 1)))) as [z| |] eqn:MU; try discriminate.
  destruct (v_lanczos _ _ _ _ _ _ _ _ _ _) as [[r g]| |] eqn:RUN; try discriminate.
  assert (GV : v_within (lab_at ts bt l) g).
  { refine (vw_lanczos (lab_at ts bt l) D0 p1 p2 D3 _ _ stev maxit _ Hmax close (d_init (ts l) (ts (l + 1))) r g (d_init_within ts bt q l HO HB Hl) RUN). intros v HV. exact (d_mul_within ts bt q l HO HB Hl HCons v HV). }
  pose proof (xsplit_ok rt D0 p1 p2 D3 g) as SP'. fold D0 p1 p2 D3 in U. destruct (xsplit rt _ _ _ _ g) as [a1 b1]. injection U as -> -> <-. destruct SP' as [SP' _].
  pose proof (cut_l _ _ _ _ _ _ _ _ _ HC) as CL.
  assert (GG : v_ip D0 p1 p2 D3 g g = c1).
  { destruct E1 as [E1 _]. unfold normalized in E1. rewrite (sites_set N _ _ _ _ _ Hl) in E1. rewrite (norm2_splits cx c0 c1 cadd cmul csub copp cx_ring cconj cconj0 cconj_add cconj_mul _ _ a' b' g _ _ _ _ CL SP' LB RB), <- ip_dot4 in E1. exact E1. }
  assert (GZ : v_ip D0 p1 p2 D3 g g <> c0) by (rewrite GG; unfold c0, c1; intros E; injection E as E; lra).
  destruct (split_kept svd err ET rt D0 p1 p2 D3 g GZ) as [a [b [y [S1 [S2 [S3 [S4 [S5 [S6 S7]]]]]]]]].
  rewrite GG, cre_c1 in S5. set (d := err D0 p1 p2 D3 g) in *.
  exists a, b, (eng real r), d, (fset (fset ts l a') (l + 1) b'), g. split; [|split; [|split; [exact S3|split; [|split; [|split; [exact GZ|split]]]]]].
  - unfold d_update_e. rewrite H12, Nat.eqb_refl. cbn [negb]. rewrite MU. rewrite RUN. fold D0 p1 p2 D3. rewrite S1. reflexivity.
  - split; [exact (set_on N ds ts l a b y HO Hl S2)|]. split; [exact S6|]. split; [|split; [exact O1|split; [exact E1|]]].
    + rewrite (sites_set N _ _ _ _ _ Hl), (norm2_splits cx c0 c1 cadd cmul csub copp cx_ring cconj cconj0 cconj_add cconj_mul _ _ a b y _ _ _ _ CL S2 LB RB), <- ip_dot4. exact S5.
    + rewrite (braket_splits N ws ds maxit PM Hmax ts l a b a' b' y g HO Hl HM S2 SP'). fold D0 p1 p2 D3. rewrite <- ip_conj, S4, S5. unfold cconj, cre. cbn [fst snd]. f_equal. ring.
  - exact (d_set_sector ts bt q l HO HB Hl a' b' g SP' GV).
  - unfold d_solved. rewrite RUN. reflexivity.
  - apply lab_at_iff. exact GV.
  - intros m m' HK. pose proof (ET D0 p1 p2 D3 g GZ) as TS.
    destruct (d_split_labels svd rt (bt l) l (bt (l + 2)) D0 p1 p2 D3 g m m' a b) as [K1 K2]; [cbv zeta in TS; revert TS; destruct (svd D0 p1 p2 D3 g) as [[u s] vt]; tauto|exact HK|exact S1|].
    apply d_blocks_set; auto.
Qed.
Lemma d_opts : forall bs l m ts e bt q, path N l bs m -> on_sites ts -> cmixed N ts l -> nonzero ts -> lapack_trunc bs (ts, e) -> blocks bt q ts -> along bs ts bt ->
  let s := opts bs (ts, e) in on_sites (fst s) /\ cmixed N (fst s) m /\ nonzero (fst s) /\ (exists bt', blocks bt' q (fst s)) /\
  (bs <> [] -> exists x d ph, snd s = Some (Ok (x, d)) /\ truncated (fst s) x d ph /\ in_sector q (coef ph)).
Proof.
  induction bs as [|[rt l0] bs IH]; intros l m ts e bt q HP HO HM HZ HLA HB HA; cbv zeta.
  - inversion HP; subst. cbn. split; [auto|]. split; [auto|]. split; [auto|]. split; [eauto|]. congruence.
  - assert (l0 = l) by (inversion HP; auto). subst l0. assert (HP' : l + 1 < N /\ exists l', (l' = l \/ (if rt then l' = l + 1 else l' + 1 = l)) /\ path N l' bs m) by (inversion HP; subst; eauto). clear HP. destruct HP' as [H3 [l' [H4 H5]]].
    destruct HLA as [HL HLA]. cbn [fst snd] in HL.
    destruct (d_one rt l ts bt q H3 HO HM HZ HL HB) as [a [b [x [d [ph [g [U [O1 [C1 [I1 [SO [GZ [GL KB]]]]]]]]]]]]]. cbv zeta in *.
    assert (OP : forall e, opt (rt, l) (ts, e) = (fset (fset ts l a) (l + 1) b, Some (Ok (x, d)))) by (intros e'; unfold SweepSpec.opt; rewrite U; reflexivity).
    destruct (HA g SO GZ GL) as [mm [mm' [HK HA']]]. rewrite OP in HA'. cbn [fst] in HA'.
    rewrite OP in HLA. cbn [SweepSpec.opts fold_left]. change (fold_left (fun (s : (nat -> cten) * option (res (real * real))) (b0 : bool * nat) => opt b0 s) bs (opt (rt, l) (ts, e))) with (opts bs (opt (rt, l) (ts, e))). rewrite OP.
    set (ts' := fset (fset ts l a) (l + 1) b) in *.
    destruct (IH l' m ts' (Some (Ok (x, d))) (fset bt (l + 1) (if rt then mm else mm')) q H5 (proj1 O1)) as [A1 [A2 [A3 [A4 A5]]]]; auto.
    { apply (set_mixed N maxit Hmax) with (rt := rt); auto. }
    { exact (truncated_nz N ws ds _ _ _ _ O1). }
    split; [exact A1|]. split; [exact A2|]. split; [exact A3|]. split; [exact A4|].
    intros _. destruct bs as [|b0 bs]; [|apply A5; discriminate]. cbn. exists x, d, ph. auto.
Qed.
(** an SVD that always keeps the structure keeps it along any sequence of updates *)
Lemma d_block_along : d_block_svd G qadd ch svd -> forall bs ts bt, along bs ts bt.
Proof. intros HS. induction bs as [|[rt l] bs IH]; intros ts bt; [exact I|]. cbn [DmrgSectorSpec.d_along]. intros x _ HZ HL. destruct (HS _ _ _ _ _ _ _ _ HZ HL) as [m [m' HK]]. exists m, m'. split; [exact HK|apply IH]. Qed.
Lemma along_app : forall bs bs' ts bt, along (bs ++ bs') ts bt -> along bs ts bt.
Proof.
  induction bs as [|[rt l] bs IH]; intros bs' ts bt H; [exact I|]. cbn [app DmrgSectorSpec.d_along] in *. intros x SO HZ HL. destruct (H x SO HZ HL) as [m [m' [HK HA]]]. exists m, m'. split; [exact HK|]. exact (IH _ _ _ HA).
Qed.
End Chain.
End Labels.
