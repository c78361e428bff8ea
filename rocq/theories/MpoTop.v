(** Gen and GenMatReprMPO after any list of AddTerm calls. *)
From Coq Require Import List Arith Lia Bool Permutation Ring.
From Verif Require Import Base SparMat SparMatFacts CoefOp CoefOpAlg CoefOpFacts Compress Fsm Numeric Chain
  ChainProgress FsmFacts FsmMat FsmSem Grading Labels MpoGen MpoGenFacts MpoSpec MpoGenSem MpoTen MpoTenSpec MpoTenFacts MpoSort
  MpoChain MpoTopSpec.
Import ListNotations.

Section Top.
Variables (R : Type) (r0 r1 : R) (radd rmul rsub : R -> R -> R) (ropp : R -> R).
Variable Rth : ring_theory r0 r1 radd rmul rsub ropp (@eq R).
Add Ring Rring5 : Rth.
Variables (reqb : R -> R -> bool) (isneg small : R -> bool).
Hypothesis reqb_spec : forall x y, reqb x y = true <-> x = y.
Variables (Q : Type) (q0 : Q) (qsub : Q -> Q -> Q) (qeqb : Q -> Q -> bool) (dv : lop R -> Q).
Hypothesis qeqb_spec : forall a b, qeqb a b = true <-> a = b.
Hypothesis qsub_self : forall a, qsub a a = q0.
Hypothesis qsub_cancel : forall a b d, qsub a d = qsub b d -> a = b.
Hypothesis dv_neg : forall o, dv (lop_neg R ropp o) = dv o.
Variable (pd : nat -> nat).
Variable blk : nat -> nat -> nat -> Q -> Prop.
Notation lop := (lop R).
Notation norm1 := (norm1 R r0 ropp reqb isneg).
Notation ncoef := (ncoef R r0 ropp reqb isneg).
Notation nrm := (nrm R r0 ropp reqb isneg).
Notation opf := (opf R).
Notation elem := (elem r0).
Notation square := (square R pd).
Notation block_op := (block_op R r0 Q dv blk).
Notation conserves := (conserves R Q q0 qsub dv).
Notation good_ids := (good_ids R pd Q qsub dv).
Notation dfl := (mkLop 0 (@nil (list R))).

Lemma dv_norm : forall o, dv (norm1 o) = dv o.
Proof. intros. unfold MpoGenFacts.norm1. destruct (isneg _); auto. Qed.
Lemma ix_norm : forall o, lo_ix (norm1 o) = lo_ix o.
Proof. intros. unfold MpoGenFacts.norm1. destruct (isneg _); auto. Qed.
Lemma square_norm : forall o, square o -> square (norm1 o).
Proof.
  intros o [S1 S2]. unfold MpoGenFacts.norm1. destruct (isneg _); [|split; auto]. split; simpl; [rewrite map_length; auto|].
  apply Forall_forall. intros r Hr. apply in_map_iff in Hr. destruct Hr as [r' [<- Hr]]. rewrite map_length.
  rewrite Forall_forall in S2. auto.
Qed.
Lemma block_norm : forall o, block_op o -> block_op (norm1 o).
Proof.
  intros o B a b H. rewrite dv_norm, ix_norm. apply B. intro Z. apply H. unfold MpoGenFacts.norm1. destruct (isneg _); auto.
  rewrite (elem_neg R r0 r1 radd rmul rsub ropp Rth). rewrite Z. ring.
Qed.

Section State.
Variables (sites : list nat) (idops : list lop) (H : list (call R)) (g : gen R).
Notation n := (length sites).
Hypothesis GI : ginv R r0 r1 ropp reqb isneg sites idops H g.
Hypothesis Hv : Forall (valid_call R sites) H.
Hypothesis Hne : H <> [].
Hypothesis Hid : good_ids sites idops.
Hypothesis Hsq : Forall (square_call R pd) H.
Hypothesis Hcons : Forall (conserves idops) H.
Hypothesis Hbi : Forall block_op idops.
Hypothesis Hbc : Forall (fun t => Forall (fun p => block_op (fst p)) (snd t)) H.

(** operator of a term on a site *)
Lemma opf_op : forall cp i, valid_call R sites cp -> i < n ->
  (exists p, In p (snd cp) /\ snd p = i /\ opf idops (sort_sites (nrm (snd cp))) i = norm1 (fst p) /\ op_on idops (snd cp) i = fst p) \/
  (opf idops (sort_sites (nrm (snd cp))) i = nth i idops dfl /\ op_on idops (snd cp) i = nth i idops dfl).
Proof.
  intros cp i [_ [ND V]] Hi. unfold MpoGenFacts.opf, op_on.
  rewrite <- (find_perm R (nrm (snd cp))); [|apply sort_sites_perm|rewrite nrm_snd; auto].
  rewrite find_nrm. destruct (find (fun p => i =? snd p) (snd cp)) as [p|] eqn:E; simpl; [left|right; auto].
  apply find_some in E. destruct E as [E1 E2]. apply Nat.eqb_eq in E2. exists p. auto.
Qed.

Lemma id_good : forall i, i < n -> exists ix, nth_error sites i = Some ix /\ lo_ix (nth i idops dfl) = ix /\ square (nth i idops dfl) /\
  (forall q, qsub q (dv (nth i idops dfl)) = q) /\ block_op (nth i idops dfl).
Proof.
  intros i Hi. apply nth_error_Some in Hi. destruct (nth_error sites i) as [ix|] eqn:E; [|congruence].
  destruct (Forall2_nth_l _ _ _ _ _ _ _ Hid E) as [o [E1 [E2 [E3 E4]]]]. exists ix. rewrite (nth_error_nth _ _ _ E1).
  repeat split; auto; try apply E3. rewrite Forall_forall in Hbi. apply Hbi. eapply nth_error_In; eauto.
Qed.
Lemma opf_good : forall cp i, In cp H -> i < n -> exists ix, nth_error sites i = Some ix /\
  let o := opf idops (sort_sites (nrm (snd cp))) i in
  lo_ix o = ix /\ square o /\ dv o = dv (op_on idops (snd cp) i) /\ block_op o.
Proof.
  intros cp i Hc Hi. rewrite Forall_forall in Hv, Hsq, Hbc. pose proof (Hv cp Hc) as V.
  destruct (opf_op cp i V Hi) as [[p [P1 [P2 [P3 P4]]]]|[P1 P2]].
  - destruct V as [_ [_ V]]. rewrite Forall_forall in V. pose proof (V p P1) as V1. rewrite P2 in V1.
    exists (lo_ix (fst p)). split; auto. cbv zeta. rewrite P3, P4. split; [apply ix_norm|]. split.
    + apply square_norm. pose proof (Hsq cp Hc) as S. unfold square_call in S. rewrite Forall_forall in S. apply S. auto.
    + split; [apply dv_norm|]. apply block_norm. pose proof (Hbc cp Hc) as B. rewrite Forall_forall in B. auto.
  - destruct (id_good i Hi) as [ix [I1 [I2 [I3 [_ I4]]]]]. exists ix. split; auto. cbv zeta. rewrite P1, P2. auto.
Qed.

Notation dvl := (MpoSort.dvl R Q dv (g_oh g) dfl).
Notation graded := (graded Q qsub dvl).
Notation okl := (okl R pd (g_oh g)).
Notation Bl := (Bl R r0 Q dv (g_oh g) blk).

Lemma dvl_nth : forall l o, nth_error (g_oh g) l = Some o -> dvl l = dv o.
Proof. intros l o E. unfold MpoSort.dvl. rewrite (nth_error_nth _ _ _ E). auto. Qed.

(** what both matrix chains have in common *)
Record mchain (ms : list opmat) : Prop := mkMC {
  mc_len : length ms = n;
  mc_good : Forall good ms;
  mc_nn : Forall nnm ms;
  mc_chain : chain 1 ms 1;
  mc_gr : exists qa qz, graded qa ms qz /\ qa 0 = q0 /\ qz 0 = q0;
  mc_cl : Forall (clm (fun k => k < length (g_ch g))) ms;
  mc_kin : Forall2 kin (map (fun ix l => okl ix l /\ Bl ix l) sites) ms
}.

Lemma csteps_mchain : forall ms ms', csteps ms ms' -> mchain ms -> mchain ms'.
Proof.
  intros ms ms' S [M1 M2 M3 M4 [qa [qz [M5 [M6 M7]]]] M8 M9]. destruct (csteps_inv _ _ S) as [L [G [N [C _]]]].
  constructor; auto; try congruence.
  - exists qa, qz. split; auto. eapply csteps_graded; eauto.
  - eapply csteps_clm; eauto. destruct GI. apply nth_error_Some. unfold kIdCoefLabel. congruence.
  - eapply csteps_kin; eauto.
Qed.

Lemma ent_clo : forall (P : nat -> Prop) ids ts m i r c, m <= length ts -> (forall j, j < m -> clo P (op ids ts j i)) -> clo P (ent ids ts m i r c).
Proof.
  intros P ids ts. induction m; intros i r c Hm Hc; [constructor|]. rewrite ent_S. unfold estep.
  assert (I : clo P (ent ids ts m i r c)) by (apply IHm; [lia|]; intros; apply Hc; lia).
  destruct (_ && _); auto. unfold castf. destruct (op_isnull _); [apply Hc; lia|]. destruct (negb _); auto.
  apply op_add_clo; auto.
Qed.

Lemma Forall2_nth_intro : forall A B (P : A -> B -> Prop) l l', length l = length l' ->
  (forall i a b, nth_error l i = Some a -> nth_error l' i = Some b -> P a b) -> Forall2 P l l'.
Proof.
  intros A B P. induction l as [|a l IH]; intros [|b l'] E F; simpl in *; try discriminate; constructor.
  - apply (F 0); auto.
  - apply IH; [lia|]. intros i x y H1 H2. apply (F (S i)); auto.
Qed.

Lemma raw_mchain : exists ms, gen_mat_repr (g_fsm g) = Ok ms /\ mchain ms /\
  exists kept, (forall j, j < length H -> kept j = false <-> repeated R r0 ropp reqb isneg H j) /\
  forall s s', mprod R r0 r1 radd rmul (cvl R r0 (g_ch g)) (fun i => evl R r0 (g_oh g) (s i) (s' i)) 0 ms 0 0 =
  sum_to R r0 radd (length H) (fun j => if (kept j : bool) then term_elem R r0 r1 rmul idops n s s' (nth j H (r0, [])) else r0).
Proof.
  destruct GI as [N1 N2 N3 N4 C0 CD OD [idl [ts [F1 [F2 F3]]]]]. set (ids := map op_of_label idl) in *.
  assert (LI : length ids = n) by (eapply ids_len; eauto).
  assert (SI : forall i, i < n -> shid (nth i ids [])) by (intros; eapply ids_sh; eauto).
  assert (ST : Forall (fun t => wfterm n t /\ shterm t) ts) by (eapply ts_sh; eauto).
  assert (NE : ts <> []) by (eapply ts_ne; eauto).
  assert (LE : length ts = length H) by (eapply Forall2_len; eauto).
  destruct (gen_facts n ids ts LI SI ST NE) as [ms [E1 [E2 [E3 [E4 [E5 E6]]]]]].
  assert (OPS : forall j i l, j < length ts -> i < n -> In l (keys (op ids ts j i)) -> exists cp, nth_error H j = Some cp /\
    nth_error (g_oh g) l = Some (opf idops (sort_sites (nrm (snd cp))) i)).
  { intros j i l Hj Hi Hl. destruct (nth_error H j) as [cp|] eqn:Ej; [|apply nth_error_None in Ej; lia].
    destruct (op_at R r0 ropp reqb isneg sites idops H g idl ts Hv N4 F2 F3 j cp i Hj Ej Hi) as [l' [c [O1 [O2 _]]]].
    fold ids in O1. rewrite O1 in Hl. simpl in Hl. destruct Hl as [<-|[]]. eauto. }
  exists ms. rewrite F1. split; [exact E1|]. split.
  - constructor; auto.
    + exists (bq Q q0 qsub dvl ids ts 0), (bq Q q0 qsub dvl ids ts n).
      apply (gen_graded Q q0 qsub dvl n ids ts LI SI ST NE); auto.
      * intros i l q Hi Hl. destruct (id_at R sites idops g idl N4 F2 i Hi) as [l' [I1 I2]]. fold ids in I1. rewrite I1 in Hl. simpl in Hl.
        destruct Hl as [<-|[]]. rewrite (dvl_nth _ _ I2). destruct (id_good i Hi) as [ix [_ [_ [_ [I3 _]]]]]. apply I3.
      * intros j Hj. destruct (nth_error H j) as [cp|] eqn:Ej; [|apply nth_error_None in Ej; lia].
        assert (Hc : In cp H) by (eapply nth_error_In; eauto).
        pose proof Hcons as HC. rewrite Forall_forall in HC. specialize (HC cp Hc). unfold MpoTopSpec.conserves in HC. rewrite N4 in HC.
        rewrite <- HC at 2. assert (G : forall b, b <= n -> tq Q q0 qsub dvl ids ts j b =
          fold_left (fun q i => qsub q (dv (op_on idops (snd cp) i))) (seq 0 b) q0); [|apply G; lia].
        induction b; intros Hb; [reflexivity|]. rewrite seq_S, fold_left_app. simpl. rewrite IHb by lia. f_equal.
        destruct (op_at R r0 ropp reqb isneg sites idops H g idl ts Hv N4 F2 F3 j cp b Hj Ej ltac:(lia)) as [l [c [O1 [O2 _]]]].
        fold ids in O1. rewrite O1. simpl. rewrite (dvl_nth _ _ O2). destruct (opf_good cp b Hc ltac:(lia)) as [ix [_ [_ [_ [X _]]]]]. auto.
    + apply Forall_forall. intros m Hm. destruct (In_nth_error _ _ Hm) as [i Hi]. destruct (E6 i m Hi) as [_ [D1 [D2 D3]]].
      assert (Hi' : i < n) by (rewrite <- E2; apply nth_error_Some; congruence).
      intros x y Hx Hy. rewrite D3 by congruence. apply ent_clo; auto. intros j Hj.
      destruct (nth_error H j) as [cp|] eqn:Ej; [|apply nth_error_None in Ej; lia].
      destruct (op_at R r0 ropp reqb isneg sites idops H g idl ts Hv N4 F2 F3 j cp i Hj Ej Hi') as [l [c [O1 [O2 [O3 O4]]]]].
      fold ids in O1. rewrite O1. constructor; [|constructor]. simpl. destruct (Nat.eq_dec i (t_head (tm ts j))) as [Q1|Q1].
      * destruct (O4 Q1) as [k [-> O5]]. constructor; [|constructor]. apply nth_error_Some. congruence.
      * rewrite (O3 Q1). constructor; [|constructor]. apply nth_error_Some. unfold kIdCoefLabel. congruence.
    + apply Forall2_nth_intro; [rewrite map_length; congruence|]. intros i P m HP Hm. rewrite nth_error_map in HP.
      destruct (nth_error sites i) as [ix|] eqn:Ei; [|discriminate]. simpl in HP. injection HP as <-.
      assert (Hi' : i < n) by (apply nth_error_Some; congruence).
      destruct (E6 i m Hm) as [_ [D1 [D2 D3]]]. intros x y l Hx Hy Hl. rewrite D3 in Hl by congruence.
      destruct (ent_keys n ids ts LI (length ts) i x y l ltac:(lia) Hl) as [j [J1 [_ [_ J2]]]].
      destruct (OPS j i l J1 Hi' J2) as [cp [O1 O2]].
      destruct (opf_good cp i ltac:(eapply nth_error_In; eauto) Hi') as [ix' [G1 [G2 [G3 [G4 G5]]]]]. rewrite Ei in G1. injection G1 as <-.
      split; [eexists; split; [exact O2|]; split; auto|].
      intros a b Hab. rewrite (dvl_nth _ _ O2). rewrite <- G2. apply G5. unfold evl in Hab. rewrite (nth_error_nth _ _ _ O2) in Hab. auto.
  - pose proof (fun s s' => state_value R r0 r1 radd rmul rsub ropp Rth reqb isneg sites idops H g idl ts Hv Hne N4 C0 CD OD F2 F3 s s' ms E1) as SV.
    destruct (SV (fun _ => 0) (fun _ => 0)) as [kept [K1 _]]. exists kept. split; auto. intros s s'.
    destruct (SV s s') as [kept' [K2 K3]]. rewrite (sum_to_nsum R r0 r1 radd rmul rsub ropp Rth). etransitivity; [exact K3|].
    apply nsum_ext. intros j Hj. replace (kept' j) with (kept j); auto. pose proof (K1 j Hj) as A. pose proof (K2 j Hj) as B.
    destruct (kept j), (kept' j); auto; exfalso.
    + assert (true = false) by (apply A, B; auto). discriminate.
    + assert (true = false) by (apply B, A; auto). discriminate.
Qed.

Lemma mats : forall dbg, exists ms ms', gen_mat_repr (g_fsm g) = Ok ms /\ gen_compressed dbg (g_fsm g) = Ok ms' /\
  mchain ms /\ mchain ms' /\ csteps ms ms' /\
  exists kept, (forall j, j < length H -> kept j = false <-> repeated R r0 ropp reqb isneg H j) /\
  forall s s', 
  (mprod R r0 r1 radd rmul (cvl R r0 (g_ch g)) (fun i => evl R r0 (g_oh g) (s i) (s' i)) 0 ms 0 0 =
  sum_to R r0 radd (length H) (fun j => if (kept j : bool) then term_elem R r0 r1 rmul idops n s s' (nth j H (r0, [])) else r0)) /\
  (mprod R r0 r1 radd rmul (cvl R r0 (g_ch g)) (fun i => evl R r0 (g_oh g) (s i) (s' i)) 0 ms' 0 0 =
  sum_to R r0 radd (length H) (fun j => if (kept j : bool) then term_elem R r0 r1 rmul idops n s s' (nth j H (r0, [])) else r0)).
Proof.
  intros dbg. destruct raw_mchain as [ms [E [M [kept [K1 K2]]]]].
  destruct GI as [N1 N2 N3 N4 C0 CD OD [idl [ts [F1 [F2 F3]]]]]. set (ids := map op_of_label idl) in *.
  assert (LI : length ids = n) by (eapply ids_len; eauto).
  assert (SI : forall i, i < n -> shid (nth i ids [])) by (intros; eapply ids_sh; eauto).
  assert (ST : Forall (fun t => wfterm n t /\ shterm t) ts) by (eapply ts_sh; eauto).
  assert (NE : ts <> []) by (eapply ts_ne; eauto).
  destruct (gen_compressed_facts n ids ts LI SI ST NE dbg) as [ms1 [ms' [E1 [E2 [S _]]]]].
  assert (ms1 = ms). { rewrite F1 in E. unfold fs in E1. congruence. } subst ms1.
  exists ms, ms'. split; auto. split; [rewrite F1; exact E2|]. split; auto. split; [eapply csteps_mchain; eauto|]. split; auto.
  exists kept. split; auto. intros s s'. split; auto. rewrite <- K2.
  apply (csteps_val R r0 r1 radd rmul rsub ropp Rth _) with (a := 1) (b := 1); auto; try apply M.
  unfold cvl. apply nth_error_nth. auto.
Qed.

Lemma n_pos : 0 < n.
Proof.
  destruct H as [|cp H']; [congruence|]. inversion Hv as [|? ? [V1 [_ V2]] _]; subst. destruct (snd cp) as [|p l]; [congruence|].
  inversion V2; subst. assert (snd p < n) by (apply nth_error_Some; congruence). lia.
Qed.
Lemma mchain_sites : forall ms, mchain ms -> forall k m, nth_error ms k = Some m -> site_ok R pd (g_ch g) (g_oh g) sites k m.
Proof.
  intros ms M k m Hk.
  pose proof (mc_kin ms M) as K.
  assert (Hk' : k < n) by (rewrite <- (mc_len ms M); apply nth_error_Some; congruence).
  apply nth_error_Some in Hk'. destruct (nth_error sites k) as [ix|] eqn:E; [|congruence].
  assert (Ek : nth_error (map (fun ix l => okl ix l /\ Bl ix l) sites) k = Some (fun l => okl ix l /\ Bl ix l)).
  { rewrite nth_error_map, E. reflexivity. }
  destruct (Forall2_nth_l _ _ _ _ _ _ _ K Ek) as [m' [E1 E2]]. rewrite Hk in E1. injection E1 as <-.
  exists ix. split; auto. pose proof (mc_good ms M) as G. pose proof (mc_cl ms M) as C. rewrite Forall_forall in G, C.
  assert (Hm : In m ms) by (eapply nth_error_In; eauto).
  split; [apply (G m Hm)|]. split; [apply (C m Hm)|]. intros x y l Hx Hy Hl. apply (E2 x y l Hx Hy Hl).
Qed.
Lemma mchain_bl : forall ms, mchain ms -> forall k m ix, nth_error ms k = Some m -> nth_error sites k = Some ix -> kin (Bl ix) m.
Proof.
  intros ms M k m ix Hk E. pose proof (mc_kin ms M) as K.
  assert (Ek : nth_error (map (fun ix l => okl ix l /\ Bl ix l) sites) k = Some (fun l => okl ix l /\ Bl ix l)).
  { rewrite nth_error_map, E. reflexivity. }
  destruct (Forall2_nth_l _ _ _ _ _ _ _ K Ek) as [m' [E1 E2]]. rewrite Hk in E1. injection E1 as <-.
  intros x y l Hx Hy Hl. apply (E2 x y l Hx Hy Hl).
Qed.

Lemma bdim_sectors : forall (v : list (Q * nat)), bdim Q v = length (sectors Q v).
Proof. induction v as [|[q d] v IH]; simpl; auto. rewrite app_length, repeat_length, IH. auto. Qed.
Lemma tchain_dims : forall ms ts k qa pl v, tchain R r0 radd rmul reqb Q q0 qsub dv pd (g_ch g) (g_oh g) sites k qa pl v ms ts ->
  Forall2 (fun m t => bdim Q (mt_l t) = rows m /\ bdim Q (mt_r t) = cols m) ms ts.
Proof.
  induction ms as [|m ms IH]; intros [|t ts] k qa pl v T; cbn [tchain] in T; try contradiction; constructor.
  - destruct T as [ix [qb [pr [_ [_ [_ [_ [F _]]]]]]]]. rewrite !bdim_sectors, (tf_l _ _ _ _ _ _ _ _ _ _ _ _ _ _ _ F), (tf_r _ _ _ _ _ _ _ _ _ _ _ _ _ _ _ F), !map_length.
    split; [apply (tf_pl _ _ _ _ _ _ _ _ _ _ _ _ _ _ _ F)|apply (tf_pr _ _ _ _ _ _ _ _ _ _ _ _ _ _ _ F)].
  - destruct T as [ix [qb [pr [_ [_ [_ [_ [_ T]]]]]]]]. eapply IH; eauto.
Qed.

Lemma ten_of_mats : forall dbg ms, mchain ms -> exists ts v' p', 
  for_loop 0 (length ms) (ten_step R r0 radd rmul Q qsub qeqb dv dbg (length ms) (g_ch g) (g_oh g) ms) ([(q0, 1)], [], []) = Ok (v', p', ts) /\
  mpo_ok R r0 reqb Q q0 qsub blk sites ts /\
  Forall2 (fun m t => bdim Q (mt_l t) = rows m /\ bdim Q (mt_r t) = cols m) ms ts /\
  (forall s s', mpo_amp R r0 r1 radd rmul reqb Q ts s s' = 
    mprod R r0 r1 radd rmul (cvl R r0 (g_ch g)) (fun i => evl R r0 (g_oh g) (s i) (s' i)) 0 ms 0 0).
Proof.
  intros dbg ms M. destruct (mc_gr ms M) as [qa [qz [G1 [G2 G3]]]].
  destruct (all_ok R r0 r1 radd rmul rsub ropp Rth reqb reqb_spec Q q0 qsub qeqb dv qeqb_spec qsub_self pd (g_ch g) (g_oh g) sites dbg ms qa qz)
    as [ts [v' [p' [T1 T2]]]]; auto.
  - intro Z. pose proof (mc_len ms M) as L. rewrite Z in L. pose proof n_pos. simpl in L. lia.
  - apply mchain_sites. auto.
  - apply M.
  - apply M.
  - apply M.
  - exists ts, v', p'. split; auto. split; [split|split].
    + eapply tchain_bonds; eauto.
    + pose proof (tchain_ok R r0 r1 radd rmul rsub ropp Rth reqb reqb_spec Q q0 qsub dv pd (g_ch g) (g_oh g) sites blk ms ts 0 qa [0] [(q0, 1)]) as X.
      apply X; auto; [apply (mc_len ms M)|]. intros j m ix H1 H2. eapply mchain_bl; eauto.
    + eapply tchain_dims; eauto.
    + intros s s'. unfold mpo_amp.
      rewrite (tchain_val R r0 r1 radd rmul rsub ropp Rth reqb Q q0 qsub dv pd (g_ch g) (g_oh g) sites s s' ms ts 0 qa [0] [(q0, 1)] T2 0); auto.
Qed.

(** Gen *)
Theorem gen_mpo_state : forall dbg compress, exists ts, gen_mpo R r0 radd rmul Q qsub qeqb dv dbg compress q0 g = Ok ts /\
  mpo_ok R r0 reqb Q q0 qsub blk sites ts /\
  exists kept, (forall j, j < length H -> kept j = false <-> repeated R r0 ropp reqb isneg H j) /\
  forall s s', mpo_amp R r0 r1 radd rmul reqb Q ts s s' =
   sum_to R r0 radd (length H) (fun j => if (kept j : bool) then term_elem R r0 r1 rmul idops n s s' (nth j H (r0, [])) else r0).
Proof.
  intros dbg compress. destruct (mats dbg) as [ms [ms' [E1 [E2 [M1 [M2 [S [kept [K1 K2]]]]]]]]].
  assert (G : forall ms0, mchain ms0 -> (if compress then gen_compressed dbg (g_fsm g) else gen_mat_repr (g_fsm g)) = Ok ms0 ->
    exists ts, gen_mpo R r0 radd rmul Q qsub qeqb dv dbg compress q0 g = Ok ts /\
      mpo_ok R r0 reqb Q q0 qsub blk sites ts /\
      (forall s s', mpo_amp R r0 r1 radd rmul reqb Q ts s s' = 
      mprod R r0 r1 radd rmul (cvl R r0 (g_ch g)) (fun i => evl R r0 (g_oh g) (s i) (s' i)) 0 ms0 0 0)).
  { intros ms0 M E. destruct (ten_of_mats dbg ms0 M) as [ts [v' [p' [T1 [T2 [_ T3]]]]]]. exists ts. split; auto.
    unfold gen_mpo. rewrite E. cbn [bind]. rewrite (gi_n _ _ _ _ _ _ _ _ _ _ GI), <- (mc_len ms0 M). rewrite T1. reflexivity. }
  destruct compress.
  - destruct (G ms' M2 E2) as [ts [T1 [T2 T3]]]. exists ts. split; auto. split; auto. exists kept. split; auto. intros. rewrite T3. apply K2.
  - destruct (G ms M1 E1) as [ts [T1 [T2 T3]]]. exists ts. split; auto. split; auto. exists kept. split; auto. intros. rewrite T3. apply K2.
Qed.

(** compression never makes a bond larger *)
Theorem gen_mpo_bonds : forall dbg dbg', exists ts ts0, gen_mpo R r0 radd rmul Q qsub qeqb dv dbg true q0 g = Ok ts /\
  gen_mpo R r0 radd rmul Q qsub qeqb dv dbg' false q0 g = Ok ts0 /\
  Forall2 (fun t t0 => bdim Q (mt_l t) <= bdim Q (mt_l t0) /\ bdim Q (mt_r t) <= bdim Q (mt_r t0)) ts ts0.
Proof.
  intros dbg dbg'. destruct (mats dbg) as [ms [ms' [E1 [E2 [M1 [M2 [ST _]]]]]]].
  destruct (ten_of_mats dbg ms' M2) as [ts [v [p [T1 [_ [T2 _]]]]]]. destruct (ten_of_mats dbg' ms M1) as [ts0 [v0 [p0 [T3 [_ [T4 _]]]]]].
  exists ts, ts0. split; [unfold gen_mpo; rewrite E2; cbn [bind]; rewrite (gi_n _ _ _ _ _ _ _ _ _ _ GI), <- (mc_len ms' M2), T1; reflexivity|].
  split; [unfold gen_mpo; rewrite E1; cbn [bind]; rewrite (gi_n _ _ _ _ _ _ _ _ _ _ GI), <- (mc_len ms M1), T3; reflexivity|].
  destruct (csteps_inv _ _ ST) as [_ [_ [_ [_ B]]]]. unfold bond_le in B. clear - T2 T4 B.
  revert ts ts0 T2 T4. induction B as [|m' m l' l B1 B2 IH]; intros ts ts0 T2 T4; inversion T2 as [|? t ? ts1 X1 X2]; inversion T4 as [|? t0 ? ts2 Y1 Y2]; constructor; auto.
  destruct X1 as [A1 A2], Y1 as [A3 A4]. lia.
Qed.

(** GenMatReprMPO *)
Lemma matmpo_val : forall s s' l ws k, (forall j m, nth_error l j = Some m -> site_ok R pd (g_ch g) (g_oh g) sites (k + j) m) ->
  Forall2 (fun m w => fst (fst w) = rows m /\ snd (fst w) = cols m /\ all_entries R r0 radd rmul (g_ch g) (g_oh g) m = Ok (snd w)) l ws ->
  forall a, chain a l 1 -> forall x, x < a -> matmpo_from R r0 r1 radd rmul reqb k ws s s' x =
    mprod R r0 r1 radd rmul (cvl R r0 (g_ch g)) (fun i => evl R r0 (g_oh g) (s i) (s' i)) k l x 0.
Proof.
  intros s s'. induction l as [|m l IH]; intros ws k HS F a C x Hx; inversion F as [|? w ? ws' F1 F2]; subst; [reflexivity|].
  simpl. rewrite (sum_to_nsum R r0 r1 radd rmul rsub ropp Rth). destruct F1 as [F3 [F4 F5]]. rewrite F4. apply nsum_ext. intros y Hy.
  destruct C as [C1 C2]. destruct (HS 0 m eq_refl) as [ix [S1 S2]].
  destruct (all_entries_ok R r0 r1 radd rmul rsub ropp Rth pd (g_ch g) (g_oh g) ix m S2) as [w' [W1 W2]].
  rewrite F5 in W1. injection W1 as W1. subst w'.
  destruct (written_elem R r0 radd rmul reqb reqb_spec pd (g_ch g) (g_oh g) ix _ _ _ W2 (grid_nodup _ _)) as [_ [_ W3]].
  destruct (W3 x y (s k) (s' k)) as [W4 _]. rewrite W4 by (apply grid_in; lia). f_equal.
  apply (IH ws' (S k)) with (a := cols m); auto. intros j m0 Hj. replace (S k + j) with (k + S j) by lia. apply (HS (S j)). auto.
Qed.
Theorem gen_mat_mpo_state : forall dbg, exists ws, gen_mat_mpo R r0 radd rmul dbg g = Ok ws /\ length ws = n /\
  forall ts, gen_mpo R r0 radd rmul Q qsub qeqb dv dbg true q0 g = Ok ts ->
    forall s s', matmpo_amp R r0 r1 radd rmul reqb ws s s' = mpo_amp R r0 r1 radd rmul reqb Q ts s s'.
Proof.
  intros dbg. destruct (mats dbg) as [ms [ms' [E1 [E2 [M1 [M2 [ST [kept [K1 K2]]]]]]]]].
  unfold gen_mat_mpo. rewrite E2. cbn [bind]. rewrite (gi_n _ _ _ _ _ _ _ _ _ _ GI), <- (mc_len ms' M2).
  destruct (for_loop_inv _ (fun i ws => Forall2 (fun m w => fst (fst w) = rows m /\ snd (fst w) = cols m /\ all_entries R r0 radd rmul (g_ch g) (g_oh g) m = Ok (snd w)) (firstn i ms') ws)
    (fun i acc => let! m := vget ms' i in let! w := all_entries R r0 radd rmul (g_ch g) (g_oh g) m in Ok (acc ++ [(rows m, cols m, w)])) (length ms') 0 []) as [ws [W1 W2]].
  - constructor.
  - intros i ws Hi HF. destruct (vget_ok _ _ _ (proj2 Hi)) as [m [V1 V2]]. rewrite V1. cbn [bind].
    destruct (mchain_sites ms' M2 i m V2) as [ix [X1 X2]].
    destruct (all_entries_ok R r0 r1 radd rmul rsub ropp Rth pd (g_ch g) (g_oh g) ix m X2) as [w [Y1 Y2]]. rewrite Y1. cbn [bind].
    eexists. split; [reflexivity|].
    replace (firstn (S i) ms') with (firstn i ms' ++ [m]).
    + apply Forall2_app; auto.
    + clear - V2. revert i V2. induction ms' as [|a l IH]; intros [|i] V; simpl in *; try discriminate; [congruence|]. f_equal. auto.
  - simpl in W2. rewrite firstn_all in W2. exists ws. split; auto. split; [symmetry; eapply Forall2_len; eauto|].
    intros ts T s s'. unfold matmpo_amp.
    rewrite (matmpo_val s s' ms' ws 0 (mchain_sites ms' M2) W2 1 (mc_chain ms' M2) 0) by lia.
    destruct (ten_of_mats dbg ms' M2) as [ts' [v' [p' [T1 [T2 T3]]]]].
    unfold gen_mpo in T. rewrite E2 in T. cbn [bind] in T. rewrite (gi_n _ _ _ _ _ _ _ _ _ _ GI), <- (mc_len ms' M2) in T. rewrite T1 in T.
    cbn [bind] in T. injection T as <-. symmetry. apply T3.
Qed.
End State.
End Top.
