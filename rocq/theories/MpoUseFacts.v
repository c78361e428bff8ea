(** The MPO of the generator as the algorithms read it: legs fit, no empty row or column, the product of the matrices is the operator. *)
From Coq Require Import List Arith Lia Bool Permutation Ring.
From Verif Require Import Base SparMat SparMatFacts CoefOp CoefOpAlg CoefOpFacts Compress Fsm Numeric Chain
  ChainProgress FsmFacts FsmMat FsmSem Grading Labels MpoGen MpoGenFacts MpoSpec MpoGenSem MpoTen MpoTenSpec MpoTenFacts MpoSort
  MpoChain MpoTopSpec MpoTop MpoRunSpec MpoRun MpoRunAll.
From Verif Require Import FiniteMps FmpsSpec EffHam EffHamSpec ChainSpec Legs VmpsSpec MpoUse.
Import ListNotations.

Section Use.
Variables (R : Type) (r0 r1 : R) (radd rmul rsub : R -> R -> R) (ropp : R -> R).
Variable Rth : ring_theory r0 r1 radd rmul rsub ropp (@eq R).
Add Ring Rring_use : Rth.
Variables (reqb : R -> R -> bool).
Hypothesis reqb_spec : forall x y, reqb x y = true <-> x = y.
Variables (Q : Type) (pd : nat -> nat).
Infix "*r" := rmul (at level 40, left associativity). Infix "+r" := radd (at level 50, left associativity).
Notation mpo_mat := (mpo_mat R r0 r1 radd rmul). Notation sumn := (sumn R r0 radd). Notation sum_to := (sum_to R r0 radd).
Notation ten_g := (ten_g R r0 reqb Q pd). Notation mpo_g := (mpo_g R r0 reqb Q pd). Notation mat_w := (mat_w R r0). Notation mat_g := (mat_g R r0).

Lemma fold_acc : forall (f : nat -> R) l a, fold_right (fun k s => f k +r s) a l = fold_right (fun k s => f k +r s) r0 l +r a.
Proof. intros f l a. induction l as [|k l IH]; cbn; [ring|rewrite IH; ring]. Qed.
Lemma sumn_sum_to : forall n f, sumn n f = sum_to n f.
Proof.
  induction n as [|n IH]; intros f; [reflexivity|]. cbn [FmpsSpec.sumn]. rewrite IH. unfold MpoTenSpec.sum_to. rewrite seq_S, fold_right_app. cbn [fold_right Nat.add].
  rewrite (fold_acc f (seq 0 n) (f n +r r0)). ring.
Qed.
Lemma sumn_ext : forall n f g, (forall k, k < n -> f k = g k) -> sumn n f = sumn n g.
Proof. induction n as [|n IH]; intros f g E; cbn; [reflexivity|]. rewrite (IH f g) by (intros; apply E; lia). rewrite E by lia. reflexivity. Qed.

(** *** tensors *)
Definition gs (phys : list nat) (ts : list (mten R Q)) : list (gten R) := map (fun p => ten_g (fst p) (snd p)) (combine phys ts).
Lemma sites_g : forall phys ts, length ts = length phys -> sites (length phys) (mpo_g phys ts) = gs phys ts.
Proof.
  intros phys ts HL. unfold sites, gs.
  assert (G : forall k phys0 ts0, (forall j, nth_error phys0 (k + j) = nth_error phys j) -> (forall j, nth_error ts0 (k + j) = nth_error ts j) ->
    map (mpo_g phys0 ts0) (seq k (length phys)) = map (fun p => ten_g (fst p) (snd p)) (combine phys ts)).
  { revert ts HL. induction phys as [|ix phys IH]; intros [|t ts] HL k phys0 ts0 A B; try discriminate; [reflexivity|].
    cbn [length seq map combine]. f_equal.
    - unfold MpoUse.mpo_g. specialize (A 0). specialize (B 0). rewrite Nat.add_0_r in A, B. rewrite A, B. reflexivity.
    - apply IH; [cbn in HL; lia| |]; intros j; [specialize (A (S j)); cbn in A; rewrite <- A|specialize (B (S j)); cbn in B; rewrite <- B]; f_equal; lia. }
  apply (G 0); auto.
Qed.
Lemma amp_g : forall ts phys c c' k s s' x, length ts = length phys -> length c = length ts -> length c' = length ts ->
  (forall j, s (k + j) = nth j c 0) -> (forall j, s' (k + j) = nth j c' 0) ->
  mpo_mat (map (site_of R) (gs phys ts)) c c' x 0 = mpo_from R r0 r1 radd rmul reqb Q k ts s s' x.
Proof.
  induction ts as [|t ts IH]; intros phys c c' k s s' x H1 H2 H3 A B; destruct phys as [|ix phys], c as [|a c], c' as [|b c']; try discriminate; [reflexivity|].
  unfold gs. cbn [combine map EffHamSpec.mpo_mat mpo_from]. rewrite <- sumn_sum_to. cbn [site_of mcols gd MpoUse.ten_g fst snd nth]. apply sumn_ext. intros y _.
  pose proof (A 0) as A0. pose proof (B 0) as B0. rewrite Nat.add_0_r in A0, B0. cbn in A0, B0. rewrite A0, B0. f_equal.
  apply (IH phys c c' (S k) s s' y); cbn in H1, H2, H3; try lia; intros j; [specialize (A (S j)); cbn [nth] in A; rewrite <- A|specialize (B (S j)); cbn [nth] in B; rewrite <- B]; f_equal; lia.
Qed.
Variables (q0 : Q) (qsub : Q -> Q -> Q) (blk : nat -> nat -> nat -> Q -> Prop).
Lemma fit_g : forall ts phys v, length ts = length phys -> bonds R Q q0 v ts -> wfit R (bdim Q v) (map (site_of R) (gs phys ts)) 1.
Proof.
  induction ts as [|t ts IH]; intros phys v HL HB; destruct phys as [|ix phys]; try discriminate; cbn in HB |- *; [rewrite HB; reflexivity|].
  destruct HB as [<- HB]. split; [reflexivity|]. apply IH; auto.
Qed.

(** *** matrices of operators *)
Lemma sites_mat : forall ws, sites (length ws) (mat_g ws) = map mat_w ws.
Proof.
  intros ws. unfold sites.
  assert (G : forall k ws0, (forall j, nth_error ws0 (k + j) = nth_error ws j) -> map (mat_g ws0) (seq k (length ws)) = map mat_w ws).
  { induction ws as [|t ws IH]; intros k ws0 A; [reflexivity|]. cbn [length seq map]. f_equal.
    - unfold MpoUse.mat_g. specialize (A 0). rewrite Nat.add_0_r in A. rewrite A. reflexivity.
    - apply IH. intros j. specialize (A (S j)). cbn in A. rewrite <- A. f_equal. lia. }
  apply (G 0). auto.
Qed.
Lemma ent_elem : forall w x y a b, NoDup (map fst w) -> match mat_ent R r0 w x y with Some o => o a b | None => r0 end = ten_elem R r0 reqb w x a b y.
Proof.
  intros w x y a b ND. unfold mat_ent. destruct (find (fun e => (fst (fst e) =? x) && (snd (fst e) =? y)) w) as [[[x' y'] o]|] eqn:E; cbn [option_map snd].
  - apply find_some in E. destruct E as [E1 E2]. cbn in E2. apply andb_true_iff in E2. destruct E2 as [E2 E3]. apply Nat.eqb_eq in E2, E3. subst x' y'.
    symmetry. apply (ten_elem_in R r0 reqb reqb_spec); auto.
  - symmetry. apply (ten_elem_not R r0 reqb pd). intros HI. apply in_map_iff in HI. destruct HI as [e [E1 E2]]. apply (find_none _ _ E) in E2. rewrite E1 in E2. cbn in E2. rewrite !Nat.eqb_refl in E2. discriminate.
Qed.
Lemma ent_some : forall w x y, In (x, y) (map fst w) -> mat_ent R r0 w x y <> None.
Proof.
  intros w x y HI HN. unfold mat_ent in HN. destruct (find (fun e => (fst (fst e) =? x) && (snd (fst e) =? y)) w) eqn:E; [discriminate|].
  apply in_map_iff in HI. destruct HI as [e [E1 E2]]. apply (find_none _ _ E) in E2. rewrite E1 in E2. cbn in E2. rewrite !Nat.eqb_refl in E2. discriminate.
Qed.
Lemma amp_mat : forall ws c c' k s s' x, Forall (fun w => NoDup (map fst (snd w))) ws -> length c = length ws -> length c' = length ws ->
  (forall j, s (k + j) = nth j c 0) -> (forall j, s' (k + j) = nth j c' 0) ->
  mpo_mat (map mat_w ws) c c' x 0 = matmpo_from R r0 r1 radd rmul reqb k ws s s' x.
Proof.
  induction ws as [|w ws IH]; intros c c' k s s' x ND H2 H3 A B; destruct c as [|a c], c' as [|b c']; try discriminate; [reflexivity|].
  inversion ND as [|? ? N1 N2]; subst. cbn [map EffHamSpec.mpo_mat matmpo_from]. rewrite <- sumn_sum_to. cbn [mcols MpoUse.mat_w]. apply sumn_ext. intros y _.
  pose proof (A 0) as A0. pose proof (B 0) as B0. rewrite Nat.add_0_r in A0, B0. cbn in A0, B0. rewrite A0, B0. unfold mval. cbn [ent MpoUse.mat_w]. rewrite ent_elem by auto. f_equal.
  apply (IH c c' (S k) s s' y); cbn in H2, H3; auto; try lia; intros j; [specialize (A (S j)); cbn [nth] in A; rewrite <- A|specialize (B (S j)); cbn [nth] in B; rewrite <- B]; f_equal; lia.
Qed.
End Use.

(** *** what GenMatReprMPO returns *)
Section State.
Variables (R : Type) (r0 r1 : R) (radd rmul rsub : R -> R -> R) (ropp : R -> R).
Variable Rth : ring_theory r0 r1 radd rmul rsub ropp (@eq R).
Variables (reqb : R -> R -> bool) (isneg small : R -> bool).
Hypothesis reqb_spec : forall x y, reqb x y = true <-> x = y.
Variables (Q : Type) (q0 : Q) (qsub : Q -> Q -> Q) (qeqb : Q -> Q -> bool) (dv : lop R -> Q).
Hypothesis qeqb_spec : forall a b, qeqb a b = true <-> a = b.
Hypothesis qsub_self : forall a, qsub a a = q0.
Hypothesis qsub_cancel : forall a b d, qsub a d = qsub b d -> a = b.
Hypothesis dv_neg : forall o, dv (lop_neg R ropp o) = dv o.
Variable (pd : nat -> nat).
Variable blk : nat -> nat -> nat -> Q -> Prop.
Notation mat_w := (mat_w R r0).

Definition used (w : nat * nat * list (nat * nat * lop R)) : Prop := NoDup (map fst (snd w)) /\ cols_used R (mat_w w) /\ rows_used R (mat_w w) /\ 1 <= mcols (mat_w w).
Lemma entries_used : forall ch oh ix m w, MpoTenFacts.mok R pd ch oh ix m -> nnm m -> good m -> all_entries R r0 radd rmul ch oh m = Ok w -> used (rows m, cols m, w).
Proof.
  intros ch oh ix m w HM [NR NC] [_ [_ [_ G]]] E.
  destruct (all_entries_ok R r0 r1 radd rmul rsub ropp Rth pd ch oh ix m HM) as [w' [W1 W2]]. rewrite E in W1. injection W1 as <-.
  destruct (written_elem R r0 radd rmul reqb reqb_spec pd ch oh ix _ _ _ W2 (grid_nodup _ _)) as [ND _].
  assert (IN : forall x y, x < rows m -> y < cols m -> sm m x y <> [] -> In (x, y) (map fst w)).
  { intros x y Hx Hy HS. destruct W2 as [W2 _]. rewrite W2. apply filter_In. split; [apply grid_in; auto|]. cbn [fst snd]. apply negb_true_iff. apply op_isnull_false. auto. }
  split; [exact ND|]. split; [|split].
  - intros j Hj. cbn in Hj. destruct (NC j Hj) as [x [Hx HS]]. exists x. split; [exact Hx|]. apply ent_some. apply IN; auto.
  - intros i Hi. cbn in Hi. destruct (NR i Hi) as [y [Hy HS]]. exists y. split; [exact Hy|]. apply ent_some. apply IN; auto.
  - exact G.
Qed.

Variables (phys : list nat) (idops : list (lop R)).
Section Hist.
Variables (H : list (call R)) (g : gen R).
Hypothesis GI : ginv R r0 r1 ropp reqb isneg phys idops H g.
Hypothesis Hv : Forall (valid_call R phys) H.
Hypothesis Hne : H <> [].
Hypothesis Hid : good_ids R pd Q qsub dv phys idops.
Hypothesis Hsq : Forall (square_call R pd) H.
Hypothesis Hcons : Forall (conserves R Q q0 qsub dv idops) H.
Hypothesis Hbi : Forall (block_op R r0 Q dv blk) idops.
Hypothesis Hbc : Forall (fun t => Forall (fun p => block_op R r0 Q dv blk (fst p)) (snd t)) H.
Lemma mat_used : forall dbg ws, gen_mat_mpo R r0 radd rmul dbg g = Ok ws -> Forall used ws /\ wfit R 1 (map mat_w ws) 1.
Proof.
  intros dbg ws0 E0. destruct (mats R r0 r1 radd rmul rsub ropp Rth reqb isneg Q q0 qsub dv qsub_cancel dv_neg pd blk phys idops H g GI Hv Hne Hid Hsq Hcons Hbi Hbc dbg)
    as [ms [ms' [E1 [E2 [M1 [M2 _]]]]]].
  unfold gen_mat_mpo in E0. rewrite E2 in E0. cbn [bind] in E0. rewrite (gi_n _ _ _ _ _ _ _ _ _ _ GI), <- (mc_len _ _ _ _ _ _ _ _ _ _ ms' M2) in E0.
  destruct (for_loop_inv _ (fun i ws => Forall2 (fun m w => fst (fst w) = rows m /\ snd (fst w) = cols m /\ used w) (firstn i ms') ws)
    (fun i acc => let! m := vget ms' i in let! w := all_entries R r0 radd rmul (g_ch g) (g_oh g) m in Ok (acc ++ [(rows m, cols m, w)])) (length ms') 0 []) as [ws [W1 W2]].
  - constructor.
  - intros i ws Hi HF. destruct (vget_ok _ _ _ (proj2 Hi)) as [m [V1 V2]]. rewrite V1. cbn [bind].
    destruct (mchain_sites _ _ _ _ _ _ _ _ _ _ ms' M2 i m V2) as [ix [X1 X2]].
    destruct (all_entries_ok R r0 r1 radd rmul rsub ropp Rth pd (g_ch g) (g_oh g) ix m X2) as [w [Y1 Y2]]. rewrite Y1. cbn [bind].
    eexists. split; [reflexivity|].
    replace (firstn (S i) ms') with (firstn i ms' ++ [m]).
    + apply Forall2_app; auto. constructor; [|constructor]. split; [reflexivity|]. split; [reflexivity|].
      apply (entries_used (g_ch g) (g_oh g) ix m w X2); auto.
      * pose proof (mc_nn _ _ _ _ _ _ _ _ _ _ ms' M2) as F. rewrite Forall_forall in F. apply F. eapply nth_error_In; eauto.
      * pose proof (mc_good _ _ _ _ _ _ _ _ _ _ ms' M2) as F. rewrite Forall_forall in F. apply F. eapply nth_error_In; eauto.
    + clear - V2. revert i V2. induction ms' as [|a l IH]; intros [|i] V; simpl in *; try discriminate; [congruence|]. f_equal. auto.
  - simpl in W2. rewrite firstn_all in W2. rewrite W1 in E0. injection E0 as <-.
    pose proof (mc_chain _ _ _ _ _ _ _ _ _ _ ms' M2) as C. clear - W2 C. revert C. generalize 1 at 1 3. induction W2 as [|m w ms ws [A [B U]] W IH]; intros a C; cbn in C |- *.
    + split; [constructor|exact C].
    + destruct C as [C1 C2]. rewrite B in *. destruct (IH _ C2) as [I1 I2]. split; [constructor; auto|]. split; [congruence|exact I2].
Qed.
End Hist.
Hypothesis Hid : good_ids R pd Q qsub dv phys idops.
Hypothesis Hbi : Forall (block_op R r0 Q dv blk) idops.
Theorem run_gen_used : forall calls ops, legal R r0 reqb small phys idops pd Q q0 qsub dv blk calls ops -> existsb (acounted R r0 reqb small) calls = true ->
  forall dbg g dbg' ws, run R r0 r1 ropp reqb isneg small dbg phys idops calls = Ok g -> gen_mat_mpo R r0 radd rmul dbg' g = Ok ws -> Forall used ws /\ wfit R 1 (map mat_w ws) 1.
Proof.
  intros calls ops L EX dbg g dbg' ws ER EG.
  pose proof (run_state R r0 r1 ropp reqb isneg small reqb_spec Q q0 qsub dv pd blk phys idops Hid calls ops L dbg) as RS.
  destruct RS as [g1 [H [E1 [E2 E3]]]]. rewrite ER in E1. injection E1 as <-.
  pose proof (legal_pairs R r0 reqb small Q q0 qsub dv pd blk phys idops calls ops L) as [P1 [P2 [P3 P4]]].
  set (LL := counted_pairs R r0 reqb small calls ops) in *.
  assert (F : Forall2 (fun h x => rel R r0 ropp reqb isneg phys idops h x /\ physical R r0 phys pd Q q0 qsub dv blk (snd x)) H LL).
  { clear - E3 P3. induction E3; inversion P3; constructor; auto. }
  assert (HN : H <> []).
  { intro Z. subst H. destruct LL eqn:EL; [|inversion E3]. apply existsb_exists in EX. destruct EX as [a [A1 A2]].
    assert (In a (filter (acounted R r0 reqb small) calls)) by (apply filter_In; auto). rewrite <- P4 in H. destruct H. }
  assert (FA : forall (Pr : call R -> Prop), (forall h x, rel R r0 ropp reqb isneg phys idops h x -> physical R r0 phys pd Q q0 qsub dv blk (snd x) -> Pr h) -> Forall Pr H).
  { intros Pr HP. clear - F HP. induction F as [|h x H LL [F1 F2] F3 IH]; constructor; eauto. }
  pose proof (rel_facts R r0 r1 radd rmul rsub ropp Rth reqb isneg Q q0 qsub dv pd blk phys idops Hid) as RF.
  apply (mat_used H g E2 (FA _ (fun h x A B => proj1 (RF h x A B))) HN Hid (FA _ (fun h x A B => proj1 (proj2 (RF h x A B))))
    (FA _ (fun h x A B => proj1 (proj2 (proj2 (RF h x A B))))) Hbi (FA _ (fun h x A B => proj1 (proj2 (proj2 (proj2 (RF h x A B)))))) dbg' ws EG).
Qed.
End State.
