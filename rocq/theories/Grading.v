(** Quantum numbers on the virtual bonds: every entry of the generated matrices respects them, and the
    compression keeps this. *)
From Coq Require Import List Arith Lia Bool Relation_Operators.
From Verif Require Import Base SparMat SparMatFacts CoefOp CoefOpAlg CoefOpFacts Compress Fsm Chain Progress ChainProgress
  FsmFacts FsmMat FsmSem.
Import ListNotations.

Definition keys (o : oprepr) : list nat := map fst o.

Lemma map_add_keys : forall k c m l, In l (keys (map_add k c m)) <-> l = k \/ In l (keys m).
Proof.
  induction m as [|[k' c'] t IH]; intros l; simpl; [intuition|].
  destruct (Nat.ltb_spec k k'); [simpl; intuition|]. destruct (Nat.eqb_spec k k'); simpl; [subst; intuition|].
  rewrite IH. intuition.
Qed.
Lemma op_add_keys : forall b a l, In l (keys (op_add a b)) <-> In l (keys a) \/ In l (keys b).
Proof.
  unfold op_add. induction b as [|kc b IH]; intros a l; simpl; [intuition|]. rewrite IH, map_add_keys. intuition.
Qed.
Lemma set_coefs_keys : forall c o, keys (set_coefs c o) = keys o.
Proof. intros. unfold keys, set_coefs. rewrite map_map. reflexivity. Qed.
Lemma separate_keys : forall o, keys (snd (separate o)) = keys o.
Proof.
  intros [|[k c] [|b t]]; auto. unfold separate. destruct (forallb _ _); [apply set_coefs_keys|reflexivity].
Qed.
Lemma sepd_keys : forall c o, keys (sepd c o) = keys o.
Proof. intros. unfold sepd. destruct (nontriv c); auto. apply separate_keys. Qed.
Lemma op_eq_keys : forall a b, op_eq a b = true -> keys a = keys b.
Proof.
  induction a as [|[k c] a IH]; intros [|[k' c'] b] H; simpl in *; try discriminate; auto.
  apply andb_true_iff in H. destruct H as [H H2]. apply andb_true_iff in H. destruct H as [H1 _].
  apply Nat.eqb_eq in H1. f_equal; auto.
Qed.
Lemma pm_keys : forall c o l, In l (keys (pm c o)) -> c <> [] /\ In l (keys o).
Proof.
  intros c o l H. unfold pm in H. destruct (coef_isnull c) eqn:E; [simpl in H; tauto|].
  split; [intro Q; subst c; discriminate|]. destruct (coef_eq c kId); auto. rewrite set_coefs_keys in H. auto.
Qed.
Lemma psum_keys : forall n f l, In l (keys (psum n f)) -> exists o, o < n /\ In l (keys (f o)).
Proof.
  induction n; intros f l H; [simpl in H; tauto|]. rewrite psum_S in H. apply op_add_keys in H. destruct H as [H|H].
  - destruct (IHn f l H) as [o [H1 H2]]. exists o. split; auto.
  - exists n. auto.
Qed.
Lemma keys_nil : forall o, o <> [] -> exists l, In l (keys o).
Proof. intros [|[k c] t] H; [congruence|]. exists k. left. auto. Qed.

Lemma Fnew_keys : forall n F p cy tr j z l, In l (keys (Fnew n F p cy tr j z)) ->
  exists o, o < n /\ tr j o <> [] /\ In l (keys (F (pget p o) z)).
Proof.
  intros n F p cy tr j z l H. unfold Fnew in H. apply psum_keys in H. destruct H as [o [H1 H2]].
  apply pm_keys in H2. destruct H2 as [H2 H3]. unfold F2 in H3. apply pm_keys in H3. exists o. tauto.
Qed.

(** a line that takes part in the decomposition of another shares a label with it at the same place *)
Lemma tr_shared : forall R n T k T' p cy tr kept, ccomp R n T k T' p cy tr kept ->
  forall j o, j < k -> o < n -> tr j o <> [] -> (exists x, x < R /\ T' x j <> []) ->
  exists x l, x < R /\ In l (keys (T x (pget p o))) /\ In l (keys (T x (pget p (kept j)))).
Proof.
  intros R n T k T' p cy tr kept C j o Hj Ho Ht [x [Hx Hn]].
  destruct (cc_ov _ _ _ _ _ _ _ _ _ C o j Ho Hj Ht) as [_ O].
  destruct (keys_nil _ Hn) as [l Hl]. exists x, l. split; auto.
  assert (E : keys (T x (pget p o)) = keys (T' x j)).
  { destruct (O x Hx Hn) as [[O1 _]|[O1 _]]; apply op_eq_keys in O1.
    - rewrite sepd_keys in O1. auto.
    - rewrite separate_keys, sepd_keys in O1. auto. }
  split; [rewrite E; auto|]. rewrite (cc_T' _ _ _ _ _ _ _ _ _ C) in Hl by auto. rewrite sepd_keys in Hl. auto.
Qed.

Section Grade.
Variables (Q : Type) (q0 : Q) (qsub : Q -> Q -> Q) (dvl : nat -> Q).
Hypothesis qsub_cancel : forall a b d, qsub a d = qsub b d -> a = b.

(** every operator in entry (x, y) has divergence [qa x - qb y] *)
Definition gmat (qa qb : nat -> Q) (m : opmat) : Prop :=
  forall x y l, x < rows m -> y < cols m -> In l (keys (sm m x y)) -> qb y = qsub (qa x) (dvl l).
Fixpoint graded (qa : nat -> Q) (ms : list opmat) (qz : nat -> Q) : Prop :=
  match ms with
  | [] => forall x, qa x = qz x
  | m :: t => exists qb, gmat qa qb m /\ graded qb t qz
  end.

Lemma gmat_ext : forall qa qa' qb m, (forall x, qa x = qa' x) -> gmat qa qb m -> gmat qa' qb m.
Proof. intros qa qa' qb m E G x y l Hx Hy Hl. rewrite <- E. eapply G; eauto. Qed.
Lemma graded_ext : forall ms qa qa' qz, (forall x, qa x = qa' x) -> graded qa ms qz -> graded qa' ms qz.
Proof.
  intros [|m ms] qa qa' qz E G; simpl in *.
  - intros x. rewrite <- E. auto.
  - destruct G as [qb [G1 G2]]. exists qb. split; auto. eapply gmat_ext; eauto.
Qed.
Lemma graded_app : forall l l' qa qz, graded qa (l ++ l') qz <-> exists qb, graded qa l qb /\ graded qb l' qz.
Proof.
  induction l as [|m l IH]; intros l' qa qz; simpl.
  - split; [intros H; exists qa; auto|]. intros [qb [H1 H2]]. eapply graded_ext; [|exact H2]. intros. symmetry. auto.
  - split.
    + intros [qb [H1 H2]]. apply IH in H2. destruct H2 as [qc [H2 H3]]. eauto.
    + intros [qc [[qb [H1 H2]] H3]]. exists qb. split; auto. apply IH. eauto.
Qed.

Lemma crel_graded : forall T F T' F', cols T = rows F -> crel T F T' F' -> nnm T' ->
  forall qa qb qc, gmat qa qb T -> gmat qb qc F -> exists qb', gmat qa qb' T' /\ gmat qb' qc F'.
Proof.
  intros T F T' F' Hd [[H1 [-> ->]]|[p [cy [tr [kept [C [O1 [O2 [H1 [H2 [H3 H4]]]]]]]]]]] [TR TC] qa qb qc G1 G2; [exists qb; auto|].
  exists (fun j => qb (pget p (kept j))).
  assert (HP : forall o, o < cols T -> pget p o < cols T) by (intros o Ho; eapply p_lt; eauto).
  split.
  - intros x y l Hx Hy Hl. rewrite H1 in Hx. rewrite (cc_T' _ _ _ _ _ _ _ _ _ C) in Hl by auto. rewrite sepd_keys in Hl.
    eapply G1; eauto. apply HP. apply (cc_k1 _ _ _ _ _ _ _ _ _ C). auto.
  - intros j z l Hj Hz Hl. rewrite H2 in Hj. rewrite H3 in Hz. rewrite H4 in Hl by auto.
    destruct (Fnew_keys _ _ _ _ _ _ _ _ Hl) as [o [Ho [Ht Hl']]].
    rewrite (G2 (pget p o) z l); auto; [|rewrite <- Hd; auto]. f_equal.
    destruct (TC j Hj) as [x [Hx Hn]]. rewrite H1 in Hx.
    destruct (tr_shared _ _ _ _ _ _ _ _ _ C j o Hj Ho Ht) as [x' [l' [Hx' [L1 L2]]]]; [eauto|].
    rewrite (G1 x' (pget p o) l'), (G1 x' (pget p (kept j)) l'); auto.
    apply HP. apply (cc_k1 _ _ _ _ _ _ _ _ _ C). auto.
Qed.
Lemma rrel_graded : forall T F T' F', rows T = cols F -> rrel T F T' F' -> nnm T' ->
  forall qa qb qc, gmat qa qb F -> gmat qb qc T -> exists qb', gmat qa qb' F' /\ gmat qb' qc T'.
Proof.
  intros T F T' F' Hd [[H1 [-> ->]]|[p [cy [tr [kept [C [O1 [O2 [H1 [H2 [H3 H4]]]]]]]]]]] [TR TC] qa qb qc G1 G2; [exists qb; auto|].
  exists (fun j => qb (pget p (kept j))).
  assert (HP : forall o, o < rows T -> pget p o < rows T) by (intros o Ho; eapply p_lt; eauto).
  split.
  - intros z j l Hz Hj Hl. rewrite H2 in Hj. rewrite H3 in Hz. rewrite H4 in Hl by auto.
    destruct (Fnew_keys _ _ _ _ _ _ _ _ Hl) as [o [Ho [Ht Hl']]].
    rewrite <- (G1 z (pget p o) l); auto; [|rewrite <- Hd; auto].
    destruct (TR j Hj) as [x [Hx Hn]]. rewrite H1 in Hx.
    destruct (tr_shared _ _ _ _ _ _ _ _ _ C j o Hj Ho Ht) as [x' [l' [Hx' [L1 L2]]]]; [exists x; auto|].
    apply (qsub_cancel _ _ (dvl l')). rewrite <- (G2 (pget p o) x' l'), <- (G2 (pget p (kept j)) x' l'); auto.
    apply HP. apply (cc_k1 _ _ _ _ _ _ _ _ _ C). auto.
  - intros y x l Hy Hx Hl. rewrite H1 in Hx.
    assert (E : sm T' y x = sepd (cy (kept y)) (sm T (pget p (kept y)) x)) by (apply (cc_T' _ _ _ _ _ _ _ _ _ C x y); auto).
    rewrite E in Hl. rewrite sepd_keys in Hl. eapply G2; eauto. apply HP. apply (cc_k1 _ _ _ _ _ _ _ _ _ C). auto.
Qed.

Lemma csteps_graded : forall ms ms', csteps ms ms' -> Forall nnm ms -> forall qa qz, graded qa ms qz -> graded qa ms' qz.
Proof.
  intros ms ms' H. induction H; intros NN qa qz G; auto.
  - pose proof (csteps_inv _ _ (rt_step _ _ _ _ H)) as [_ [_ [N _]]]. specialize (N NN). destruct H.
    + apply Forall_app in NN. destruct NN as [_ NN]. inversion NN as [|? ? N1 NN']; subst. inversion NN' as [|? ? N2 _]; subst.
      apply graded_app in G. destruct G as [qb [G1 [qc [G2 [qd [G3 G4]]]]]].
      apply Forall_app in N. destruct N as [_ N]. inversion N; subst.
      destruct (crel_graded T F T' F' H H0 ltac:(auto) _ _ _ G2 G3) as [qc' [K1 K2]].
      apply graded_app. exists qb. split; auto. exists qc'. split; auto. exists qd. auto.
    + apply Forall_app in NN. destruct NN as [_ NN]. inversion NN as [|? ? N1 NN']; subst. inversion NN' as [|? ? N2 _]; subst.
      apply graded_app in G. destruct G as [qb [G1 [qc [G2 [qd [G3 G4]]]]]].
      apply Forall_app in N. destruct N as [_ N]. inversion N as [|? ? ? N3]; subst. inversion N3; subst.
      destruct (rrel_graded T F T' F' H H0 ltac:(auto) _ _ _ G2 G3) as [qc' [K1 K2]].
      apply graded_app. exists qb. split; auto. exists qc'. split; auto. exists qd. auto.
  - apply IHclos_refl_trans2; auto. apply csteps_inv in H. apply H. auto.
Qed.

(** *** grading of the uncompressed matrices *)
Section FsmGrade.
Variables (n : nat) (ids : list oprepr) (ts : list term).
Hypothesis HI : length ids = n.
Hypothesis HIs : forall i, i < n -> shid (nth i ids []).
Hypothesis HTs : Forall (fun t => wfterm n t /\ shterm t) ts.
Hypothesis HNE : ts <> [].
Hypothesis qsub_id : forall i l q, i < n -> In l (keys (nth i ids [])) -> qsub q (dvl l) = q.

Notation L := (length ts).
Definition lab (o : oprepr) : nat := match o with [] => 0 | kc :: _ => fst kc end.
(** quantum number of term [j] left of site [b] *)
Fixpoint tq (j b : nat) : Q := match b with O => q0 | S b' => qsub (tq j b') (dvl (lab (op ids ts j b'))) end.
(** every term conserves the quantum number *)
Hypothesis cons : forall j, j < L -> tq j n = q0.

Lemma op_lab : forall j i l, j < L -> i < n -> In l (keys (op ids ts j i)) -> l = lab (op ids ts j i).
Proof.
  intros j i l Hj Hi H. destruct (op_shape n ids ts HI HIs HTs j i Hj Hi) as [l' [c [E _]]]. rewrite E in *.
  simpl in *. intuition.
Qed.
Lemma tq_ready : forall j b, j < L -> b <= n -> nd ts j b = Ready -> tq j b = q0.
Proof.
  intros j b Hj. induction b; intros Hb H; [reflexivity|]. simpl.
  assert (R : nd ts j b = Ready) by (apply (ready_back n ids ts HI); auto).
  rewrite IHb by (auto; lia). rewrite (ready_op n ids ts HI j b) by (auto; lia).
  apply (qsub_id b); [lia|]. destruct (HIs b ltac:(lia)) as [l ->]. left. auto.
Qed.
Lemma tq_final : forall j b, j < L -> b <= n -> nd ts j b = Final -> tq j b = q0.
Proof.
  intros j b Hj Hb H. rewrite <- (cons j Hj). assert (G : forall k, b + k <= n -> nd ts j (b + k) = Final /\ tq j (b + k) = tq j b).
  { induction k; intros Hk; [rewrite Nat.add_0_r; auto|]. destruct IHk as [I1 I2]; [lia|].
    replace (b + S k) with (S (b + k)) by lia. split; [apply (final_fwd n); auto|]. simpl.
    rewrite (final_op n ids ts HI HTs j (b + k)) by (auto; lia). rewrite <- I2.
    apply (qsub_id (b + k)); [lia|]. destruct (HIs (b + k) ltac:(lia)) as [l ->]. left. auto. }
  destruct (G (n - b) ltac:(lia)) as [_ E]. replace (b + (n - b)) with n in E by lia. auto.
Qed.
(** quantum number of matrix index [x] at bond [b] *)
Definition bq (b x : nat) : Q :=
  match find (fun j => sidx ts b (nd ts j b) =? x) (seq 0 L) with Some j => tq j b | None => q0 end.
Lemma bq_nd : forall j b, j < L -> b <= n -> bq b (sidx ts b (nd ts j b)) = tq j b.
Proof.
  intros j b Hj Hb. unfold bq. destruct (find _ _) as [j'|] eqn:E.
  - apply find_some in E. destruct E as [E1 E2]. apply in_seq in E1. apply Nat.eqb_eq in E2.
    apply (sidx_inj ts b) in E2; try (apply (nd_vst' n); auto; lia).
    destruct (nd ts j b) as [| |k] eqn:En.
    + rewrite !tq_ready; auto; lia.
    + rewrite !tq_final; auto; lia.
    + assert (j' = j) by (eapply mid_unique; eauto; lia). subst. reflexivity.
  - pose proof (find_none _ _ E j ltac:(apply in_seq; lia)) as X. cbv beta in X. rewrite Nat.eqb_refl in X. discriminate.
Qed.

Lemma ent_keys : forall m i r c l, m <= L -> In l (keys (ent ids ts m i r c)) ->
  exists j, j < m /\ sidx ts i (nd ts j i) = r /\ sidx ts (S i) (nd ts j (S i)) = c /\ In l (keys (op ids ts j i)).
Proof.
  induction m; intros i r c l Hm H; [simpl in H; tauto|]. rewrite ent_S in H. unfold estep in H.
  destruct ((r =? sidx ts i (nd ts m i)) && (c =? sidx ts (S i) (nd ts m (S i)))) eqn:E.
  - apply andb_true_iff in E. destruct E as [E1 E2]. apply Nat.eqb_eq in E1. apply Nat.eqb_eq in E2.
    unfold castf in H. assert (G : In l (keys (ent ids ts m i r c)) \/ In l (keys (op ids ts m i))).
    { destruct (op_isnull _); auto. destruct (negb _); auto. apply op_add_keys in H. auto. }
    destruct G as [G|G].
    + destruct (IHm i r c l ltac:(lia) G) as [j [H1 H2]]. exists j. split; auto.
    + exists m. split; [lia|]. auto.
  - destruct (IHm i r c l ltac:(lia) H) as [j [H1 H2]]. exists j. split; auto.
Qed.

Lemma gen_graded : forall ms, gen_mat_repr (fs n ids ts) = Ok ms -> graded (bq 0) ms (bq n) /\ bq 0 0 = q0 /\ bq n 0 = q0.
Proof.
  intros ms E. destruct (gen_facts n ids ts HI HIs HTs HNE) as [ms1 [E1 [E2 [_ [_ [_ F]]]]]]. rewrite E in E1. injection E1 as <-.
  assert (LP : 0 < L) by (destruct ts; [congruence|simpl; lia]).
  split.
  - assert (G : forall l b, b + length l = n -> (forall i, nth_error l i = nth_error ms (b + i)) -> graded (bq b) l (bq n)).
    { induction l as [|m l IH]; intros b Hb HN.
      - simpl in *. rewrite Nat.add_0_r in Hb. subst b. auto.
      - simpl in Hb. exists (bq (S b)). split.
        + assert (HN0 := HN 0). simpl in HN0. rewrite Nat.add_0_r in HN0. symmetry in HN0.
          destruct (F b m HN0) as [_ [D1 [D2 D3]]]. intros x y k Hx Hy Hk. rewrite D1 in Hx. rewrite D2 in Hy.
          rewrite D3 in Hk by auto. destruct (ent_keys L b x y k ltac:(lia) Hk) as [j [J1 [<- [<- J4]]]].
          rewrite !bq_nd by (auto; lia). simpl. rewrite (op_lab j b k) by (auto; lia). reflexivity.
        + apply IH; [lia|]. intros i. replace (S b + i) with (b + S i) by lia. apply (HN (S i)). }
    apply G; auto.
  - split.
    + assert (Q1 : nd ts 0 0 = Ready) by (apply nd_ready; lia).
      rewrite <- (tq_ready 0 0 LP ltac:(lia) Q1). rewrite <- bq_nd by (auto; lia). rewrite Q1. reflexivity.
    + assert (Q1 : nd ts 0 n = Final) by (eapply nd_n; eauto).
      rewrite <- (tq_final 0 n LP ltac:(lia) Q1). rewrite <- bq_nd by (auto; lia). rewrite Q1.
      f_equal. symmetry. apply (sidx_n n ts); auto.
Qed.
End FsmGrade.
End Grade.
