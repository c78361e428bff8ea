(** The chain of tensors produced by Gen: bonds, blocks and value. *)
From Coq Require Import List Arith Lia Bool Permutation Ring.
From Verif Require Import Base SparMat SparMatFacts CoefOp CoefOpAlg CoefOpFacts Compress Fsm Numeric Chain ChainProgress
  Grading Labels MpoGen MpoGenFacts MpoTen MpoSpec MpoTenSpec MpoTenFacts MpoSort.
Import ListNotations.

Section Chain.
Variables (R : Type) (r0 r1 : R) (radd rmul rsub : R -> R -> R) (ropp : R -> R).
Variable Rth : ring_theory r0 r1 radd rmul rsub ropp (@eq R).
Add Ring Rring4 : Rth.
Variable reqb : R -> R -> bool.
Hypothesis reqb_spec : forall x y, reqb x y = true <-> x = y.
Variables (Q : Type) (q0 : Q) (qsub : Q -> Q -> Q) (qeqb : Q -> Q -> bool) (dv : lop R -> Q).
Hypothesis qeqb_spec : forall a b, qeqb a b = true <-> a = b.
Hypothesis qsub_self : forall a, qsub a a = q0.
Variables (pd : nat -> nat) (ch : list R) (oh : list (lop R)) (sites : list nat).
Notation lop := (lop R).
Notation elem := (elem r0).
Notation oval := (oval R r0 radd rmul).
Notation ten_elem := (ten_elem R r0 reqb).
Notation mten := (mten R Q).
Notation sectors := (sectors Q).
Notation bdim := (bdim Q).
Notation bond_sorted := (bond_sorted Q).
Notation cvl := (cvl R r0 ch).
Notation evl := (evl R r0 oh).
Notation dvl := (dvl R Q dv oh (mkLop 0 [])).
Notation gmat := (gmat Q qsub dvl).
Notation graded := (graded Q qsub dvl).
Notation mok := (mok R pd ch oh).
Notation written := (written R r0 radd rmul ch oh).

Record tfit (ix : nat) (qa : nat -> Q) (pl : list nat) (qb : nat -> Q) (pr : list nat) (m : opmat) (t : mten) : Prop := mkTF {
  tf_pl : is_perm (rows m) pl;
  tf_pr : is_perm (cols m) pr;
  tf_l : sectors (mt_l t) = map qa pl;
  tf_r : sectors (mt_r t) = map qb pr;
  tf_sl : bond_sorted (mt_l t);
  tf_sr : bond_sorted (mt_r t);
  tf_nd : NoDup (map fst (mt_w t));
  tf_in : forall e, In e (mt_w t) -> fst (fst e) < rows m /\ snd (fst e) < cols m /\ lo_ix (snd e) = ix;
  tf_el : forall x a b y, x < rows m -> y < cols m -> ten_elem (mt_w t) x a b y = oval cvl (evl a b) (sm m (pget pl x) (pget pr y))
}.
Fixpoint tchain (k : nat) (qa : nat -> Q) (pl : list nat) (v : list (Q * nat)) (ms : list opmat) (ts : list mten) : Prop :=
  match ms, ts with
  | [], [] => v = [(q0, 1)] /\ pl = [0]
  | m :: ms', t :: ts' => exists ix qb pr, nth_error sites k = Some ix /\ kin (okl R pd oh ix) m /\ gmat qa qb m /\ mt_l t = v /\ tfit ix qa pl qb pr m t /\
                          tchain (S k) qb pr (mt_r t) ms' ts'
  | _, _ => False
  end.

Lemma perm1 : forall p, is_perm 1 p -> p = [0].
Proof.
  intros p [H1 [H2 H3]]. destruct p as [|a [|b t]]; simpl in *; try discriminate.
  f_equal. specialize (H3 a (or_introl eq_refl)). lia.
Qed.
Lemma is_perm_id1 : is_perm 1 [0].
Proof. split; auto. split; [repeat constructor; simpl; tauto|]. intros x [<-|[]]. lia. Qed.
Lemma one_sector : forall v q, sectors v = [q] -> bond_sorted v -> v = [(q, 1)].
Proof.
  intros v q H [_ P]. destruct v as [|[q1 d1] v]; [discriminate|]. inversion P; subst. simpl in H2.
  destruct d1 as [|d1]; [lia|]. simpl in H. injection H as -> H. destruct d1; [|discriminate]. simpl in H.
  destruct v as [|[q2 d2] v]; auto. inversion H3; subst. simpl in H4. destruct d2; [lia|discriminate].
Qed.

(** tensors from sorted matrices *)
Lemma mok_like : forall ix m m' (f g : nat -> nat), mok ix m -> wfo m' -> rows m' = rows m -> cols m' = cols m ->
  (forall x, x < rows m -> f x < rows m) -> (forall y, y < cols m -> g y < cols m) ->
  (forall x y, x < rows m -> y < cols m -> sm m' x y = sm m (f x) (g y)) -> mok ix m'.
Proof.
  intros ix m m' f g [M1 [M2 M3]] W E1 E2 Hf Hg E. split; auto. split.
  - intros x y Hx Hy. rewrite E1 in Hx. rewrite E2 in Hy. rewrite E by auto. apply M2; auto.
  - intros x y l Hx Hy Hl. rewrite E1 in Hx. rewrite E2 in Hy. rewrite E in Hl by auto. eapply M3; [| |exact Hl]; auto.
Qed.
Lemma pget_lt : forall n p i, is_perm n p -> i < n -> pget p i < n.
Proof. intros n p i H Hi. destruct (is_perm_nth n p i H Hi) as [t [H1 H2]]. rewrite (pget_nth p i t H1). auto. Qed.

Lemma fit_of : forall ix qa pl qb pr m m' t ps, is_perm (rows m) pl -> is_perm (cols m) pr ->
  rows m' = rows m -> cols m' = cols m ->
  (forall x y, x < rows m -> y < cols m -> sm m' x y = sm m (pget pl x) (pget pr y)) ->
  sectors (mt_l t) = map qa pl -> sectors (mt_r t) = map qb pr -> bond_sorted (mt_l t) -> bond_sorted (mt_r t) ->
  written ix (sm m') ps (mt_w t) -> NoDup ps -> (forall x y, In (x, y) ps <-> x < rows m /\ y < cols m) ->
  tfit ix qa pl qb pr m t.
Proof.
  intros ix qa pl qb pr m m' t ps P1 P2 E1 E2 E S1 S2 B1 B2 W ND HP.
  destruct (written_elem R r0 radd rmul reqb reqb_spec pd ch oh ix _ _ _ W ND) as [W1 [W2 W3]].
  constructor; auto.
  - intros [[x y] o] He. destruct (W2 _ He) as [W4 W5]. simpl in *. apply HP in W4. tauto.
  - intros x a b y Hx Hy. destruct (W3 x y a b) as [W4 _]. rewrite W4 by (apply HP; auto). rewrite E by auto. reflexivity.
Qed.

Notation step := (ten_step R r0 radd rmul Q qsub qeqb dv).
Notation sorted_of := (sort_ok R Q qsub qeqb dv qeqb_spec oh (mkLop 0 [])).

Lemma map_perm_nth : forall (qa : nat -> Q) p n x, is_perm n p -> x < n -> nth_error (map qa p) x = Some (qa (pget p x)).
Proof. intros qa p n x P Hx. destruct (is_perm_nth n p x P Hx) as [t [H1 _]]. rewrite nth_error_map, H1. simpl. rewrite (pget_nth _ _ _ H1). auto. Qed.

Lemma kin_lt : forall ix m, kin (okl R pd oh ix) m -> forall x y l, x < rows m -> y < cols m -> In l (keys (sm m x y)) -> l < length oh.
Proof. intros ix m H x y l Hx Hy Hl. destruct (H x y l Hx Hy Hl) as [o [H1 _]]. apply nth_error_Some. congruence. Qed.
Lemma nnm_perm : forall m m' pl, is_perm (rows m) pl -> rows m' = rows m -> cols m' = cols m ->
  (forall x y, x < rows m -> y < cols m -> sm m' x y = sm m (pget pl x) y) -> nnm m -> nnm m'.
Proof.
  intros m m' pl P E1 E2 E [N1 N2]. split.
  - intros x Hx. rewrite E1 in Hx. destruct (N1 (pget pl x) (pget_lt _ _ _ P Hx)) as [y [Hy N]]. exists y. rewrite E2. split; auto. rewrite E; auto.
  - intros y Hy. rewrite E2 in Hy. destruct (N2 y Hy) as [x [Hx N]].
    assert (I : In x pl). { destruct P as [P1 [P2 P3]]. apply (NoDup_length_incl P2 (l' := seq 0 (rows m))); [rewrite seq_length; lia| |apply in_seq; lia].
      intros z Hz. apply in_seq. specialize (P3 z Hz). lia. }
    destruct (In_nth _ _ 0 I) as [i [Hi1 Hi2]]. destruct P as [P1 P2]. rewrite P1 in Hi1.
    exists i. rewrite E1. split; auto. rewrite E by auto. unfold pget. rewrite Hi2. auto.
Qed.

Lemma vget_some : forall A (l : list A) i a, nth_error l i = Some a -> vget l i = Ok a.
Proof. intros A l i a H. unfold vget. rewrite H. reflexivity. Qed.
Definition site_ok (k : nat) (m : opmat) : Prop := exists ix, nth_error sites k = Some ix /\ mok ix m.

Lemma in_row : forall c x y, In (x, y) (map (fun y => (0, y)) (seq 0 c)) <-> x < 1 /\ y < c.
Proof.
  intros c x y. rewrite in_map_iff. split.
  - intros [y' [E H]]. injection E as <- <-. apply in_seq in H. lia.
  - intros [H1 H2]. exists y. split; [f_equal; lia|]. apply in_seq. lia.
Qed.
Lemma in_col : forall c x y, In (x, y) (map (fun x => (x, 0)) (seq 0 c)) <-> x < c /\ y < 1.
Proof.
  intros c x y. rewrite in_map_iff. split.
  - intros [y' [E H]]. injection E as <- <-. apply in_seq in H. lia.
  - intros [H1 H2]. exists x. split; [f_equal; lia|]. apply in_seq. lia.
Qed.
Lemma row_nodup : forall c, NoDup (map (fun y => (0, y)) (seq 0 c)).
Proof. intros. apply FinFun.Injective_map_NoDup; [intros a b E; injection E; auto|apply seq_NoDup]. Qed.
Lemma col_nodup : forall c, NoDup (map (fun x => (x, 0)) (seq 0 c)).
Proof. intros. apply FinFun.Injective_map_NoDup; [intros a b E; injection E; auto|apply seq_NoDup]. Qed.
Lemma v_first : forall v n, length (sectors v) = n -> 1 <= n -> exists s, vget v 0 = Ok s.
Proof. intros [|s v] n H1 H2; simpl in *; [lia|]. exists s. reflexivity. Qed.
Lemma trivial_sorted : bond_sorted [(q0, 1)].
Proof. split; repeat constructor; simpl; tauto. Qed.

Lemma head_step : forall dbg n ms m qa qb acc, nth_error ms 0 = Some m -> rows m = 1 -> 1 <= cols m -> site_ok 0 m -> nnm m ->
  gmat qa qb m -> qa 0 = q0 ->
  exists t p ix, step dbg n ch oh ms 0 ([(q0, 1)], [], acc) = Ok (mt_r t, p, acc ++ [t]) /\ mt_l t = [(q0, 1)] /\
    nth_error sites 0 = Some ix /\ mok ix m /\ tfit ix qa [0] qb p m t.
Proof.
  intros dbg n ms m qa qb acc Hm Hr Hc [ix [Hs M]] NN G Hq. unfold ten_step. rewrite (vget_some opmat _ _ _ Hm). cbn [bind Nat.eqb].
  destruct (sorted_of dbg m [(q0, 1)] qa qb) as [m' [v' [p [E [P [W' [R1 [C1 [S1 [V1 V2]]]]]]]]]]; auto.
  - apply M.
  - eapply kin_lt. apply M.
  - intros x Hx. rewrite Hr in Hx. replace x with 0 by lia. simpl. congruence.
  - rewrite E. cbn [bind]. unfold head_ten.
    destruct (v_first v' (cols m)) as [s Hv]; [rewrite V1, map_length; apply P|auto|]. rewrite Hv. cbn [bind].
    assert (M' : mok ix m').
    { apply (mok_like ix m m' (fun x => x) (pget p)); auto. intros. eapply pget_lt; eauto. }
    destruct (row_ok R r0 r1 radd rmul rsub ropp Rth pd ch oh ix m' 0 [] []) as [w [W1 W2]]; auto.
    { rewrite R1. lia. } { apply written_nil. }
    rewrite W1. cbn [bind]. rewrite qsub_self.
    exists (mkTen [(q0, 1)] v' w), p, ix. simpl mt_r. simpl mt_l. split; auto. split; auto. split; auto. split; auto.
    eapply (fit_of ix qa [0] qb p m m'); simpl; eauto.
    + rewrite Hr. apply is_perm_id1.
    + intros x y Hx Hy. rewrite S1 by auto. f_equal. rewrite Hr in Hx. destruct x; [reflexivity|lia].
    + rewrite Hq. reflexivity.
    + apply trivial_sorted.
    + simpl. rewrite C1. apply row_nodup.
    + intros x y. rewrite Hr, C1. simpl. apply in_row.
Qed.

Lemma trans_rows : forall dbg ix m pl, mok ix m -> is_perm (rows m) pl -> exists m1, transpose_rows dbg m pl = Ok m1 /\ mok ix m1 /\
  rows m1 = rows m /\ cols m1 = cols m /\ forall x y, x < rows m -> y < cols m -> sm m1 x y = sm m (pget pl x) y.
Proof.
  intros dbg ix m pl M P. destruct (transpose_rows_spec _ _ _ dbg m pl (proj1 M) P) as [m1 [T1 [T2 [T3 [T4 T5]]]]].
  assert (S : forall x y, x < rows m -> y < cols m -> sm m1 x y = sm m (pget pl x) y) by (intros; unfold sm; rewrite T5; auto).
  exists m1. split; auto. split; auto. apply (mok_like ix m m1 (pget pl) (fun y => y)); auto. intros. eapply pget_lt; eauto.
Qed.

Lemma mid_step : forall dbg n ms i m qa qb v pl acc, nth_error ms i = Some m -> i <> 0 -> i <> n - 1 -> site_ok i m -> nnm m ->
  gmat qa qb m -> is_perm (rows m) pl -> sectors v = map qa pl -> bond_sorted v ->
  exists t p ix, step dbg n ch oh ms i (v, pl, acc) = Ok (mt_r t, p, acc ++ [t]) /\ mt_l t = v /\
    nth_error sites i = Some ix /\ mok ix m /\ tfit ix qa pl qb p m t.
Proof.
  intros dbg n ms i m qa qb v pl acc Hm Hi Hi' [ix [Hs M]] NN G P V B. unfold ten_step. rewrite (vget_some opmat _ _ _ Hm). cbn [bind].
  rewrite (proj2 (Nat.eqb_neq _ _) Hi), (proj2 (Nat.eqb_neq _ _) Hi').
  destruct (trans_rows dbg ix m pl M P) as [m1 [T1 [M1 [R1 [C1 S1]]]]]. rewrite T1. cbn [bind].
  destruct (sorted_of dbg m1 v (fun x => qa (pget pl x)) qb) as [m' [v' [p [E [P' [W' [R2 [C2 [S2 [V1 V2]]]]]]]]]]; auto.
  - apply M1.
  - apply (nnm_perm m m1 pl); auto.
  - eapply kin_lt. apply M1.
  - intros x Hx. rewrite R1 in Hx. rewrite V. apply (map_perm_nth qa pl (rows m)); auto.
  - intros x y l Hx Hy Hl. rewrite R1 in Hx. rewrite C1 in Hy. rewrite S1 in Hl by auto. apply G; auto. eapply pget_lt; eauto.
  - rewrite E. cbn [bind]. unfold cent_ten.
    assert (M' : mok ix m').
    { apply (mok_like ix m1 m' (fun x => x) (pget p)); auto. intros. eapply pget_lt; eauto. }
    destruct (all_entries_ok R r0 r1 radd rmul rsub ropp Rth pd ch oh ix m' M') as [w [W1 W2]].
    rewrite W1. cbn [bind].
    exists (mkTen v v' w), p, ix. simpl mt_r. simpl mt_l. split; auto. split; auto. split; auto. split; auto.
    eapply (fit_of ix qa pl qb p m m'); simpl; eauto; try congruence.
    + intros x y Hx Hy. rewrite S2 by congruence. rewrite S1; auto. rewrite C1 in P'. eapply pget_lt; eauto.
    + apply grid_nodup.
    + intros x y. rewrite grid_in, R2, C2, R1, C1. tauto.
Qed.

Lemma tail_step : forall dbg n ms i m qa qb v pl acc, nth_error ms i = Some m -> i <> 0 -> i = n - 1 -> site_ok i m -> 
  is_perm (rows m) pl -> 1 <= rows m -> sectors v = map qa pl -> bond_sorted v -> cols m = 1 -> qb 0 = q0 ->
  exists t v' p ix, step dbg n ch oh ms i (v, pl, acc) = Ok (v', p, acc ++ [t]) /\ mt_l t = v /\ mt_r t = [(q0, 1)] /\
    nth_error sites i = Some ix /\ mok ix m /\ tfit ix qa pl qb [0] m t.
Proof.
  intros dbg n ms i m qa qb v pl acc Hm Hi Hi' [ix [Hs M]] P Hr V B C Hq. unfold ten_step. rewrite (vget_some opmat _ _ _ Hm). cbn [bind].
  rewrite (proj2 (Nat.eqb_neq _ _) Hi), (proj2 (Nat.eqb_eq _ _) Hi').
  destruct (trans_rows dbg ix m pl M P) as [m1 [T1 [M1 [R1 [C1 S1]]]]]. rewrite T1. cbn [bind]. unfold tail_ten.
  destruct (v_first v (rows m)) as [s Hv]; [rewrite V, map_length; apply P|auto|]. rewrite Hv. cbn [bind].
  destruct (col0_ok R r0 r1 radd rmul rsub ropp Rth pd ch oh ix m1 M1) as [w [W1 W2]]; [lia|].
  rewrite W1. cbn [bind]. rewrite qsub_self.
  exists (mkTen v [(q0, 1)] w), v, pl, ix. simpl mt_r. simpl mt_l. split; auto. split; auto. split; auto. split; auto. split; auto.
  eapply (fit_of ix qa pl qb [0] m m1); simpl; eauto.
  - rewrite C. apply is_perm_id1.
  - intros x y Hx Hy. rewrite S1 by auto. f_equal. rewrite C in Hy. destruct y; [reflexivity|lia].
  - rewrite Hq. reflexivity.
  - apply trivial_sorted.
  - apply col_nodup.
  - intros x y. rewrite R1, C. apply in_col.
Qed.

Lemma loop_ok : forall dbg n ms qz, n = length ms -> qz 0 = q0 -> forall l i qa pl v acc, l <> [] -> i <> 0 -> i + length l = n ->
  (forall k, nth_error l k = nth_error ms (i + k)) -> (forall k m, nth_error l k = Some m -> site_ok (i + k) m) ->
  Forall nnm l -> Forall good l -> chain (length pl) l 1 -> graded qa l qz ->
  is_perm (length pl) pl -> sectors v = map qa pl -> bond_sorted v ->
  exists ts v' p', for_loop i (length l) (step dbg n ch oh ms) (v, pl, acc) = Ok (v', p', acc ++ ts) /\ tchain i qa pl v l ts.
Proof.
  intros dbg n ms qz Hn Hz. induction l as [|m l IH]; intros i qa pl v acc NE Hi Hl HN HS FN FG CH G P V B; [congruence|].
  pose proof (HN 0) as H0. simpl in H0. rewrite Nat.add_0_r in H0. symmetry in H0.
  pose proof (HS 0 m eq_refl) as HS0. rewrite Nat.add_0_r in HS0. inversion FN; subst. inversion FG; subst. simpl in Hl.
  destruct CH as [CH1 CH2]. destruct G as [qb [G1 G2]]. destruct H4 as [Hw [_ [Hr Hc]]].
  destruct l as [|m2 l].
  - simpl in CH2. simpl in G2. simpl in Hl.
    destruct (tail_step dbg (length ms) ms i m qa qb v pl acc) as [t [v' [p [ix [T1 [T2 [T3 [T4 [T5 T6]]]]]]]]]; auto; try lia.
    { rewrite CH1. auto. } { rewrite G2. auto. }
    exists [t], v', p. split; [cbn [length for_loop]; rewrite T1; reflexivity|]. exists ix, qb, [0]. split; auto. split; [apply T5|]. split; auto.
    split; auto. split; auto. rewrite T3. simpl. auto.
  - destruct (mid_step dbg (length ms) ms i m qa qb v pl acc) as [t [p [ix [T1 [T2 [T4 [T5 T6]]]]]]]; auto; try (simpl in Hl; lia).
    { rewrite CH1. auto. }
    assert (LP : length p = cols m) by (apply (tf_pr _ _ _ _ _ _ _ T6)).
    destruct (IH (S i) qb p (mt_r t) (acc ++ [t])) as [ts [v' [p' [I1 I2]]]]; try discriminate; auto.
    + simpl in *. lia.
    + intros k. replace (S i + k) with (i + S k) by lia. apply (HN (S k)).
    + intros k m0 Hk. replace (S i + k) with (i + S k) by lia. apply (HS (S k)). auto.
    + rewrite LP. auto.
    + rewrite LP. apply (tf_pr _ _ _ _ _ _ _ T6).
    + apply (tf_r _ _ _ _ _ _ _ T6).
    + apply (tf_sr _ _ _ _ _ _ _ T6).
    + exists (t :: ts), v', p'. split.
      * change (length (m :: m2 :: l)) with (S (length (m2 :: l))).
        change (for_loop i (S (length (m2 :: l))) (step dbg (length ms) ch oh ms) (v, pl, acc)) with
          (let! st' := step dbg (length ms) ch oh ms i (v, pl, acc) in for_loop (S i) (length (m2 :: l)) (step dbg (length ms) ch oh ms) st').
        rewrite T1. cbn [bind]. etransitivity; [exact I1|]. rewrite <- app_assoc. reflexivity.
      * exists ix, qb, p. split; auto. split; [apply T5|]. auto.
Qed.

Lemma all_ok : forall dbg ms qa qz, ms <> [] -> qa 0 = q0 -> qz 0 = q0 ->
  (forall k m, nth_error ms k = Some m -> site_ok k m) ->
  Forall nnm ms -> Forall good ms -> chain 1 ms 1 -> graded qa ms qz ->
  exists ts v' p', for_loop 0 (length ms) (step dbg (length ms) ch oh ms) ([(q0, 1)], [], []) = Ok (v', p', ts) /\
    tchain 0 qa [0] [(q0, 1)] ms ts.
Proof.
  intros dbg ms qa qz NE Hq Hz HS FN FG CH G. destruct ms as [|m l] eqn:EM; [congruence|]. rewrite <- EM.
  inversion FN; subst. inversion FG; subst. destruct CH as [CH1 CH2]. destruct G as [qb [G1 G2]]. destruct H3 as [Hw [_ [Hr Hc]]].
  pose proof (HS 0 m eq_refl) as HS0.
  destruct (head_step dbg (length (m :: l)) (m :: l) m qa qb []) as [t [p [ix [T1 [T2 [T3 [T4 T5]]]]]]]; auto.
  change (for_loop 0 (length (m :: l)) (step dbg (length (m :: l)) ch oh (m :: l)) ([(q0, 1)], [], [])) with
    (let! st' := step dbg (length (m :: l)) ch oh (m :: l) 0 ([(q0, 1)], [], []) in for_loop 1 (length l) (step dbg (length (m :: l)) ch oh (m :: l)) st').
  rewrite T1. cbn [bind].
  assert (LP : length p = cols m) by (apply (tf_pr _ _ _ _ _ _ _ T5)).
  destruct l as [|m2 l].
  - simpl in CH2, G2. exists [t], (mt_r t), p. split; [reflexivity|]. exists ix, qb, p. split; auto. split; [apply T4|]. split; auto.
    split; auto. split; auto. assert (Ep : p = [0]) by (apply perm1; rewrite <- CH2; apply (tf_pr _ _ _ _ _ _ _ T5)).
    split; auto. apply one_sector; [|apply (tf_sr _ _ _ _ _ _ _ T5)]. rewrite (tf_r _ _ _ _ _ _ _ T5), Ep. simpl. rewrite G2. congruence.
  - destruct (loop_ok dbg (length (m :: m2 :: l)) (m :: m2 :: l) qz eq_refl Hz (m2 :: l) 1 qb p (mt_r t) [t]) as [ts [v' [p' [I1 I2]]]];
      try discriminate; auto.
    + rewrite LP. auto.
    + rewrite LP. apply (tf_pr _ _ _ _ _ _ _ T5).
    + apply (tf_r _ _ _ _ _ _ _ T5).
    + apply (tf_sr _ _ _ _ _ _ _ T5).
    + exists (t :: ts), v', p'. split; [exact I1|]. exists ix, qb, p. split; auto. split; [apply T4|]. auto.
Qed.

(** *** consequences of [tchain] *)
Notation mprod := (mprod R r0 r1 radd rmul cvl).
Lemma sum_to_nsum : forall n f, sum_to R r0 radd n f = nsum R r0 radd n f.
Proof. intros. unfold sum_to. rewrite (nsum_list R r0 r1 radd rmul rsub ropp Rth). reflexivity. Qed.

Lemma tchain_val : forall s s' ms ts k qa pl v, tchain k qa pl v ms ts -> forall x, x < length pl ->
  mpo_from R r0 r1 radd rmul reqb Q k ts s s' x = mprod (fun i => evl (s i) (s' i)) k ms (pget pl x) 0.
Proof.
  intros s s'. induction ms as [|m ms IH]; intros [|t ts] k qa pl v H x Hx; cbn [tchain] in H; try contradiction.
  - destruct H as [_ ->]. simpl in *. replace x with 0 by lia. reflexivity.
  - destruct H as [ix [qb [pr [Hs [K [G [E [T C]]]]]]]]. simpl. rewrite sum_to_nsum.
    assert (Ld : bdim (mt_r t) = cols m).
    { rewrite <- sectors_len, (tf_r _ _ _ _ _ _ _ T), map_length. apply (tf_pr _ _ _ _ _ _ _ T). }
    assert (Lr : length pr = cols m) by apply (tf_pr _ _ _ _ _ _ _ T).
    assert (Ll : length pl = rows m) by apply (tf_pl _ _ _ _ _ _ _ T).
    rewrite Ld. symmetry. etransitivity; [symmetry; apply (nsum_perm R r0 r1 radd rmul rsub ropp Rth (cols m) pr); apply (tf_pr _ _ _ _ _ _ _ T)|].
    symmetry. apply nsum_ext. intros y Hy. rewrite (tf_el _ _ _ _ _ _ _ T) by lia. f_equal. apply (IH ts (S k) qb pr (mt_r t) C). lia.
Qed.
Lemma tchain_bonds : forall ms ts k qa pl v, tchain k qa pl v ms ts -> bonds R Q q0 v ts.
Proof.
  induction ms as [|m ms IH]; intros [|t ts] k qa pl v H; cbn [tchain] in H; try contradiction.
  - apply H.
  - destruct H as [ix [qb [pr [Hs [K [G [E [T C]]]]]]]]. simpl. split; auto. eapply IH; eauto.
Qed.
Lemma tchain_len : forall ms ts k qa pl v, tchain k qa pl v ms ts -> length ts = length ms.
Proof.
  induction ms as [|m ms IH]; intros [|t ts] k qa pl v H; cbn [tchain] in H; try contradiction; auto.
  destruct H as [ix [qb [pr [Hs [K [G [E [T C]]]]]]]]. simpl. f_equal. eapply IH; eauto.
Qed.

Variable blk : nat -> nat -> nat -> Q -> Prop.
Definition Bl (ix l : nat) : Prop := forall a b, evl a b l <> r0 -> blk ix a b (dvl l).

Lemma oval_zero : forall cv ev o, (forall l, In l (keys o) -> ev l = r0) -> oval cv ev o = r0.
Proof.
  intros cv ev. induction o as [|[l c] o IH]; intros H; [reflexivity|]. rewrite (oval_cons R r0 radd rmul). simpl fst. 
  rewrite H by (left; auto). rewrite IH by (intros; apply H; right; auto). simpl. ring.
Qed.
Lemma r_dec : forall x, {x = r0} + {x <> r0}.
Proof. intros x. destruct (reqb x r0) eqn:E; [left; apply reqb_spec; auto|right; intros H; apply reqb_spec in H; congruence]. Qed.
Lemma fit_ok : forall ix qa pl qb pr m t, tfit ix qa pl qb pr m t -> kin (okl R pd oh ix) m -> kin (Bl ix) m -> gmat qa qb m ->
  ten_ok R r0 reqb Q qsub blk ix t.
Proof.
  intros ix qa pl qb pr m t T K KB G.
  assert (Ld : bdim (mt_r t) = cols m).
  { rewrite <- sectors_len, (tf_r _ _ _ _ _ _ _ T), map_length. apply (tf_pr _ _ _ _ _ _ _ T). }
  assert (Ll : bdim (mt_l t) = rows m).
  { rewrite <- sectors_len, (tf_l _ _ _ _ _ _ _ T), map_length. apply (tf_pl _ _ _ _ _ _ _ T). }
  split; [apply (tf_sl _ _ _ _ _ _ _ T)|]. split; [apply (tf_sr _ _ _ _ _ _ _ T)|]. split; [apply (tf_nd _ _ _ _ _ _ _ T)|].
  split.
  - apply Forall_forall. intros e He. rewrite Ld, Ll. apply (tf_in _ _ _ _ _ _ _ T e He).
  - intros x a b y H.
    assert (X : x < rows m /\ y < cols m).
    { destruct (in_dec (fun p q : nat * nat => ltac:(decide equality; apply Nat.eq_dec)) (x, y) (map fst (mt_w t))) as [I|I].
      - apply in_map_iff in I. destruct I as [e [I1 I2]]. destruct (tf_in _ _ _ _ _ _ _ T e I2) as [A1 [A2 _]]. rewrite I1 in A1, A2. auto.
      - exfalso. apply H. apply (ten_elem_not R r0 reqb); auto. }
    destruct X as [Hx Hy]. rewrite (tf_el _ _ _ _ _ _ _ T) in H by auto.
    assert (Hx' := pget_lt _ _ _ (tf_pl _ _ _ _ _ _ _ T) Hx). assert (Hy' := pget_lt _ _ _ (tf_pr _ _ _ _ _ _ _ T) Hy).
    set (e := sm m (pget pl x) (pget pr y)) in *.
    assert (L : exists l, In l (keys e) /\ evl a b l <> r0).
    { destruct (Forall_Exists_dec (fun l => evl a b l = r0) (fun l => r_dec (evl a b l)) (keys e)) as [F|F].
      - exfalso. apply H. apply oval_zero. apply Forall_forall. auto.
      - apply Exists_exists in F. auto. }
    destruct L as [l [L1 L2]]. destruct (K _ _ l Hx' Hy' L1) as [o [O1 [O2 O3]]].
    exists (qa (pget pl x)), (qb (pget pr y)), (dvl l).
    split; [rewrite (tf_l _ _ _ _ _ _ _ T); apply (map_perm_nth qa pl (rows m)); auto; apply (tf_pl _ _ _ _ _ _ _ T)|].
    split; [rewrite (tf_r _ _ _ _ _ _ _ T); apply (map_perm_nth qb pr (cols m)); auto; apply (tf_pr _ _ _ _ _ _ _ T)|].
    split; [apply (G _ _ l Hx' Hy' L1)|]. apply (KB _ _ l Hx' Hy' L1). auto.
Qed.
Lemma tchain_ok : forall ms ts k qa pl v, k + length ms = length sites -> tchain k qa pl v ms ts ->
  (forall j m ix, nth_error ms j = Some m -> nth_error sites (k + j) = Some ix -> kin (Bl ix) m) ->
  Forall2 (ten_ok R r0 reqb Q qsub blk) (skipn k sites) ts.
Proof.
  induction ms as [|m ms IH]; intros [|t ts] k qa pl v HL H HB; cbn [tchain] in H; try contradiction.
  - simpl in HL. rewrite skipn_all2 by lia. constructor.
  - destruct H as [ix [qb [pr [Hs [K [G [E [T C]]]]]]]].
    assert (ES : skipn k sites = ix :: skipn (S k) sites).
    { clear - Hs. revert k Hs. induction sites as [|a l IH]; intros [|k] H; simpl in *; try discriminate; [congruence|]. apply IH. auto. }
    rewrite ES. constructor.
    + eapply fit_ok; eauto. apply (HB 0 m ix eq_refl). rewrite Nat.add_0_r. auto.
    + eapply IH; eauto; [simpl in HL; lia|]. intros j m0 ix0 H1 H2. apply (HB (S j) m0 ix0 H1). rewrite <- H2. f_equal. lia.
Qed.
End Chain.
