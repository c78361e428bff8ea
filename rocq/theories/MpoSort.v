(** Sorting the columns of a matrix of operators by quantum number. *)
From Coq Require Import List Arith Lia Bool Permutation.
From Verif Require Import Base SparMat SparMatFacts CoefOp CoefOpAlg CoefOpFacts Compress Fsm Chain ChainProgress
  Grading Labels MpoGen MpoGenFacts MpoTen MpoTenSpec.
Import ListNotations.

Section Sort.
Variables (R Q : Type) (qsub : Q -> Q -> Q) (qeqb : Q -> Q -> bool) (dv : lop R -> Q).
Hypothesis qeqb_spec : forall a b, qeqb a b = true <-> a = b.
Notation sectors := (sectors Q).
Notation bdim := (bdim Q).
Notation bond_sorted := (bond_sorted Q).

Lemma sectors_len : forall v, length (sectors v) = bdim v.
Proof. induction v as [|[q d] v IH]; simpl; auto. rewrite app_length, repeat_length, IH. reflexivity. Qed.
Lemma vb_qn_sectors : forall v x q, nth_error (sectors v) x = Some q -> vb_qn Q v x = Ok q.
Proof.
  induction v as [|[q d] v IH]; intros x q' H; simpl in *; [destruct x; discriminate|].
  destruct (Nat.ltb_spec x d).
  - rewrite nth_error_app1 in H by (rewrite repeat_length; auto).
    rewrite (nth_error_repeat _ H0) in H. congruence.
  - rewrite nth_error_app2 in H by (rewrite repeat_length; auto). rewrite repeat_length in H. apply IH. auto.
Qed.

(** one insertion: sectors grow by the quantum number at the offset *)
Lemma qn_insert_spec : forall q v off, bond_sorted v ->
  let r := qn_insert Q qeqb q v off in
  exists k, snd r = off + k /\ k <= bdim v /\ bond_sorted (fst r) /\
    sectors (fst r) = firstn k (sectors v) ++ q :: skipn k (sectors v) /\
    (forall q', In q' (map fst (fst r)) -> q' = q \/ In q' (map fst v)).
Proof.
  intros q. induction v as [|[q' d] v IH]; intros off [ND PD]; simpl.
  - exists 0. split; [lia|]. split; [lia|]. split; [split; repeat constructor; simpl; tauto|]. split; auto.
    intros q' [<-|[]]. auto.
  - simpl in ND. inversion ND; subst. inversion PD; subst. destruct (qeqb q' q) eqn:E.
    + apply qeqb_spec in E. subst q'. exists 0. split; simpl; [lia|]. split; [lia|]. split.
      { split; auto. constructor; auto. simpl. lia. } split; auto. 
    + destruct (IH (off + d)) as [k [I1 [I2 [I3 [I4 I5]]]]]; [split; auto|].
      destruct (qn_insert Q qeqb q v (off + d)) as [v' p]. simpl in *. exists (d + k). split; [lia|]. split; [lia|].
      split; [split|split].
      * simpl. constructor; [|apply I3]. intro Z. apply I5 in Z. destruct Z as [->|Z]; [|tauto].
        assert (qeqb q q = true) by (apply qeqb_spec; auto). congruence.
      * constructor; auto. apply I3.
      * change (repeat q' d ++ sectors v' = firstn (d + k) (repeat q' d ++ sectors v) ++ q :: skipn (d + k) (repeat q' d ++ sectors v)).
        rewrite I4. rewrite firstn_app, skipn_app, repeat_length. rewrite (firstn_all2 (n := d + k) (repeat q' d)) by (rewrite repeat_length; lia).
        rewrite (skipn_all2 (n := d + k) (repeat q' d)) by (rewrite repeat_length; lia). replace (d + k - d) with k by lia. rewrite <- app_assoc. reflexivity.
      * intros q2 [<-|Z]; [auto|]. apply I5 in Z. tauto.
Qed.

Variables (oh : list (lop R)) (dflt : lop R).
Definition dvl (l : nat) : Q := dv (nth l oh dflt).
Variables (dbg : bool) (m : opmat) (v : list (Q * nat)) (qa qb : nat -> Q).
Hypothesis W : wfo m.
Hypothesis NN : nnm m.
Hypothesis HL : forall x y l, x < rows m -> y < cols m -> In l (keys (sm m x y)) -> l < length oh.
Hypothesis HV : forall x, x < rows m -> nth_error (sectors v) x = Some (qa x).
Hypothesis HG : gmat Q qsub dvl qa qb m.

Lemma calc_ok : forall x y, x < rows m -> y < cols m -> sm m x y <> [] -> calc_rvb R Q qsub dv v oh x (sm m x y) = Ok (qb y).
Proof.
  intros x y Hx Hy Hn. unfold calc_rvb. rewrite (vb_qn_sectors v x (qa x)) by auto. cbn [bind].
  destruct (sm m x y) as [|[l c] t] eqn:E; [congruence|].
  assert (Hl : In l (keys (sm m x y))) by (rewrite E; left; auto).
  destruct (vget_ok _ _ _ (HL x y l Hx Hy Hl)) as [o [V1 V2]]. rewrite V1. cbn [bind]. f_equal.
  rewrite (HG x y l Hx Hy Hl). unfold dvl. rewrite (nth_error_nth _ _ _ V2). reflexivity.
Qed.
Lemma insert_at_ok : forall k x l, k <= length l -> insert_at k x l = Ok (firstn k l ++ x :: skipn k l).
Proof. intros. unfold insert_at. rewrite (proj2 (Nat.leb_le _ _)) by auto. reflexivity. Qed.

Notation row := (qn_row R Q qsub qeqb dv dbg m v oh).
Lemma rows_ok : forall col pairs idxs, col < cols m -> bond_sorted pairs -> length idxs = bdim pairs ->
  exists k, k <= length idxs /\
  for_loop 0 (rows m) (row col) (None, pairs, idxs) =
    Ok (Some (qb col), fst (qn_insert Q qeqb (qb col) pairs 0), firstn k idxs ++ col :: skipn k idxs) /\
  snd (qn_insert Q qeqb (qb col) pairs 0) = k.
Proof.
  intros col pairs idxs Hc BS HI. destruct (qn_insert_spec (qb col) pairs 0 BS) as [k [K1 [K2 _]]]. cbv zeta in *. simpl in K1.
  exists k. split; [lia|]. split; auto.
  set (fin := (Some (qb col), fst (qn_insert Q qeqb (qb col) pairs 0), firstn k idxs ++ col :: skipn k idxs)).
  destruct (for_loop_inv _ (fun r st => (st = (None, pairs, idxs) /\ forall x, x < r -> sm m x col = []) \/ st = fin) (row col) (rows m) 0
    (None, pairs, idxs)) as [st [E1 E2]].
  - left. split; auto. intros; lia.
  - intros x st Hx Hst. unfold qn_row. destruct st as [[cq pr] ix].
    rewrite oget_sm by (auto; lia). cbn [bind]. destruct (op_isnull (sm m x col)) eqn:En.
    + exists (cq, pr, ix). split; auto. destruct Hst as [[Hst1 Hst2]|Hst]; auto. left. split; auto. intros x' Hx'.
      destruct (Nat.eq_dec x' x); [subst; apply op_isnull_spec; auto|]. apply Hst2. lia.
    + apply op_isnull_false in En. rewrite calc_ok by (auto; lia). cbn [bind]. destruct Hst as [[Hst _]|Hst].
      * injection Hst as -> -> ->. destruct (qn_insert Q qeqb (qb col) pairs 0) as [pr' off] eqn:EI. simpl in K1. subst off.
        rewrite insert_at_ok by lia. cbn [bind]. exists fin. split; auto.
      * unfold fin in Hst. injection Hst as -> -> ->. rewrite (proj2 (qeqb_spec _ _) eq_refl).
        destruct dbg; cbn [assert_ bind]; eexists; split; eauto.
  - etransitivity; [exact E1|]. destruct E2 as [[_ E2]|E2]; [|rewrite E2; reflexivity]. exfalso. destruct (proj2 NN col Hc) as [x [Hx Hn]].
    apply Hn. apply E2. simpl. auto.
Qed.

Lemma firstn_skipn_map : forall A B (f : A -> B) k l a, map f (firstn k l ++ a :: skipn k l) = firstn k (map f l) ++ f a :: skipn k (map f l).
Proof. intros. rewrite map_app, firstn_map. simpl. rewrite skipn_map. reflexivity. Qed.
Lemma insert_perm : forall A k (l : list A) a, Permutation (a :: l) (firstn k l ++ a :: skipn k l).
Proof.
  intros. rewrite <- (firstn_skipn k l) at 1. apply Permutation_middle.
Qed.

Lemma sort_ok : exists m' v' p, sort_cols_qn R Q qsub qeqb dv dbg m v oh = Ok (m', v', p) /\
  is_perm (cols m) p /\ wfo m' /\ rows m' = rows m /\ cols m' = cols m /\
  (forall x y, x < rows m -> y < cols m -> sm m' x y = sm m x (pget p y)) /\
  sectors v' = map qb p /\ bond_sorted v'.
Proof.
  unfold sort_cols_qn.
  destruct (for_loop_inv _ (fun c st => bond_sorted (fst st) /\ sectors (fst st) = map qb (snd st) /\
      Permutation (seq 0 c) (snd st))
    (fun col st => let! (_, pairs, idxs) := for_loop 0 (rows m) (row col) (None, fst st, snd st) in Ok (pairs, idxs))
    (cols m) 0 ([], [])) as [[v' p] [E1 [E2 [E3 E4]]]].
  - simpl. split; [split; constructor|]. auto.
  - intros c [pr ix] Hc [I1 [I2 I3]]. simpl in I1, I2, I3. simpl fst. simpl snd.
    assert (HI : length ix = bdim pr) by (rewrite <- sectors_len, I2, map_length; auto).
    destruct (rows_ok c pr ix ltac:(lia) I1 HI) as [k [K1 [K2 K3]]]. eexists. split; [change (vb Q) with (list (Q * nat)) in *; rewrite K2; reflexivity|]. simpl.
    destruct (qn_insert_spec (qb c) pr 0 I1) as [k' [Q1 [Q2 [Q3 [Q4 _]]]]]. cbv zeta in *. simpl in Q1.
    assert (k' = k) by congruence. subst k'. split; auto. split.
    + etransitivity; [exact Q4|]. rewrite I2, firstn_skipn_map, H. reflexivity.
    + change (Permutation (seq 0 (S c)) (firstn k ix ++ c :: skipn k ix)). rewrite seq_S. simpl. eapply perm_trans; [apply Permutation_sym, Permutation_cons_append|].
      eapply perm_trans; [|apply insert_perm]. constructor. auto.
  - change (vb Q) with (list (Q * nat)) in *. rewrite E1. cbn [bind]. simpl in E2, E3, E4. simpl fst. simpl snd.
    assert (HP : is_perm (cols m) p).
    { split; [rewrite <- (Permutation_length E4), seq_length; auto|]. split; [eapply Permutation_NoDup; [exact E4|apply seq_NoDup]|].
      intros x Hx. apply (Permutation_in x (Permutation_sym E4)) in Hx. apply in_seq in Hx. lia. }
    destruct (transpose_cols_spec _ _ _ dbg m p W HP) as [m' [T1 [T2 [T3 [T4 T5]]]]]. rewrite T1. cbn [bind].
    exists m', v', p. split; auto. split; auto. split; auto. split; auto. split; auto. split; auto.
    intros x y Hx Hy. unfold sm. rewrite T5; auto.
Qed.
End Sort.
