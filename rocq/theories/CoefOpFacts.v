(** Specifications, in terms of plain functions [nat -> nat -> oprepr], of the matrix functions of CoefOp.v *)
From Coq Require Import List Arith Lia Bool Permutation Sorting.Sorted.
From Verif Require Import Base SparMat SparMatFacts CoefOp CoefOpAlg.
Import ListNotations.

Lemma assert_true : forall dbg, assert_ dbg true = Ok tt.
Proof. destruct dbg; reflexivity. Qed.

Lemma for_loop_fold : forall S (body : nat -> S -> res S) (g : S -> nat -> S) n s st,
  (forall i x, s <= i < s + n -> body i x = Ok (g x i)) ->
  for_loop s n body st = Ok (fold_left g (seq s n) st).
Proof.
  intros S body g. induction n; intros s st H; simpl; auto.
  rewrite H by lia. simpl. apply IHn. intros. apply H. lia.
Qed.

Lemma for_loop_ext : forall S (b1 b2 : nat -> S -> res S) n s st,
  (forall i x, s <= i < s + n -> b1 i x = b2 i x) -> for_loop s n b1 st = for_loop s n b2 st.
Proof.
  intros S b1 b2. induction n; intros s st H; simpl; auto.
  rewrite H by lia. destruct (b2 s st); simpl; auto. apply IHn. intros. apply H. lia.
Qed.

Lemma for_loop_build2 : forall A (body : nat -> list A -> res (list A)) (g : nat -> A) n s acc,
  (forall i acc, s <= i < s + n -> body i acc = Ok (acc ++ [g i])) ->
  for_loop s n body acc = Ok (acc ++ map g (seq s n)).
Proof.
  intros A body g. induction n; intros s acc H; simpl.
  - rewrite app_nil_r. reflexivity.
  - rewrite H by lia. simpl. rewrite IHn.
    + rewrite <- app_assoc. reflexivity.
    + intros. apply H. lia.
Qed.

Notation wfo := (wf kNullOp op_eq).
Notation wfc := (wf kNull coef_eq).

Definition sm (m : opmat) (x y : nat) : oprepr := oget kNullOp (look m x y).
Definition cm (m : coefmat) (x y : nat) : coef := oget kNull (look m x y).

Lemma is_null_sm : forall m x y, wfo m -> x < rows m -> y < cols m ->
  is_null m x y = Ok (op_isnull (sm m x y)).
Proof.
  intros m x y W Hx Hy. rewrite (is_null_look _ _ _ _ _ _ W Hx Hy). unfold sm.
  destruct (look m x y) eqn:E; simpl; auto.
  apply (look_nn _ _ _ _ _ _ _ W) in E. unfold op_isnull. rewrite E. reflexivity.
Qed.

Lemma oget_sm : forall m x y, wfo m -> x < rows m -> y < cols m -> oget_ m x y = Ok (sm m x y).
Proof. intros. unfold oget_. erewrite get_look; eauto. Qed.

Definition coef_isnull (c : coef) : bool := coef_eq c kNull.

Lemma coef_isnull_spec : forall c, coef_isnull c = true <-> c = [].
Proof. apply coef_eq_null. Qed.
Lemma coef_isnull_false : forall c, coef_isnull c = false <-> c <> [].
Proof. intros. rewrite <- coef_isnull_spec. destruct (coef_isnull c); split; congruence. Qed.

Lemma is_null_cm : forall m x y, wfc m -> x < rows m -> y < cols m ->
  is_null m x y = Ok (coef_isnull (cm m x y)).
Proof.
  intros m x y W Hx Hy. rewrite (is_null_look _ _ _ _ _ _ W Hx Hy). unfold cm.
  destruct (look m x y) eqn:E; simpl; auto.
  apply (look_nn _ _ _ _ _ _ _ W) in E. unfold coef_isnull. rewrite E. reflexivity.
Qed.

Lemma cget_cm : forall m x y, wfc m -> x < rows m -> y < cols m -> cget m x y = Ok (cm m x y).
Proof. intros. unfold cget. erewrite get_look; eauto. Qed.

Lemma sm_new : forall r c x y, sm (mat_new r c) x y = [].
Proof. intros. unfold sm. rewrite look_new. reflexivity. Qed.
Lemma cm_new : forall r c x y, cm (mat_new r c) x y = [].
Proof. intros. unfold cm. rewrite look_new. reflexivity. Qed.

Lemma oset_spec : forall m r c e, wfo m -> r < rows m -> c < cols m -> e <> [] ->
  exists m', oset m r c e = Ok m' /\ wfo m' /\ rows m' = rows m /\ cols m' = cols m /\
    forall r' c', c' < cols m -> sm m' r' c' = if (r =? r') && (c =? c') then e else sm m r' c'.
Proof.
  intros m r c e W Hr Hc He.
  destruct (set_elem_spec _ _ op_eq m r c e W Hr Hc) as [m' [H1 [H2 [H3 [H4 H5]]]]].
  exists m'. repeat split; auto; try apply H2. intros r' c' Hc'. unfold sm. rewrite H5 by auto.
  replace (op_eq e kNullOp) with false.
  - simpl. destruct ((r =? r') && (c =? c')); reflexivity.
  - symmetry. apply op_isnull_false. auto.
Qed.

Lemma cset_spec : forall m r c e, wfc m -> r < rows m -> c < cols m ->
  exists m', cset m r c e = Ok m' /\ wfc m' /\ rows m' = rows m /\ cols m' = cols m /\
    forall r' c', c' < cols m ->
      cm m' r' c' = if negb (coef_isnull e) && (r =? r') && (c =? c') then e else cm m r' c'.
Proof.
  intros m r c e W Hr Hc.
  destruct (set_elem_spec _ _ coef_eq m r c e W Hr Hc) as [m' [H1 [H2 [H3 [H4 H5]]]]].
  exists m'. repeat split; auto; try apply H2. intros r' c' Hc'. unfold cm. rewrite H5 by auto.
  unfold coef_isnull. destruct (coef_eq e kNull); simpl; auto.
  destruct ((r =? r') && (c =? c')); reflexivity.
Qed.

(** *** Sorting *)
Lemma insert_pair_perm : forall a l, Permutation (insert_pair a l) (a :: l).
Proof.
  induction l as [|b t IH]; simpl; auto. destruct (pair_leb a b); auto.
  rewrite IH. apply perm_swap.
Qed.
Lemma sort_pairs_perm : forall l, Permutation (sort_pairs l) l.
Proof. induction l; simpl; auto. rewrite insert_pair_perm. auto. Qed.

Lemma map_snd_perm : forall (g : nat -> nat) n l,
  Permutation l (map (fun x => (g x, x)) (seq 0 n)) -> is_perm n (map snd l).
Proof.
  intros g n l H.
  assert (HP : Permutation (map snd l) (seq 0 n)).
  { rewrite H. rewrite map_map. simpl. rewrite map_id. auto. }
  split; [|split].
  - rewrite (Permutation_length HP), seq_length. auto.
  - eapply Permutation_NoDup; [symmetry; exact HP|]. apply seq_NoDup.
  - intros x Hx. apply (Permutation_in _ HP) in Hx. apply in_seq in Hx. lia.
Qed.

Definition count_nn (l : list oprepr) : nat := length (filter (fun e => negb (op_isnull e)) l).

Lemma count_loop : forall (f : nat -> oprepr) n s k,
  fold_left (fun k i => if op_isnull (f i) then k else S k) (seq s n) k = k + count_nn (map f (seq s n)).
Proof.
  intros f. induction n; intros s k; simpl; unfold count_nn in *; simpl; [lia|].
  destruct (op_isnull (f s)); simpl; rewrite IHn; lia.
Qed.

Definition rowl (m : opmat) (x : nat) : list oprepr := map (sm m x) (seq 0 (cols m)).
Definition coll (m : opmat) (y : nat) : list oprepr := map (fun x => sm m x y) (seq 0 (rows m)).

Lemma row_count_spec : forall m x, wfo m -> x < rows m -> row_count m x = Ok (count_nn (rowl m x)).
Proof.
  intros m x W Hx. unfold row_count.
  rewrite for_loop_fold with (g := fun k y => if op_isnull (sm m x y) then k else S k).
  - rewrite count_loop. reflexivity.
  - intros y k Hy. rewrite is_null_sm by (auto; lia). reflexivity.
Qed.
Lemma col_count_spec : forall m y, wfo m -> y < cols m -> col_count m y = Ok (count_nn (coll m y)).
Proof.
  intros m y W Hy. unfold col_count.
  rewrite for_loop_fold with (g := fun k x => if op_isnull (sm m x y) then k else S k).
  - rewrite (count_loop (fun x => sm m x y)). reflexivity.
  - intros x k Hx. rewrite is_null_sm by (auto; lia). reflexivity.
Qed.

Lemma sort_rows_spec : forall dbg m, wfo m ->
  exists m' p, sort_rows dbg m = Ok (m', p) /\ is_perm (rows m) p /\ wfo m' /\
    rows m' = rows m /\ cols m' = cols m /\
    forall x y, x < rows m -> y < cols m -> sm m' x y = sm m (pget p x) y.
Proof.
  intros dbg m W. unfold sort_rows.
  rewrite for_loop_build2 with (g := fun x => (count_nn (rowl m x), x)).
  2:{ intros. rewrite row_count_spec by (auto; lia). reflexivity. }
  simpl. set (mp := map (fun x => (count_nn (rowl m x), x)) (seq 0 (rows m))).
  assert (HP : is_perm (rows m) (map snd (sort_pairs mp))).
  { apply map_snd_perm with (g := fun x => count_nn (rowl m x)). apply sort_pairs_perm. }
  destruct (transpose_rows_spec _ _ _ dbg m _ W HP) as [m' [H1 [H2 [H3 [H4 H5]]]]].
  rewrite H1. simpl. exists m', (map snd (sort_pairs mp)). repeat split; auto; try apply HP; try apply H2.
  intros. unfold sm. rewrite H5; auto.
Qed.

Lemma sort_cols_spec : forall dbg m, wfo m ->
  exists m' p, sort_cols dbg m = Ok (m', p) /\ is_perm (cols m) p /\ wfo m' /\
    rows m' = rows m /\ cols m' = cols m /\
    forall x y, x < rows m -> y < cols m -> sm m' x y = sm m x (pget p y).
Proof.
  intros dbg m W. unfold sort_cols.
  rewrite for_loop_build2 with (g := fun y => (count_nn (coll m y), y)).
  2:{ intros. rewrite col_count_spec by (auto; lia). reflexivity. }
  simpl. set (mp := map (fun y => (count_nn (coll m y), y)) (seq 0 (cols m))).
  assert (HP : is_perm (cols m) (map snd (sort_pairs mp))).
  { apply map_snd_perm with (g := fun y => count_nn (coll m y)). apply sort_pairs_perm. }
  destruct (transpose_cols_spec _ _ _ dbg m _ W HP) as [m' [H1 [H2 [H3 [H4 H5]]]]].
  rewrite H1. simpl. exists m', (map snd (sort_pairs mp)). repeat split; auto; try apply HP; try apply H2.
  intros. unfold sm. rewrite H5; auto.
Qed.

Lemma transpose_rows_sm : forall dbg (m : opmat) p, wfo m -> is_perm (rows m) p ->
  exists m', transpose_rows dbg m p = Ok m' /\ wfo m' /\ rows m' = rows m /\ cols m' = cols m /\
    forall x y, x < rows m -> y < cols m -> sm m' x y = sm m (pget p x) y.
Proof.
  intros dbg m p W HP. destruct (transpose_rows_spec _ _ _ dbg m _ W HP) as [m' [H1 [H2 [H3 [H4 H5]]]]].
  exists m'. repeat split; auto; try apply H2. intros. unfold sm. rewrite H5; auto.
Qed.
Lemma transpose_cols_sm : forall dbg (m : opmat) p, wfo m -> is_perm (cols m) p ->
  exists m', transpose_cols dbg m p = Ok m' /\ wfo m' /\ rows m' = rows m /\ cols m' = cols m /\
    forall x y, x < rows m -> y < cols m -> sm m' x y = sm m x (pget p y).
Proof.
  intros dbg m p W HP. destruct (transpose_cols_spec _ _ _ dbg m _ W HP) as [m' [H1 [H2 [H3 [H4 H5]]]]].
  exists m'. repeat split; auto; try apply H2. intros. unfold sm. rewrite H5; auto.
Qed.

(** *** Common coefficient of a line *)
Definition tcp (st : option coef * nat * coef) (e : oprepr) : option coef * nat * coef :=
  match st with
  | (Some _, _, _) => st
  | (None, n, rc) =>
      if op_isnull e then st else
      let c := op_coef e in
      if n =? 0 then (None, 1, c)
      else if coef_eq rc c then (None, S n, c) else (Some kId, S n, c)
  end.
Definition common_coef (l : list oprepr) : coef := tc_result (fold_left tcp l (None, 0, kNull)).

Lemma fold_left_map : forall A B C (f : A -> B -> A) (g : C -> B) l a,
  fold_left f (map g l) a = fold_left (fun a c => f a (g c)) l a.
Proof. induction l; intros; simpl; auto. Qed.

Lemma try_catch_row_spec : forall m x, wfo m -> x < rows m -> try_catch_row m x = Ok (common_coef (rowl m x)).
Proof.
  intros m x W Hx. unfold try_catch_row, common_coef, rowl.
  rewrite for_loop_fold with (g := fun st y => tcp st (sm m x y)).
  - simpl. rewrite fold_left_map. reflexivity.
  - intros y [[ret n] rc] Hy. unfold tc_step, tcp. destruct ret; auto.
    rewrite is_null_sm, oget_sm by (auto; lia). simpl.
    destruct (op_isnull (sm m x y)); auto. destruct (n =? 0); auto.
    destruct (coef_eq rc _); auto.
Qed.
Lemma try_catch_col_spec : forall m y, wfo m -> y < cols m -> try_catch_col m y = Ok (common_coef (coll m y)).
Proof.
  intros m y W Hy. unfold try_catch_col, common_coef, coll.
  rewrite for_loop_fold with (g := fun st x => tcp st (sm m x y)).
  - simpl. rewrite fold_left_map. reflexivity.
  - intros x [[ret n] rc] Hx. unfold tc_step, tcp. destruct ret; auto.
    rewrite is_null_sm, oget_sm by (auto; lia). simpl.
    destruct (op_isnull (sm m x y)); auto. destruct (n =? 0); auto.
    destruct (coef_eq rc _); auto.
Qed.

(** Either the answer is 1, or every non-null element has that coefficient. *)
Definition tc_inv (l : list oprepr) (st : option coef * nat * coef) : Prop :=
  match st with
  | (Some c, _, _) => c = kId
  | (None, n, rc) =>
      (forall e, In e l -> e <> [] -> coef_eq (op_coef e) rc = true) /\
      (n = 0 -> rc = kNull /\ forall e, In e l -> e = [])
  end.

Lemma tc_fold_inv : forall l l0 st, tc_inv l0 st -> tc_inv (l0 ++ l) (fold_left tcp l st).
Proof.
  induction l as [|e t IH]; intros l0 st H; simpl.
  - rewrite app_nil_r. auto.
  - replace (l0 ++ e :: t) with ((l0 ++ [e]) ++ t) by (rewrite <- app_assoc; auto).
    apply IH. destruct st as [[[c|] n] rc]; simpl in *; auto.
    destruct H as [H1 H2]. destruct (op_isnull e) eqn:En.
    + apply op_isnull_spec in En. subst e. split.
      * intros e He Hn. apply in_app_or in He. destruct He as [He|[<-|[]]]; [auto|congruence].
      * intros Hn0. destruct (H2 Hn0) as [H3 H4]. split; auto.
        intros e He. apply in_app_or in He. destruct He as [He|[<-|[]]]; auto.
    + destruct (Nat.eqb_spec n 0).
      * simpl. split; [|intros; lia]. intros e' He Hn. apply in_app_or in He.
        destruct He as [He|[<-|[]]]; [|apply coef_eq_refl].
        destruct (H2 e0) as [_ H4]. apply H4 in He. congruence.
      * destruct (coef_eq rc (op_coef e)) eqn:Ec; simpl; auto.
        split; [|intros; lia]. intros e' He Hn. apply in_app_or in He.
        destruct He as [He|[<-|[]]]; [|apply coef_eq_refl].
        eapply coef_eq_trans; [apply H1; auto|]. auto.
Qed.

Lemma common_coef_spec : forall l, common_coef l = kId \/
  (forall e, In e l -> e <> [] -> coef_eq (op_coef e) (common_coef l) = true).
Proof.
  intros l. unfold common_coef.
  pose proof (tc_fold_inv l [] (None, 0, kNull)) as H. simpl in H.
  destruct (fold_left tcp l (None, 0, kNull)) as [[[c|] n] rc]; simpl in *.
  - left. apply H. split; [intros e []|]. intros _. split; [reflexivity|intros e []].
  - right. apply H. split; [intros e []|]. intros _. split; [reflexivity|intros e []].
Qed.

(** If every non-null element has coefficient 1 the answer is 1 or null. *)
Lemma common_coef_id : forall l, (exists e, In e l /\ e <> [] /\ op_coef e = kId) -> common_coef l = kId.
Proof.
  intros l [e [He [Hn Hc]]]. destruct (common_coef_spec l) as [H|H]; auto.
  specialize (H e He Hn). rewrite Hc in H. rewrite coef_eq_sym in H. apply coef_eq_id in H. auto.
Qed.

Definition nontriv (c : coef) : bool := negb (coef_eq c kNull) && negb (coef_eq c kId).
Definition sepd (c : coef) (e : oprepr) : oprepr := if nontriv c then snd (separate e) else e.
Definition dcoef (c : coef) : coef := if negb (coef_eq c kNull) then c else kId.

Lemma sepd_nil : forall c e, sepd c e = [] <-> e = [].
Proof. intros. unfold sepd. destruct (nontriv c); [apply separate_snd_nil|tauto]. Qed.

Lemma remove_row_coef_spec : forall m r, wfo m -> r < rows m ->
  exists m', remove_row_coef m r = Ok m' /\ wfo m' /\ rows m' = rows m /\ cols m' = cols m /\
   forall x y, x < rows m -> y < cols m -> sm m' x y = if x =? r then snd (separate (sm m x y)) else sm m x y.
Proof.
  intros m r W Hr. unfold remove_row_coef.
  destruct (for_loop_inv opmat (fun i m' => wfo m' /\ rows m' = rows m /\ cols m' = cols m /\
      forall x y, x < rows m -> y < cols m ->
        sm m' x y = if (x =? r) && (y <? i) then snd (separate (sm m x y)) else sm m x y)
    (fun y m' => let! b := is_null m' r y in
       if b then Ok m' else let! e := oget_ m' r y in oset m' r y (snd (separate e))) (cols m) 0 m)
    as [m' [H1 [H2 [H3 [H4 H5]]]]].
  - split; [exact W|]. split; auto. split; auto. intros. rewrite andb_false_r. auto.
  - intros i m' Hi [W' [Hr' [Hc' Hs]]].
    rewrite is_null_sm by (auto; lia). simpl.
    assert (Hsi : sm m' r i = sm m r i).
    { rewrite Hs by lia. destruct (Nat.ltb_spec i i); [lia|]. rewrite ?andb_false_r. auto. }
    destruct (op_isnull (sm m' r i)) eqn:En.
    + exists m'. split; auto. split; [apply W'|]. repeat split; auto.
      intros x y Hx Hy. rewrite Hs by auto.
      destruct (Nat.eqb_spec x r); simpl; auto. subst x.
      destruct (Nat.ltb_spec y i); destruct (Nat.ltb_spec y (S i)); auto; try lia.
      assert (y = i) by lia. subst y. rewrite Hsi in En. apply op_isnull_spec in En. rewrite En. reflexivity.
    + rewrite oget_sm by (auto; lia). simpl.
      destruct (oset_spec m' r i (snd (separate (sm m' r i))) W') as [m2 [G1 [G2 [G3 [G4 G5]]]]]; try lia.
      { apply op_isnull_false in En. intro. apply En. apply separate_snd_nil. auto. }
      exists m2. split; auto. split; [apply G2|]. split; [lia|]. split; [lia|].
      intros x y Hx Hy. rewrite G5 by lia. rewrite Hsi. rewrite Hs by auto.
      rewrite (Nat.eqb_sym r x).
      destruct (Nat.eqb_spec x r); simpl; auto. subst x.
      destruct (Nat.eqb_spec i y).
      * subst y. destruct (Nat.ltb_spec i (S i)); [auto|lia].
      * destruct (Nat.ltb_spec y i); destruct (Nat.ltb_spec y (S i)); auto; lia.
  - exists m'. split; auto. split; [apply H2|]. repeat split; auto.
    intros x y Hx Hy. rewrite H5 by auto. simpl.
    destruct (Nat.ltb_spec y (cols m)); [|lia]. rewrite ?andb_true_r. auto.
Qed.

Lemma remove_col_coef_spec : forall m c, wfo m -> c < cols m ->
  exists m', remove_col_coef m c = Ok m' /\ wfo m' /\ rows m' = rows m /\ cols m' = cols m /\
   forall x y, x < rows m -> y < cols m -> sm m' x y = if y =? c then snd (separate (sm m x y)) else sm m x y.
Proof.
  intros m c W Hc. unfold remove_col_coef.
  destruct (for_loop_inv opmat (fun i m' => wfo m' /\ rows m' = rows m /\ cols m' = cols m /\
      forall x y, x < rows m -> y < cols m ->
        sm m' x y = if (y =? c) && (x <? i) then snd (separate (sm m x y)) else sm m x y)
    (fun x m' => let! b := is_null m' x c in
       if b then Ok m' else let! e := oget_ m' x c in oset m' x c (snd (separate e))) (rows m) 0 m)
    as [m' [H1 [H2 [H3 [H4 H5]]]]].
  - split; [exact W|]. split; auto. split; auto. intros. rewrite andb_false_r. auto.
  - intros i m' Hi [W' [Hr' [Hc' Hs]]].
    rewrite is_null_sm by (auto; lia). simpl.
    assert (Hsi : sm m' i c = sm m i c).
    { rewrite Hs by lia. destruct (Nat.ltb_spec i i); [lia|]. rewrite ?andb_false_r. auto. }
    destruct (op_isnull (sm m' i c)) eqn:En.
    + exists m'. split; auto. split; [apply W'|]. repeat split; auto.
      intros x y Hx Hy. rewrite Hs by auto.
      destruct (Nat.eqb_spec y c); simpl; auto. subst y.
      destruct (Nat.ltb_spec x i); destruct (Nat.ltb_spec x (S i)); auto; try lia.
      assert (x = i) by lia. subst x. rewrite Hsi in En. apply op_isnull_spec in En. rewrite En. reflexivity.
    + rewrite oget_sm by (auto; lia). simpl.
      destruct (oset_spec m' i c (snd (separate (sm m' i c))) W') as [m2 [G1 [G2 [G3 [G4 G5]]]]]; try lia.
      { apply op_isnull_false in En. intro. apply En. apply separate_snd_nil. auto. }
      exists m2. split; auto. split; [apply G2|]. split; [lia|]. split; [lia|].
      intros x y Hx Hy. rewrite G5 by lia. rewrite Hsi. rewrite Hs by auto.
      rewrite (Nat.eqb_sym c y), (Nat.eqb_sym i x).
      destruct (Nat.eqb_spec y c); rewrite ?andb_false_r, ?andb_true_r; simpl; auto. subst y.
      destruct (Nat.eqb_spec x i).
      * subst x. destruct (Nat.ltb_spec i (S i)); [auto|lia].
      * destruct (Nat.ltb_spec x i); destruct (Nat.ltb_spec x (S i)); auto; lia.
  - exists m'. split; auto. split; [apply H2|]. repeat split; auto.
    intros x y Hx Hy. rewrite H5 by auto. simpl.
    destruct (Nat.ltb_spec x (rows m)); [|lia]. rewrite ?andb_true_r. auto.
Qed.

(** The separation loop. *)
Lemma map_ext_seq : forall A (f g : nat -> A) n s, (forall i, s <= i < s + n -> f i = g i) ->
  map f (seq s n) = map g (seq s n).
Proof. intros. apply map_ext_in. intros a Ha. apply in_seq in Ha. auto. Qed.

Lemma existsb_seq_S : forall f n, existsb f (seq 0 (S n)) = existsb f (seq 0 n) || f n.
Proof. intros. rewrite seq_S, existsb_app. simpl. rewrite orb_false_r. reflexivity. Qed.

Lemma sep_rows_spec : forall t1, wfo t1 ->
  exists t2 d need, for_loop 0 (rows t1) (sep_body try_catch_row remove_row_coef) (t1, mat_new (rows t1) (rows t1), false)
      = Ok (t2, d, need) /\ wfo t2 /\ rows t2 = rows t1 /\ cols t2 = cols t1 /\
    wfc d /\ rows d = rows t1 /\ cols d = rows t1 /\
    (forall x y, x < rows t1 -> y < cols t1 -> sm t2 x y = sepd (common_coef (rowl t1 x)) (sm t1 x y)) /\
    (forall x y, x < rows t1 -> y < rows t1 -> cm d x y = if x =? y then dcoef (common_coef (rowl t1 x)) else []) /\
    need = existsb (fun x => nontriv (common_coef (rowl t1 x))) (seq 0 (rows t1)).
Proof.
  intros t1 W. set (n := rows t1).
  destruct (for_loop_inv (opmat * coefmat * bool)
    (fun k s => let '(t2, d, need) := s in wfo t2 /\ rows t2 = n /\ cols t2 = cols t1 /\
       wfc d /\ rows d = n /\ cols d = n /\
       (forall x y, x < n -> y < cols t1 ->
          sm t2 x y = if x <? k then sepd (common_coef (rowl t1 x)) (sm t1 x y) else sm t1 x y) /\
       (forall x y, x < n -> y < n ->
          cm d x y = if (x <? k) && (x =? y) then dcoef (common_coef (rowl t1 x)) else []) /\
       need = existsb (fun x => nontriv (common_coef (rowl t1 x))) (seq 0 k))
    (sep_body try_catch_row remove_row_coef) n 0 (t1, mat_new n n, false))
    as [[[t2 d] need] [H1 [H2 [H3 [H4 [H5 [H6 [H7 [H8 [H9 H10]]]]]]]]]].
  - split; [exact W|]. split; auto. split; auto. split; [apply wf_new|]. split; auto. split; auto.
    split; auto. split; [|reflexivity]. intros. rewrite cm_new. reflexivity.
  - intros k [[t2 d] need] Hk [W2 [R2 [C2 [Wd [Rd [Cd [Hs [Hd Hn]]]]]]]].
    unfold sep_body. rewrite try_catch_row_spec by (auto; lia). cbn [bind].
    assert (Hrow : rowl t2 k = rowl t1 k).
    { unfold rowl. rewrite C2. apply map_ext_seq. intros i Hi. rewrite Hs by lia.
      destruct (Nat.ltb_spec k k); [lia|auto]. }
    rewrite Hrow. set (c := common_coef (rowl t1 k)) in *.
    destruct (cset_spec d k k (dcoef c) Wd) as [d' [G1 [G2 [G3 [G4 G5]]]]]; try lia.
    change (if negb (coef_eq c kNull) then c else kId) with (dcoef c). rewrite G1. cbn [bind].
    assert (Hdn : coef_isnull (dcoef c) = false).
    { unfold dcoef, coef_isnull. destruct (coef_eq c kNull) eqn:Ec; simpl; auto. }
    assert (HD : forall x y, x < n -> y < n ->
          cm d' x y = if (x <? S k) && (x =? y) then dcoef (common_coef (rowl t1 x)) else []).
    { intros x y Hx Hy. rewrite G5 by lia. rewrite Hdn. simpl.
      rewrite Hd by auto.
      destruct (Nat.eqb_spec k x); simpl.
      - subst x. destruct (Nat.eqb_spec k y); simpl.
        + destruct (Nat.ltb_spec k (S k)); [|lia]. simpl. reflexivity.
        + rewrite !andb_false_r. reflexivity.
      - destruct (Nat.ltb_spec x k); destruct (Nat.ltb_spec x (S k)); auto; lia. }
    change (negb (coef_eq c kNull) && negb (coef_eq c kId)) with (nontriv c).
    destruct (nontriv c) eqn:Ent.
    + destruct (remove_row_coef_spec t2 k W2) as [t3 [K1 [K2 [K3 [K4 K5]]]]]; [lia|].
      rewrite K1. cbn [bind]. eexists; split; [reflexivity|].
      split; [apply K2|]. split; [lia|]. split; [lia|]. split; [apply G2|]. split; [lia|]. split; [lia|].
      split; [|split]; auto.
      * intros x y Hx Hy. rewrite K5 by lia. rewrite Hs by auto.
        destruct (Nat.eqb_spec x k).
        -- subst x. destruct (Nat.ltb_spec k k); [lia|]. destruct (Nat.ltb_spec k (S k)); [|lia].
           unfold sepd. fold c. rewrite Ent. reflexivity.
        -- destruct (Nat.ltb_spec x k); destruct (Nat.ltb_spec x (S k)); auto; lia.
      * rewrite existsb_seq_S. fold c. rewrite Ent. rewrite orb_true_r. auto.
    + eexists; split; [reflexivity|].
      split; [apply W2|]. split; [lia|]. split; [lia|]. split; [apply G2|]. split; [lia|]. split; [lia|].
      split; [|split]; auto.
      * intros x y Hx Hy. rewrite Hs by auto.
        destruct (Nat.ltb_spec x k); destruct (Nat.ltb_spec x (S k)); auto; try lia.
        assert (x = k) by lia. subst x. unfold sepd. fold c. rewrite Ent. reflexivity.
      * rewrite existsb_seq_S. fold c. rewrite Ent. rewrite orb_false_r. auto.
  - exists t2, d, need. split; [exact H1|]. repeat (split; [assumption|]).
    split; [|split]; auto.
    + intros x y Hx Hy. rewrite H8 by auto. simpl. destruct (Nat.ltb_spec x n); [auto|lia].
    + intros x y Hx Hy. rewrite H9 by auto. simpl. destruct (Nat.ltb_spec x n); [auto|lia].
Qed.

Lemma sep_cols_spec : forall t1, wfo t1 ->
  exists t2 d need, for_loop 0 (cols t1) (sep_body try_catch_col remove_col_coef) (t1, mat_new (cols t1) (cols t1), false)
      = Ok (t2, d, need) /\ wfo t2 /\ rows t2 = rows t1 /\ cols t2 = cols t1 /\
    wfc d /\ rows d = cols t1 /\ cols d = cols t1 /\
    (forall x y, x < rows t1 -> y < cols t1 -> sm t2 x y = sepd (common_coef (coll t1 y)) (sm t1 x y)) /\
    (forall x y, x < cols t1 -> y < cols t1 -> cm d x y = if x =? y then dcoef (common_coef (coll t1 x)) else []) /\
    need = existsb (fun y => nontriv (common_coef (coll t1 y))) (seq 0 (cols t1)).
Proof.
  intros t1 W. set (n := cols t1).
  destruct (for_loop_inv (opmat * coefmat * bool)
    (fun k s => let '(t2, d, need) := s in wfo t2 /\ rows t2 = rows t1 /\ cols t2 = n /\
       wfc d /\ rows d = n /\ cols d = n /\
       (forall x y, x < rows t1 -> y < n ->
          sm t2 x y = if y <? k then sepd (common_coef (coll t1 y)) (sm t1 x y) else sm t1 x y) /\
       (forall x y, x < n -> y < n ->
          cm d x y = if (x <? k) && (x =? y) then dcoef (common_coef (coll t1 x)) else []) /\
       need = existsb (fun x => nontriv (common_coef (coll t1 x))) (seq 0 k))
    (sep_body try_catch_col remove_col_coef) n 0 (t1, mat_new n n, false))
    as [[[t2 d] need] [H1 [H2 [H3 [H4 [H5 [H6 [H7 [H8 [H9 H10]]]]]]]]]].
  - split; [exact W|]. split; auto. split; auto. split; [apply wf_new|]. split; auto. split; auto.
    split; auto. split; [|reflexivity]. intros. rewrite cm_new. reflexivity.
  - intros k [[t2 d] need] Hk [W2 [R2 [C2 [Wd [Rd [Cd [Hs [Hd Hn]]]]]]]].
    unfold sep_body. rewrite try_catch_col_spec by (auto; lia). cbn [bind].
    assert (Hcol : coll t2 k = coll t1 k).
    { unfold coll. rewrite R2. apply map_ext_seq. intros i Hi. rewrite Hs by lia.
      destruct (Nat.ltb_spec k k); [lia|auto]. }
    rewrite Hcol. set (c := common_coef (coll t1 k)) in *.
    destruct (cset_spec d k k (dcoef c) Wd) as [d' [G1 [G2 [G3 [G4 G5]]]]]; try lia.
    change (if negb (coef_eq c kNull) then c else kId) with (dcoef c). rewrite G1. cbn [bind].
    assert (Hdn : coef_isnull (dcoef c) = false).
    { unfold dcoef, coef_isnull. destruct (coef_eq c kNull) eqn:Ec; simpl; auto. }
    assert (HD : forall x y, x < n -> y < n ->
          cm d' x y = if (x <? S k) && (x =? y) then dcoef (common_coef (coll t1 x)) else []).
    { intros x y Hx Hy. rewrite G5 by lia. rewrite Hdn. simpl.
      rewrite Hd by auto.
      destruct (Nat.eqb_spec k x); simpl.
      - subst x. destruct (Nat.eqb_spec k y); simpl.
        + destruct (Nat.ltb_spec k (S k)); [|lia]. simpl. reflexivity.
        + rewrite !andb_false_r. reflexivity.
      - destruct (Nat.ltb_spec x k); destruct (Nat.ltb_spec x (S k)); auto; lia. }
    change (negb (coef_eq c kNull) && negb (coef_eq c kId)) with (nontriv c).
    destruct (nontriv c) eqn:Ent.
    + destruct (remove_col_coef_spec t2 k W2) as [t3 [K1 [K2 [K3 [K4 K5]]]]]; [lia|].
      rewrite K1. cbn [bind]. eexists; split; [reflexivity|].
      split; [apply K2|]. split; [lia|]. split; [lia|]. split; [apply G2|]. split; [lia|]. split; [lia|].
      split; [|split]; auto.
      * intros x y Hx Hy. rewrite K5 by lia. rewrite Hs by auto.
        destruct (Nat.eqb_spec y k).
        -- subst y. destruct (Nat.ltb_spec k k); [lia|]. destruct (Nat.ltb_spec k (S k)); [|lia].
           unfold sepd. fold c. rewrite Ent. reflexivity.
        -- destruct (Nat.ltb_spec y k); destruct (Nat.ltb_spec y (S k)); auto; lia.
      * rewrite existsb_seq_S. fold c. rewrite Ent. rewrite orb_true_r. auto.
    + eexists; split; [reflexivity|].
      split; [apply W2|]. split; [lia|]. split; [lia|]. split; [apply G2|]. split; [lia|]. split; [lia|].
      split; [|split]; auto.
      * intros x y Hx Hy. rewrite Hs by auto.
        destruct (Nat.ltb_spec y k); destruct (Nat.ltb_spec y (S k)); auto; try lia.
        assert (y = k) by lia. subst y. unfold sepd. fold c. rewrite Ent. reflexivity.
      * rewrite existsb_seq_S. fold c. rewrite Ent. rewrite orb_false_r. auto.
  - exists t2, d, need. split; [exact H1|]. repeat (split; [assumption|]).
    split; [|split]; auto.
    + intros x y Hx Hy. rewrite H8 by auto. simpl. destruct (Nat.ltb_spec y n); [auto|lia].
    + intros x y Hx Hy. rewrite H9 by auto. simpl. destruct (Nat.ltb_spec x n); [auto|lia].
Qed.

(** *** Products *)
Definition pm (c : coef) (o : oprepr) : oprepr :=
  if coef_isnull c then [] else if coef_eq c kId then o else set_coefs c o.
Definition psum (n : nat) (f : nat -> oprepr) : oprepr :=
  fold_left (fun acc i => op_add acc (f i)) (seq 0 n) [].
Definition mulok (c : coef) (o : oprepr) : Prop := c = kId \/ all_id o = true.

Lemma pm_nil_r : forall c, pm c [] = [].
Proof. intros. unfold pm. destruct (coef_isnull c); auto. destruct (coef_eq c kId); auto. Qed.
Lemma pm_null : forall o, pm [] o = [].
Proof. reflexivity. Qed.
Lemma pm_id : forall o, pm kId o = o.
Proof. reflexivity. Qed.
Lemma pm_nil : forall c o, pm c o = [] <-> c = [] \/ o = [].
Proof.
  intros. unfold pm. destruct (coef_isnull c) eqn:E.
  - apply coef_isnull_spec in E. tauto.
  - apply coef_isnull_false in E. destruct (coef_eq c kId); [tauto|]. rewrite set_coefs_nil. tauto.
Qed.

Lemma incomplete_multi_ok : forall dbg c o, c <> [] -> (dbg = true -> mulok c o) ->
  incomplete_multi dbg c o = Ok (pm c o).
Proof.
  intros dbg c o Hc H. unfold incomplete_multi, pm.
  replace (coef_isnull c) with false by (symmetry; apply coef_isnull_false; auto).
  destruct (op_isnull o) eqn:Eo.
  - apply op_isnull_spec in Eo. subst o. destruct (coef_eq c kId); auto.
  - destruct (coef_eq c kId) eqn:Ec; auto.
    destruct dbg; simpl; auto. destruct (H eq_refl) as [->|Ha].
    + rewrite coef_eq_refl in Ec. discriminate.
    + unfold all_id in Ha. rewrite Ha. reflexivity.
Qed.

Lemma incomplete_multi_inv : forall c o r, incomplete_multi true c o = Ok r -> mulok c o.
Proof.
  intros c o r H. unfold incomplete_multi in H. unfold mulok.
  destruct (op_isnull o) eqn:Eo; [apply op_isnull_spec in Eo; subst; auto|].
  destruct (coef_eq c kId) eqn:Ec; [left; apply coef_eq_id; auto|].
  simpl in H. fold (all_id o) in H. destruct (all_id o); auto. discriminate.
Qed.

(** A summing loop succeeds when every step does; and if it succeeds, all steps did. *)
Lemma for_loop_all_ok : forall S (body : nat -> S -> res S) n s st st',
  for_loop s n body st = Ok st' ->
  forall i, s <= i < s + n -> exists x y, body i x = Ok y.
Proof.
  intros S body. induction n; intros s st st' H i Hi; [lia|].
  simpl in H. inv_bind H. destruct (Nat.eq_dec i s); [subst; eauto|]. eapply IHn; eauto. lia.
Qed.

Lemma psum_0 : forall f, psum 0 f = [].
Proof. reflexivity. Qed.
Lemma psum_S : forall n f, psum (S n) f = op_add (psum n f) (f n).
Proof. intros. unfold psum. rewrite seq_S, fold_left_app. reflexivity. Qed.
Lemma psum_ext : forall n f g, (forall i, i < n -> f i = g i) -> psum n f = psum n g.
Proof. induction n; intros; [reflexivity|]. rewrite !psum_S, H, (IHn f g); auto. Qed.
Lemma psum_nil : forall n f, psum n f = [] <-> forall i, i < n -> f i = [].
Proof.
  induction n; intros f.
  - split; auto. intros _ i Hi. lia.
  - rewrite psum_S, op_add_nil, IHn. split.
    + intros [H1 H2] i Hi. destruct (Nat.eq_dec i n); subst; auto. apply H1. lia.
    + intros H. split; auto.
Qed.
(** Only one summand is not null. *)
Lemma psum_single : forall n f k, k < n -> (forall i, i < n -> i <> k -> f i = []) -> sorted_keys 0 (f k) ->
  psum n f = f k.
Proof.
  induction n; intros f k Hk H Hs; [lia|]. rewrite psum_S.
  destruct (Nat.eq_dec k n).
  - subst k. replace (psum n f) with (@nil (nat * coef)).
    + apply op_add_nil_l. auto.
    + symmetry. apply psum_nil. intros. apply H; lia.
  - rewrite (H n) by lia. rewrite op_add_nil_r. apply IHn; auto; lia.
Qed.
Lemma psum_sorted : forall n f, (forall i, i < n -> sorted_keys 0 (f i)) -> sorted_keys 0 (psum n f).
Proof.
  induction n; intros f H; [exact I|]. rewrite psum_S. apply op_add_sorted; auto.
Qed.
Lemma psum_pad : forall n m f, n <= m -> (forall i, n <= i < m -> f i = []) -> psum m f = psum n f.
Proof.
  induction m; intros f Hnm H.
  - replace n with 0 by lia. reflexivity.
  - destruct (Nat.eq_dec n (S m)); [subst; auto|]. rewrite psum_S, (H m) by lia.
    rewrite op_add_nil_r. apply IHm; [lia|]. intros. apply H. lia.
Qed.

Lemma coef_op_elem_ok : forall dbg a b x y, wfc a -> wfo b -> cols a = rows b -> x < rows a -> y < cols b ->
  (dbg = true -> forall i, i < cols a -> cm a x i <> [] -> mulok (cm a x i) (sm b i y)) ->
  coef_op_elem dbg a b x y = Ok (psum (cols a) (fun i => pm (cm a x i) (sm b i y))).
Proof.
  intros dbg a b x y Wa Wb Hd Hx Hy Hok. unfold coef_op_elem, psum.
  rewrite for_loop_fold with (g := fun acc i => op_add acc (pm (cm a x i) (sm b i y))); auto.
  intros i acc Hi. rewrite is_null_cm, is_null_sm by (auto; lia). simpl.
  destruct (coef_isnull (cm a x i)) eqn:E1; simpl.
  - apply coef_isnull_spec in E1. rewrite E1. reflexivity.
  - apply coef_isnull_false in E1. destruct (op_isnull (sm b i y)) eqn:E2.
    + apply op_isnull_spec in E2. rewrite E2, pm_nil_r. reflexivity.
    + rewrite cget_cm, oget_sm by (auto; lia). simpl.
      rewrite incomplete_multi_ok; auto. intros. apply Hok; auto. lia.
Qed.

Lemma coef_op_elem_inv : forall a b x y r, wfc a -> wfo b -> cols a = rows b -> x < rows a -> y < cols b ->
  coef_op_elem true a b x y = Ok r ->
  forall i, i < cols a -> cm a x i <> [] -> mulok (cm a x i) (sm b i y).
Proof.
  intros a b x y r Wa Wb Hd Hx Hy H i Hi Hn. unfold coef_op_elem in H.
  destruct (for_loop_all_ok _ _ _ _ _ _ H i) as [acc [acc' Hs]]; [lia|].
  rewrite is_null_cm, is_null_sm in Hs by (auto; lia). simpl in Hs.
  replace (coef_isnull (cm a x i)) with false in Hs by (symmetry; apply coef_isnull_false; auto).
  simpl in Hs. destruct (op_isnull (sm b i y)) eqn:E2.
  - apply op_isnull_spec in E2. rewrite E2. right. reflexivity.
  - rewrite cget_cm, oget_sm in Hs by (auto; lia). simpl in Hs. inv_bind Hs.
    eapply incomplete_multi_inv; eauto.
Qed.

Lemma op_coef_elem_ok : forall dbg a b x y, wfo a -> wfc b -> cols a = rows b -> x < rows a -> y < cols b ->
  (dbg = true -> forall i, i < cols a -> cm b i y <> [] -> mulok (cm b i y) (sm a x i)) ->
  op_coef_elem dbg a b x y = Ok (psum (cols a) (fun i => pm (cm b i y) (sm a x i))).
Proof.
  intros dbg a b x y Wa Wb Hd Hx Hy Hok. unfold op_coef_elem, psum.
  rewrite for_loop_fold with (g := fun acc i => op_add acc (pm (cm b i y) (sm a x i))); auto.
  intros i acc Hi. rewrite is_null_sm by (auto; lia). simpl.
  destruct (op_isnull (sm a x i)) eqn:E2.
  - apply op_isnull_spec in E2. rewrite E2, pm_nil_r. reflexivity.
  - rewrite is_null_cm by (auto; lia). simpl.
    destruct (coef_isnull (cm b i y)) eqn:E1; simpl.
    + apply coef_isnull_spec in E1. rewrite E1. reflexivity.
    + apply coef_isnull_false in E1. rewrite cget_cm, oget_sm by (auto; lia). simpl.
      rewrite incomplete_multi_ok; auto. intros. apply Hok; auto. lia.
Qed.

Lemma op_coef_elem_inv : forall a b x y r, wfo a -> wfc b -> cols a = rows b -> x < rows a -> y < cols b ->
  op_coef_elem true a b x y = Ok r ->
  forall i, i < cols a -> cm b i y <> [] -> mulok (cm b i y) (sm a x i).
Proof.
  intros a b x y r Wa Wb Hd Hx Hy H i Hi Hn. unfold op_coef_elem in H.
  destruct (for_loop_all_ok _ _ _ _ _ _ H i) as [acc [acc' Hs]]; [lia|].
  rewrite is_null_sm in Hs by (auto; lia). simpl in Hs.
  destruct (op_isnull (sm a x i)) eqn:E2.
  - apply op_isnull_spec in E2. rewrite E2. right. reflexivity.
  - rewrite is_null_cm in Hs by (auto; lia). simpl in Hs.
    replace (coef_isnull (cm b i y)) with false in Hs by (symmetry; apply coef_isnull_false; auto).
    rewrite cget_cm, oget_sm in Hs by (auto; lia). simpl in Hs. inv_bind Hs.
    eapply incomplete_multi_inv; eauto.
Qed.

(** Filling a result matrix element by element. *)
Lemma fill_spec : forall R C (elem : nat -> nat -> res oprepr) (g : nat -> nat -> oprepr),
  (forall x y, x < R -> y < C -> elem x y = Ok (g x y)) ->
  exists m, for_loop 0 R (fun x m => for_loop 0 C (fun y m' =>
      let! e := elem x y in if op_isnull e then Ok m' else oset m' x y e) m) (mat_new R C) = Ok m /\
    wfo m /\ rows m = R /\ cols m = C /\ forall x y, x < R -> y < C -> sm m x y = g x y.
Proof.
  intros R C elem g He.
  destruct (for_loop_inv opmat (fun i m => wfo m /\ rows m = R /\ cols m = C /\
     forall x y, x < R -> y < C -> sm m x y = if x <? i then g x y else [])
    (fun x m => for_loop 0 C (fun y m' =>
      let! e := elem x y in if op_isnull e then Ok m' else oset m' x y e) m) R 0 (mat_new R C))
    as [m [H1 [H2 [H3 [H4 H5]]]]].
  - split; [apply wf_new|]. split; auto. split; auto. intros. rewrite sm_new. reflexivity.
  - intros i m Hi [W [Hr [Hc Hs]]].
    destruct (for_loop_inv opmat (fun j m => wfo m /\ rows m = R /\ cols m = C /\
      forall x y, x < R -> y < C -> sm m x y =
         if x <? i then g x y else if (x =? i) && (y <? j) then g x y else [])
      (fun y m' => let! e := elem i y in if op_isnull e then Ok m' else oset m' i y e) C 0 m)
      as [m' [G1 [G2 [G3 [G4 G5]]]]].
    + split; [apply W|]. split; auto. split; auto. intros. rewrite Hs by auto.
      rewrite andb_false_r. destruct (x <? i); auto.
    + intros j m' Hj [W' [Hr' [Hc' Hs']]]. rewrite He by lia. simpl.
      destruct (op_isnull (g i j)) eqn:En.
      * exists m'. split; auto. split; [apply W'|]. split; auto. split; auto.
        intros x y Hx Hy. rewrite Hs' by auto. destruct (x <? i); auto.
        destruct (Nat.eqb_spec x i); simpl; auto. subst x.
        destruct (Nat.ltb_spec y j); destruct (Nat.ltb_spec y (S j)); auto; try lia.
        assert (y = j) by lia. subst y. apply op_isnull_spec in En. auto.
      * destruct (oset_spec m' i j (g i j) W') as [m2 [K1 [K2 [K3 [K4 K5]]]]]; try lia.
        { apply op_isnull_false. auto. }
        exists m2. split; auto. split; [apply K2|]. split; [lia|]. split; [lia|].
        intros x y Hx Hy. rewrite K5 by lia. rewrite Hs' by auto.
        rewrite (Nat.eqb_sym i x), (Nat.eqb_sym j y).
        destruct (Nat.eqb_spec x i); simpl; auto. subst x.
        destruct (Nat.ltb_spec i i); [lia|].
        destruct (Nat.eqb_spec y j).
        -- subst y. destruct (Nat.ltb_spec j (S j)); [auto|lia].
        -- destruct (Nat.ltb_spec y j); destruct (Nat.ltb_spec y (S j)); auto; lia.
    + exists m'. split; auto. split; [apply G2|]. split; auto. split; auto.
      intros x y Hx Hy. rewrite G5 by auto. simpl. destruct (Nat.ltb_spec y C); [|lia].
      rewrite andb_true_r. destruct (Nat.ltb_spec x i); destruct (Nat.ltb_spec x (S i)); auto; try lia.
      * destruct (Nat.eqb_spec x i); auto; lia.
      * destruct (Nat.eqb_spec x i); auto; lia.
  - exists m. split; auto. split; [apply H2|]. split; auto. split; auto.
    intros x y Hx Hy. rewrite H5 by auto. simpl. destruct (Nat.ltb_spec x R); [auto|lia].
Qed.

Definition mul_ok (n : nat) (R C : nat) (c : nat -> nat -> coef) (o : nat -> nat -> oprepr) : Prop :=
  forall x i y, x < R -> i < n -> y < C -> c x i <> [] -> mulok (c x i) (o i y).

Lemma coef_op_mul_ok : forall dbg a b, wfc a -> wfo b -> cols a = rows b ->
  (dbg = true -> mul_ok (cols a) (rows a) (cols b) (cm a) (sm b)) ->
  exists m, coef_op_mul dbg a b = Ok m /\ wfo m /\ rows m = rows a /\ cols m = cols b /\
    forall x y, x < rows a -> y < cols b ->
      sm m x y = psum (cols a) (fun i => pm (cm a x i) (sm b i y)).
Proof.
  intros dbg a b Wa Wb Hd Hok. unfold coef_op_mul. rewrite Hd, Nat.eqb_refl, assert_true. simpl.
  destruct (fill_spec (rows a) (cols b) (coef_op_elem dbg a b)
    (fun x y => psum (cols a) (fun i => pm (cm a x i) (sm b i y)))) as [m [H1 [H2 [H3 [H4 H5]]]]].
  - intros. apply coef_op_elem_ok; auto. intros Hdb i Hi Hn. apply Hok; auto.
  - exists m. split; [rewrite <- ?Hd; exact H1|]. split; [exact H2|]. rewrite <- ?Hd. auto.
Qed.

Lemma op_coef_mul_ok : forall dbg a b, wfo a -> wfc b -> cols a = rows b ->
  (dbg = true -> forall x i y, x < rows a -> i < cols a -> y < cols b -> cm b i y <> [] -> mulok (cm b i y) (sm a x i)) ->
  exists m, op_coef_mul dbg a b = Ok m /\ wfo m /\ rows m = rows a /\ cols m = cols b /\
    forall x y, x < rows a -> y < cols b ->
      sm m x y = psum (cols a) (fun i => pm (cm b i y) (sm a x i)).
Proof.
  intros dbg a b Wa Wb Hd Hok. unfold op_coef_mul. rewrite Hd, Nat.eqb_refl, assert_true. simpl.
  destruct (fill_spec (rows a) (cols b) (op_coef_elem dbg a b)
    (fun x y => psum (cols a) (fun i => pm (cm b i y) (sm a x i)))) as [m [H1 [H2 [H3 [H4 H5]]]]].
  - intros. apply op_coef_elem_ok; auto.
  - exists m. split; [rewrite <- ?Hd; exact H1|]. split; [exact H2|]. rewrite <- ?Hd. auto.
Qed.

Lemma coef_op_mul_inv : forall a b m, wfc a -> wfo b -> cols a = rows b ->
  coef_op_mul true a b = Ok m -> mul_ok (cols a) (rows a) (cols b) (cm a) (sm b).
Proof.
  intros a b m Wa Wb Hd H x i y Hx Hi Hy Hn. unfold coef_op_mul in H. inv_bind H.
  destruct (for_loop_all_ok _ _ _ _ _ _ H x) as [s1 [s2 Hs]]; [lia|].
  destruct (for_loop_all_ok _ _ _ _ _ _ Hs y) as [s3 [s4 Hs']]; [lia|].
  inv_bind Hs'. eapply coef_op_elem_inv; eauto.
Qed.

Lemma op_coef_mul_inv : forall a b m, wfo a -> wfc b -> cols a = rows b ->
  op_coef_mul true a b = Ok m ->
  forall x i y, x < rows a -> i < cols a -> y < cols b -> cm b i y <> [] -> mulok (cm b i y) (sm a x i).
Proof.
  intros a b m Wa Wb Hd H x i y Hx Hi Hy Hn. unfold op_coef_mul in H. inv_bind H.
  destruct (for_loop_all_ok _ _ _ _ _ _ H x) as [s1 [s2 Hs]]; [lia|].
  destruct (for_loop_all_ok _ _ _ _ _ _ Hs y) as [s3 [s4 Hs']]; [lia|].
  inv_bind Hs'. eapply op_coef_elem_inv; eauto.
Qed.
