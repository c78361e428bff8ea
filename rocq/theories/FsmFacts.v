(** Closed form of the FSM built by a history of AddPath calls, and of its matrices. *)
From Coq Require Import List Arith Lia Bool Permutation.
From Verif Require Import Base SparMat SparMatFacts CoefOp CoefOpAlg CoefOpFacts Compress Fsm Progress.
Import ListNotations.

(** One AddPath call: the operators [t_ops] act on sites [t_head .. t_tail]. *)
Record term := mkTerm { t_head : nat; t_tail : nat; t_ops : list oprepr }.

Definition build (dbg : bool) (n : nat) (ids : list oprepr) (ts : list term) : res fsm :=
  for_each ts (fun t f => add_path dbg f (t_head t) (t_tail t) (t_ops t)) (fsm_new n ids).

(** What AddTerm of the generator guarantees about its AddPath call. *)
Definition wfterm (n : nat) (t : term) : Prop :=
  t_head t <= t_tail t /\ t_tail t < n /\ length (t_ops t) = t_tail t - t_head t + 1.

Lemma upd_map_seq : forall A (f : nat -> A) m i v, i < m ->
  upd (map f (seq 0 m)) i v = map (fun j => if j =? i then v else f j) (seq 0 m).
Proof.
  intros A f m i v Hi. apply nth_error_ext. intros j. rewrite nth_error_upd, map_length, seq_length.
  destruct (Nat.lt_ge_cases j m) as [Hj|Hj].
  - rewrite !nth_error_map_seq by auto. rewrite (proj2 (Nat.ltb_lt i m) Hi), andb_true_r, Nat.eqb_sym.
    destruct (j =? i); reflexivity.
  - destruct (Nat.eqb_spec i j); [lia|]. simpl.
    assert (L : forall (g : nat -> A), nth_error (map g (seq 0 m)) j = None) by (intros; apply nth_error_None; rewrite map_length, seq_length; lia).
    rewrite !L. reflexivity.
Qed.
Lemma vset_map_seq : forall A (f : nat -> A) m i v, i < m ->
  vset (map f (seq 0 m)) i v = Ok (map (fun j => if j =? i then v else f j) (seq 0 m)).
Proof. intros. rewrite vset_ok by (rewrite map_length, seq_length; auto). rewrite upd_map_seq; auto. Qed.
Lemma map_seq_ext : forall A (f g : nat -> A) m, (forall i, i < m -> f i = g i) -> map f (seq 0 m) = map g (seq 0 m).
Proof. intros A f g m H. apply map_ext_in. intros i Hi. apply in_seq in Hi. apply H. lia. Qed.
Lemma map_seq_snoc : forall A (f : nat -> A) m, map f (seq 0 m) ++ [f m] = map f (seq 0 (S m)).
Proof. intros. rewrite seq_S, map_app. reflexivity. Qed.

(** *** Counters of the FSM *)
Definition ismid (t : term) (b : nat) : bool := (t_head t <? b) && (b <=? t_tail t).
Definition midc (ts : list term) (b : nat) : nat := length (filter (fun t => ismid t b) ts).
Definition hasr (ts : list term) (b : nat) : bool := existsb (fun t => b <=? t_head t) ts.
Definition hasf (ts : list term) (b : nat) : bool := existsb (fun t => t_tail t <? b) ts.
Definition node (prev : list term) (t : term) (b : nat) : stat :=
  if b <=? t_head t then Ready else if t_tail t <? b then Final else Mid (S (midc prev b)).
Definition opat (ids : list oprepr) (t : term) (i : nat) : oprepr :=
  if (i <? t_head t) || (t_tail t <? i) then nth i ids [] else nth (i - t_head t) (t_ops t) [].

Definition mkpath (n : nat) (ids : list oprepr) (prev : list term) (t : term) : path :=
  mkPath (map (node prev t) (seq 0 (n + 1))) (map (opat ids t) (seq 0 n)).
Fixpoint paths_from (n : nat) (ids : list oprepr) (prev ts : list term) : list path :=
  match ts with
  | [] => []
  | t :: r => mkpath n ids prev t :: paths_from n ids (prev ++ [t]) r
  end.
Definition fsm_of (n : nat) (ids : list oprepr) (ts : list term) : fsm :=
  mkFsm n (map (midc ts) (seq 0 (n + 1))) (map (hasr ts) (seq 0 (n + 1))) (map (hasf ts) (seq 0 (n + 1)))
    (paths_from n ids [] ts) ids.

Lemma midc_snoc : forall ts t b, midc (ts ++ [t]) b = midc ts b + (if ismid t b then 1 else 0).
Proof. intros. unfold midc. rewrite filter_app, app_length. simpl. destruct (ismid t b); reflexivity. Qed.
Lemma hasr_snoc : forall ts t b, hasr (ts ++ [t]) b = hasr ts b || (b <=? t_head t).
Proof. intros. unfold hasr. rewrite existsb_app. simpl. rewrite orb_false_r. reflexivity. Qed.
Lemma hasf_snoc : forall ts t b, hasf (ts ++ [t]) b = hasf ts b || (t_tail t <? b).
Proof. intros. unfold hasf. rewrite existsb_app. simpl. rewrite orb_false_r. reflexivity. Qed.
Lemma paths_from_snoc : forall n ids ts prev t, paths_from n ids prev (ts ++ [t]) =
  paths_from n ids prev ts ++ [mkpath n ids (prev ++ ts) t].
Proof.
  induction ts as [|a r IH]; intros prev t; simpl.
  - rewrite app_nil_r. reflexivity.
  - rewrite IH, <- app_assoc. reflexivity.
Qed.

Lemma nth_vget : forall A (l : list A) d i, i < length l -> vget l i = Ok (nth i l d).
Proof. intros A l d i H. unfold vget. rewrite (nth_error_nth' l d) by auto. reflexivity. Qed.

Lemma add_path_spec : forall dbg n ids ts t, length ids = n -> wfterm n t ->
  add_path dbg (fsm_of n ids ts) (t_head t) (t_tail t) (t_ops t) = Ok (fsm_of n ids (ts ++ [t])).
Proof.
  intros dbg n ids ts t HI [H1 [H2 H3]]. unfold add_path.
  rewrite (proj2 (Nat.eqb_eq (t_head t + length (t_ops t)) (t_tail t + 1))) by lia.
  rewrite assert_true. cbn [bind]. cbn [fsm_of f_n f_ready f_mid f_final f_paths f_id].
  rewrite (for_loop_build2 _ _ (opat ids t)).
  2:{ intros i acc Hi. unfold opat. destruct ((i <? t_head t) || (t_tail t <? i)) eqn:E.
      - rewrite (nth_vget _ ids []) by lia. reflexivity.
      - apply orb_false_iff in E. destruct E as [E1 E2]. apply Nat.ltb_ge in E1. apply Nat.ltb_ge in E2.
        rewrite (nth_vget _ (t_ops t) []) by lia. reflexivity. }
  cbn [bind app]. rewrite vset_map_seq by lia. cbn [bind].
  destruct (for_loop_inv _ (fun i st => st = (map (node ts t) (seq 0 (i + 1)),
      map (fun b => midc ts b + (if (b <=? i) && ismid t b then 1 else 0)) (seq 0 (n + 1)),
      map (fun b => hasr ts b || ((b <=? i) && (b <=? t_head t))) (seq 0 (n + 1)),
      map (fun b => hasf ts b || ((b <=? i) && (t_tail t <? b))) (seq 0 (n + 1))))
      (add_node (t_head t) (t_tail t)) n 0
      ([Ready], map (midc ts) (seq 0 (n + 1)), map (fun j => if j =? 0 then true else hasr ts j) (seq 0 (n + 1)),
       map (hasf ts) (seq 0 (n + 1)))) as [st [E1 E2]].
  - f_equal; [f_equal; [f_equal|]|].
    + apply map_seq_ext. intros b Hb. destruct b; simpl; lia.
    + apply map_seq_ext. intros b Hb. destruct b; simpl; [rewrite orb_true_r; reflexivity|rewrite orb_false_r; reflexivity].
    + apply map_seq_ext. intros b Hb. destruct b; simpl; [destruct (hasf ts 0); reflexivity|rewrite orb_false_r; reflexivity].
  - intros i st Hi ->. unfold add_node.
    replace (S i + 1) with (S (i + 1)) by lia. rewrite <- (map_seq_snoc _ (node ts t) (i + 1)).
    replace (i + 1) with (S i) by lia.
    destruct (Nat.ltb_spec i (t_head t)) as [L1|L1].
    + rewrite vset_map_seq by lia. cbn [bind]. eexists. split; [reflexivity|].
      replace (node ts t (S i)) with Ready by (unfold node; rewrite (proj2 (Nat.leb_le (S i) (t_head t))) by lia; reflexivity).
      f_equal; [f_equal; [f_equal|]|].
      * apply map_seq_ext. intros b Hb. f_equal. unfold ismid.
        destruct (Nat.leb_spec b i), (Nat.leb_spec b (S i)), (Nat.ltb_spec (t_head t) b); try reflexivity; lia.
      * apply map_seq_ext. intros b Hb. 
        destruct (Nat.eqb_spec b (S i)); subst; [rewrite (proj2 (Nat.leb_le (S i) (t_head t))) by lia; rewrite Nat.leb_refl, orb_true_r; reflexivity|].
        destruct (Nat.leb_spec b i), (Nat.leb_spec b (S i)); try reflexivity; lia.
      * apply map_seq_ext. intros b Hb. f_equal.
        destruct (Nat.leb_spec b i), (Nat.leb_spec b (S i)), (Nat.ltb_spec (t_tail t) b); try reflexivity; lia.
    + destruct (Nat.leb_spec (t_tail t) i) as [L2|L2].
      * rewrite vset_map_seq by lia. cbn [bind]. eexists. split; [reflexivity|].
        replace (node ts t (S i)) with Final by (unfold node; rewrite (proj2 (Nat.leb_gt (S i) (t_head t))), (proj2 (Nat.ltb_lt (t_tail t) (S i))) by lia; reflexivity).
        f_equal; [f_equal; [f_equal|]|].
        -- apply map_seq_ext. intros b Hb. f_equal. unfold ismid.
           destruct (Nat.leb_spec b i), (Nat.leb_spec b (S i)), (Nat.leb_spec b (t_tail t)); rewrite ?andb_false_r; try reflexivity; lia.
        -- apply map_seq_ext. intros b Hb. f_equal.
           destruct (Nat.leb_spec b i), (Nat.leb_spec b (S i)), (Nat.leb_spec b (t_head t)); try reflexivity; lia.
        -- apply map_seq_ext. intros b Hb. 
           destruct (Nat.eqb_spec b (S i)); subst; [rewrite (proj2 (Nat.ltb_lt (t_tail t) (S i))) by lia; rewrite Nat.leb_refl, orb_true_r; reflexivity|].
           destruct (Nat.leb_spec b i), (Nat.leb_spec b (S i)); try reflexivity; lia.
      * rewrite vget_map_seq by lia. cbn [bind]. rewrite vset_map_seq by lia. cbn [bind].
        eexists. split; [reflexivity|].
        replace (node ts t (S i)) with (Mid (S (midc ts (S i)))) by (unfold node; rewrite (proj2 (Nat.leb_gt (S i) (t_head t))), (proj2 (Nat.ltb_ge (t_tail t) (S i))) by lia; reflexivity).
        rewrite (proj2 (Nat.leb_gt (S i) i)) by lia. cbn [andb]. rewrite Nat.add_0_r.
        f_equal; [f_equal; [f_equal|]|].
        -- apply map_seq_ext. intros b Hb. destruct (Nat.eqb_spec b (S i)); subst.
           ++ rewrite Nat.leb_refl. unfold ismid. rewrite (proj2 (Nat.ltb_lt (t_head t) (S i))), (proj2 (Nat.leb_le (S i) (t_tail t))) by lia.
              simpl. lia.
           ++ destruct (Nat.leb_spec b i), (Nat.leb_spec b (S i)); try reflexivity; lia.
        -- apply map_seq_ext. intros b Hb. f_equal.
           destruct (Nat.leb_spec b i), (Nat.leb_spec b (S i)), (Nat.leb_spec b (t_head t)); try reflexivity; lia.
        -- apply map_seq_ext. intros b Hb. f_equal.
           destruct (Nat.leb_spec b i), (Nat.leb_spec b (S i)), (Nat.ltb_spec (t_tail t) b); try reflexivity; lia.
  - rewrite E1, E2. cbn [bind]. unfold fsm_of. simpl plus. f_equal. f_equal.
    + apply map_seq_ext. intros b Hb. rewrite midc_snoc. rewrite (proj2 (Nat.leb_le b n)) by lia. reflexivity.
    + apply map_seq_ext. intros b Hb. rewrite hasr_snoc. rewrite (proj2 (Nat.leb_le b n)) by lia. reflexivity.
    + apply map_seq_ext. intros b Hb. rewrite hasf_snoc. rewrite (proj2 (Nat.leb_le b n)) by lia. reflexivity.
    + rewrite paths_from_snoc. simpl. reflexivity.
Qed.

Lemma fsm_of_nil : forall n ids, fsm_of n ids [] = fsm_new n ids.
Proof.
  intros. unfold fsm_of, fsm_new. f_equal.
  - rewrite (repeat_map_seq _ 0 (n + 1) 0). reflexivity.
  - rewrite (repeat_map_seq _ false (n + 1) 0). reflexivity.
  - rewrite (repeat_map_seq _ false (n + 1) 0). reflexivity.
Qed.

Lemma build_spec : forall dbg n ids ts, length ids = n -> Forall (wfterm n) ts ->
  build dbg n ids ts = Ok (fsm_of n ids ts).
Proof.
  intros dbg n ids ts HI HW. unfold build.
  assert (G : forall ts prev, Forall (wfterm n) ts -> 
    for_each ts (fun t f => add_path dbg f (t_head t) (t_tail t) (t_ops t)) (fsm_of n ids prev) = Ok (fsm_of n ids (prev ++ ts))).
  { clear ts HW. induction ts as [|t r IH]; intros prev HW; simpl.
    - rewrite app_nil_r. reflexivity.
    - inversion HW; subst. rewrite add_path_spec by auto. cbn [bind]. rewrite IH by auto. rewrite <- app_assoc. reflexivity. }
  rewrite <- fsm_of_nil. apply (G ts []). auto.
Qed.
