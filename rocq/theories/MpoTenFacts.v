(** Facts about the conversion of operator matrices to MPO tensors. *)
From Coq Require Import List Arith Lia Bool Permutation Ring.
From Verif Require Import Base SparMat SparMatFacts CoefOp CoefOpAlg CoefOpFacts Compress Fsm Numeric Chain ChainProgress
  Grading Labels MpoGen MpoGenFacts MpoTen MpoSpec MpoTenSpec.
Import ListNotations.

Section Facts.
Variables (R : Type) (r0 r1 : R) (radd rmul rsub : R -> R -> R) (ropp : R -> R).
Variable Rth : ring_theory r0 r1 radd rmul rsub ropp (@eq R).
Add Ring Rring3 : Rth.
Variable reqb : R -> R -> bool.
Hypothesis reqb_spec : forall x y, reqb x y = true <-> x = y.
Infix "*r" := rmul (at level 40).
Infix "+r" := radd (at level 50).
Notation lop := (lop R).
Notation elem := (elem r0).
Notation cval := (cval R r0 radd).
Notation oval := (oval R r0 radd rmul).
Notation lop_scale := (lop_scale R rmul).
Notation lop_plus := (lop_plus R radd).
Notation realize := (realize R r0 radd rmul).
Notation ten_elem := (ten_elem R r0 reqb).

(** *** realisation *)
Section Real.
Variable pd : nat -> nat.
(** a local operator is a square matrix of the dimension of its index *)
Definition shaped (o : lop) : Prop :=
  length (lo_dat o) = pd (lo_ix o) /\ Forall (fun r => length r = pd (lo_ix o)) (lo_dat o).

Lemma nth_map2 : forall (f : R -> R -> R) a b i, f r0 r0 = r0 -> length a = length b ->
  nth i (map2 f a b) r0 = f (nth i a r0) (nth i b r0).
Proof.
  intros f. induction a as [|x a IH]; intros [|y b] i F H; simpl in *; try discriminate.
  - destruct i; auto.
  - destruct i; auto. apply IH; auto.
Qed.
Lemma map2_len : forall A B C (f : A -> B -> C) a b, length (map2 f a b) = Nat.min (length a) (length b).
Proof. intros. unfold map2. rewrite map_length, combine_length. reflexivity. Qed.
Lemma nth_map2_rows : forall (f : R -> R -> R) d (a b : list (list R)) i, length a = length b ->
  Forall (fun r => length r = d) a -> Forall (fun r => length r = d) b ->
  nth i (map2 (map2 f) a b) [] = map2 f (nth i a []) (nth i b []) /\ length (nth i a []) = length (nth i b []).
Proof.
  intros f d. induction a as [|x a IH]; intros [|y b] i H F1 F2; simpl in *; try discriminate.
  - destruct i; auto.
  - inversion F1; subst. inversion F2; subst. destruct i; [auto|]. apply IH; auto.
Qed.
Lemma lop_plus_spec : forall a b, shaped a -> shaped b -> lo_ix a = lo_ix b ->
  exists o, lop_plus a b = Ok o /\ shaped o /\ lo_ix o = lo_ix a /\ forall i j, elem o i j = elem a i j +r elem b i j.
Proof.
  intros a b [A1 A2] [B1 B2] E. unfold MpoTen.lop_plus. rewrite E, Nat.eqb_refl. eexists. split; [reflexivity|].
  split; [split; simpl|split; [auto|]].
  - rewrite map2_len, A1, B1, E. lia.
  - rewrite <- E in *. clear - A2 B2. revert A2 B2. generalize (lo_dat b). induction (lo_dat a) as [|x t IH]; intros l F1 F2; [constructor|].
    destruct l as [|y l]; [constructor|]. inversion F1; subst. inversion F2; subst. constructor; [|apply IH; auto].
    simpl. rewrite map2_len. lia.
  - intros i j. unfold MpoSpec.elem. simpl. destruct (nth_map2_rows radd (pd (lo_ix a)) (lo_dat a) (lo_dat b) i) as [Q1 Q2].
    + rewrite A1, B1, E. auto.
    + auto.
    + rewrite E. auto.
    + rewrite Q1. apply nth_map2; auto. ring.
Qed.
Lemma lop_scale_spec : forall c o, shaped o -> shaped (lop_scale c o) /\ lo_ix (lop_scale c o) = lo_ix o /\
  forall i j, elem (lop_scale c o) i j = c *r elem o i j.
Proof.
  intros c o [S1 S2]. split; [split|split].
  - simpl. rewrite map_length. auto.
  - simpl. apply Forall_forall. intros r Hr. apply in_map_iff in Hr. destruct Hr as [r' [<- Hr]]. rewrite map_length.
    rewrite Forall_forall in S2. auto.
  - reflexivity.
  - intros i j. unfold MpoSpec.elem. simpl.
    replace (nth i (map (map (rmul c)) (lo_dat o)) []) with (map (rmul c) (nth i (lo_dat o) [])).
    2:{ symmetry. change (@nil R) with (map (rmul c) []) at 1. apply map_nth. }
    generalize (nth i (lo_dat o) []). intros l. revert j. induction l; intros [|j]; simpl; auto; ring.
Qed.

Variables (ch : list R) (oh : list lop).
Definition cvl (k : nat) : R := nth k ch r0.
Definition evl (a b l : nat) : R := elem (nth l oh (mkLop 0 [])) a b.

Lemma real_coef_ok : forall c, Forall (fun k => k < length ch) c -> real_coef R r0 radd ch c = Ok (cval cvl c).
Proof.
  intros c F. unfold real_coef.
  assert (G : forall c acc, Forall (fun k => k < length ch) c ->
    for_each c (fun l acc => let! x := vget ch l in Ok (radd acc x)) acc = Ok (acc +r cval cvl c)).
  { induction c0 as [|l t IH]; intros acc G; unfold CoefOpAlg.cval; simpl; [f_equal; ring|]. inversion G; subst.
    destruct (vget_ok _ _ _ H1) as [x [V1 V2]]. rewrite V1. cbn [bind]. rewrite IH by auto. f_equal.
    unfold CoefOpAlg.cval, cvl at 2. rewrite (nth_error_nth _ _ _ V2). ring. }
  rewrite G by auto. f_equal. ring.
Qed.

Lemma oval_cons : forall cv ev (kc : nat * coef) (t : list (nat * coef)), oval cv ev (kc :: t) = (cval cv (snd kc) *r ev (fst kc)) +r oval cv ev t.
Proof. reflexivity. Qed.
(** an operator of the labels of one site *)
Definition okl (ix : nat) (l : nat) : Prop := exists o, nth_error oh l = Some o /\ lo_ix o = ix /\ shaped o.
Lemma real_one_ok : forall ix kc, Forall (fun k => k < length ch) (snd kc) -> okl ix (fst kc) ->
  exists o, real_one R r0 radd rmul ch oh kc = Ok o /\ lo_ix o = ix /\ shaped o /\
    forall a b, elem o a b = cval cvl (snd kc) *r evl a b (fst kc).
Proof.
  intros ix [l c] F [o [H1 [H2 H3]]]. unfold real_one. simpl snd in *. simpl fst in *. rewrite real_coef_ok by auto. cbn [bind].
  unfold vget. rewrite H1. cbn [bind]. eexists. split; [reflexivity|]. destruct (lop_scale_spec (cval cvl c) o H3) as [S1 [S2 S3]].
  split; [congruence|]. split; auto. intros a b. rewrite S3. unfold evl. rewrite (nth_error_nth _ _ _ H1). reflexivity.
Qed.
Lemma realize_ok : forall ix e, e <> [] -> clo (fun k => k < length ch) e -> (forall l, In l (keys e) -> okl ix l) ->
  exists o, realize ch oh e = Ok o /\ lo_ix o = ix /\ shaped o /\ forall a b, elem o a b = oval cvl (evl a b) e.
Proof.
  intros ix [|kc t] HN HC HK; [congruence|]. inversion HC as [|? ? C1 C2].
  unfold MpoTen.realize. destruct (real_one_ok ix kc C1 (HK _ (or_introl eq_refl))) as [o [E1 [E2 [E3 E4]]]].
  rewrite E1. cbn [bind].
  assert (G : forall t acc, clo (fun k => k < length ch) t -> (forall l, In l (keys t) -> okl ix l) -> lo_ix acc = ix -> shaped acc ->
    exists o, for_each t (fun kc' acc => let! o' := real_one R r0 radd rmul ch oh kc' in lop_plus acc o') acc = Ok o /\
    lo_ix o = ix /\ shaped o /\ forall a b, elem o a b = elem acc a b +r oval cvl (evl a b) t).
  { induction t0 as [|kc' t' IH]; intros acc D1 D2 D3 D4.
    - exists acc. split; auto. split; auto. split; auto. intros. unfold CoefOpAlg.oval. simpl. ring.
    - simpl. inversion D1 as [|? ? H1 H2]. destruct (real_one_ok ix kc' H1 (D2 _ (or_introl eq_refl))) as [o' [F1 [F2 [F3 F4]]]].
      rewrite F1. cbn [bind]. destruct (lop_plus_spec acc o' D4 F3 (eq_trans D3 (eq_sym F2))) as [o2 [G1 [G2 [G3 G4]]]]. rewrite G1. cbn [bind].
      destruct (IH o2) as [o3 [I1 [I2 [I3 I4]]]]; auto; [intros l' Hl'; apply D2; right; auto|congruence|].
      exists o3. split; auto. split; auto. split; auto. intros a b. rewrite I4, G4, F4. unfold coef. ring. }
  destruct (G t o C2 (fun l Hl => HK l (or_intror Hl)) E2 E3) as [o' [G1 [G2 [G3 G4]]]]. exists o'. split; auto. split; auto.
  split; auto. intros a b. rewrite G4, E4, oval_cons. unfold coef. ring.
Qed.

(** *** filling a tensor *)
(** the writes [w] are exactly the non-null entries of the positions in [ps], in this order *)
Definition written (ix : nat) (f : nat -> nat -> oprepr) (ps : list (nat * nat)) (w : list (nat * nat * lop)) : Prop :=
  map fst w = filter (fun p => negb (op_isnull (f (fst p) (snd p)))) ps /\
  Forall (fun e => lo_ix (snd e) = ix /\
     forall a b, elem (snd e) a b = oval cvl (evl a b) (f (fst (fst e)) (snd (fst e)))) w.
Lemma written_nil : forall ix f, written ix f [] [].
Proof. split; auto. Qed.
Definition mok (ix : nat) (m : opmat) : Prop := wfo m /\
  (forall x y, x < rows m -> y < cols m -> clo (fun k => k < length ch) (sm m x y)) /\ kin (okl ix) m.
Lemma collect_ok : forall ix m ps w x y, mok ix m -> x < rows m -> y < cols m -> written ix (sm m) ps w ->
  exists w', collect R r0 radd rmul ch oh m x y w = Ok w' /\ written ix (sm m) (ps ++ [(x, y)]) w'.
Proof.
  intros ix m ps w x y [W [H1 H2]] Hx Hy [W1 W2]. unfold collect. rewrite oget_sm by auto. cbn [bind].
  destruct (op_isnull (sm m x y)) eqn:E.
  - exists w. split; auto. split; auto. rewrite filter_app, <- W1. simpl. rewrite E. simpl. rewrite app_nil_r. auto.
  - apply op_isnull_false in E as E'. destruct (realize_ok ix (sm m x y) E' (H1 x y Hx Hy)) as [o [R1 [R2 [R3 R4]]]].
    + intros l Hl. eapply H2; eauto.
    + rewrite R1. cbn [bind]. eexists. split; [reflexivity|]. split.
      * rewrite map_app, filter_app, W1. simpl. rewrite E. reflexivity.
      * apply Forall_app. split; auto.
Qed.
Lemma row_ok : forall ix m x ps w, mok ix m -> x < rows m -> written ix (sm m) ps w ->
  exists w', for_loop 0 (cols m) (fun y w => collect R r0 radd rmul ch oh m x y w) w = Ok w' /\
    written ix (sm m) (ps ++ map (fun y => (x, y)) (seq 0 (cols m))) w'.
Proof.
  intros ix m x ps w M Hx W.
  destruct (for_loop_inv _ (fun y w => written ix (sm m) (ps ++ map (fun y => (x, y)) (seq 0 y)) w)
    (fun y w => collect R r0 radd rmul ch oh m x y w) (cols m) 0 w) as [w' [E1 E2]].
  - simpl. rewrite app_nil_r. auto.
  - intros y w0 Hy W0. destruct (collect_ok ix m _ w0 x y M Hx ltac:(lia) W0) as [w1 [C1 C2]]. exists w1. split; auto.
    rewrite seq_S, map_app, app_assoc. auto.
  - eauto.
Qed.
Lemma col0_ok : forall ix m, mok ix m -> 0 < cols m ->
  exists w', for_loop 0 (rows m) (fun x w => collect R r0 radd rmul ch oh m x 0 w) [] = Ok w' /\
    written ix (sm m) (map (fun x => (x, 0)) (seq 0 (rows m))) w'.
Proof.
  intros ix m M Hc.
  destruct (for_loop_inv _ (fun x w => written ix (sm m) (map (fun x => (x, 0)) (seq 0 x)) w)
    (fun x w => collect R r0 radd rmul ch oh m x 0 w) (rows m) 0 []) as [w' [E1 E2]].
  - apply written_nil.
  - intros x w0 Hx W0. destruct (collect_ok ix m _ w0 x 0 M ltac:(lia) ltac:(lia) W0) as [w1 [C1 C2]]. exists w1. split; auto.
    rewrite seq_S, map_app. auto.
  - eauto.
Qed.
Definition grid (r c : nat) : list (nat * nat) := flat_map (fun x => map (fun y => (x, y)) (seq 0 c)) (seq 0 r).
Lemma all_entries_ok : forall ix m, mok ix m ->
  exists w', all_entries R r0 radd rmul ch oh m = Ok w' /\ written ix (sm m) (grid (rows m) (cols m)) w'.
Proof.
  intros ix m M. unfold all_entries.
  destruct (for_loop_inv _ (fun x w => written ix (sm m) (grid x (cols m)) w)
    (fun x w => for_loop 0 (cols m) (fun y w' => collect R r0 radd rmul ch oh m x y w') w) (rows m) 0 []) as [w' [E1 E2]].
  - apply written_nil.
  - intros x w0 Hx W0. destruct (row_ok ix m x _ w0 M ltac:(lia) W0) as [w1 [C1 C2]]. exists w1. split; auto.
    unfold grid in *. rewrite seq_S, flat_map_app. simpl. rewrite app_nil_r. auto.
  - eauto.
Qed.
Lemma grid_in : forall r c x y, In (x, y) (grid r c) <-> x < r /\ y < c.
Proof.
  intros. unfold grid. rewrite in_flat_map. split.
  - intros [x' [H1 H2]]. apply in_seq in H1. apply in_map_iff in H2. destruct H2 as [y' [E H2]]. apply in_seq in H2. injection E as -> ->. lia.
  - intros [H1 H2]. exists x. split; [apply in_seq; lia|]. apply in_map_iff. exists y. split; auto. apply in_seq. lia.
Qed.
Lemma grid_nodup : forall c r, NoDup (grid r c).
Proof.
  intros c. induction r; [constructor|]. unfold grid in *. rewrite seq_S, flat_map_app. simpl. rewrite app_nil_r.
  assert (N2 : NoDup (map (fun y => (r, y)) (seq 0 c))).
  { apply FinFun.Injective_map_NoDup; [intros a b E; injection E; auto|apply seq_NoDup]. }
  assert (D : forall p, In p (flat_map (fun x => map (fun y => (x, y)) (seq 0 c)) (seq 0 r)) -> ~ In p (map (fun y => (r, y)) (seq 0 c))).
  { intros [x y] H1 H2. apply grid_in in H1. apply in_map_iff in H2. destruct H2 as [y' [E _]]. injection E as <- _. lia. }
  clear - IHr N2 D. induction IHr as [|p l Hp IH IHN]; simpl; auto. constructor.
  - intro Z. apply in_app_or in Z. destruct Z as [Z|Z]; auto. apply (D p); [left; auto|auto].
  - apply IHN. intros q Hq. apply D. right. auto.
Qed.

Lemma ten_elem_not : forall w x a b y, ~ In (x, y) (map fst w) -> ten_elem w x a b y = r0.
Proof.
  intros w x a b y. unfold MpoTen.ten_elem. generalize r0 at 1 3 as z. induction w as [|e w IH]; intros z H; auto. simpl in *.
  destruct ((fst (fst e) =? x) && (snd (fst e) =? y)) eqn:E; [|apply IH; tauto].
  exfalso. apply H. left. apply andb_true_iff in E. destruct E as [E1 E2]. apply Nat.eqb_eq in E1. apply Nat.eqb_eq in E2.
  destruct (fst e). simpl in *. congruence.
Qed.
Lemma ten_elem_in : forall w x a b y o, NoDup (map fst w) -> In (x, y, o) w -> ten_elem w x a b y = elem o a b.
Proof.
  intros w x a b y o. unfold MpoTen.ten_elem. induction w as [|e w IH]; intros ND HI; [destruct HI|].
  simpl in ND. inversion ND; subst. simpl. destruct HI as [->|HI].
  - simpl. rewrite !Nat.eqb_refl. simpl. fold (elem o a b).
    assert (G : forall z, fold_left (fun acc e =>
      if (fst (fst e) =? x) && (snd (fst e) =? y)
      then if reqb (nth b (nth a (lo_dat (snd e)) []) r0) r0 then acc else nth b (nth a (lo_dat (snd e)) []) r0
      else acc) w z = z).
    { intros z. simpl in H1. clear - H1. revert z. induction w as [|e w IH]; intros z; auto. simpl in *.
      destruct ((fst (fst e) =? x) && (snd (fst e) =? y)) eqn:E; [|apply IH; tauto].
      exfalso. apply H1. left. apply andb_true_iff in E. destruct E as [E1 E2]. apply Nat.eqb_eq in E1. apply Nat.eqb_eq in E2.
      destruct (fst e). simpl in *. congruence. }
    rewrite G. destruct (reqb (elem o a b) r0) eqn:E; auto. apply reqb_spec in E. auto.
  - destruct ((fst (fst e) =? x) && (snd (fst e) =? y)) eqn:E; [|apply IH; auto].
    exfalso. apply H1. apply andb_true_iff in E. destruct E as [E1 E2]. apply Nat.eqb_eq in E1. apply Nat.eqb_eq in E2.
    apply in_map_iff. exists (x, y, o). split; auto. destruct (fst e). simpl in *. congruence.
Qed.
Lemma written_elem : forall ix f ps w, written ix f ps w -> NoDup ps ->
  NoDup (map fst w) /\ (forall e, In e w -> In (fst e) ps /\ lo_ix (snd e) = ix) /\
  forall x y a b, (In (x, y) ps -> ten_elem w x a b y = oval cvl (evl a b) (f x y)) /\ (~ In (x, y) ps -> ten_elem w x a b y = r0).
Proof.
  intros ix f ps w [W1 W2] ND. assert (NW : NoDup (map fst w)) by (rewrite W1; apply NoDup_filter; auto).
  split; auto. split.
  - intros e He. split.
    + assert (I : In (fst e) (map fst w)) by (apply in_map; auto). rewrite W1 in I. apply filter_In in I. tauto.
    + rewrite Forall_forall in W2. apply W2. auto.
  - intros x y a b. split.
    + intros I. destruct (op_isnull (f x y)) eqn:E.
      * rewrite ten_elem_not.
        -- apply op_isnull_spec in E. rewrite E. reflexivity.
        -- rewrite W1. intro Z. apply filter_In in Z. simpl in Z. rewrite E in Z. destruct Z. discriminate.
      * assert (J : In (x, y) (map fst w)) by (rewrite W1; apply filter_In; split; auto; simpl; rewrite E; auto).
        apply in_map_iff in J. destruct J as [[[x' y'] o] [J1 J2]]. simpl in J1. injection J1 as -> ->.
        rewrite (ten_elem_in w x a b y o NW J2). rewrite Forall_forall in W2. destruct (W2 _ J2) as [_ W3]. apply W3.
    + intros I. apply ten_elem_not. rewrite W1. intro Z. apply filter_In in Z. tauto.
Qed.
End Real.
End Facts.
