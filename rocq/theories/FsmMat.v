(** The matrices GenMatRepr builds, entry by entry. *)
From Coq Require Import List Arith Lia Bool Permutation.
From Verif Require Import Base SparMat SparMatFacts CoefOp CoefOpAlg CoefOpFacts Compress Fsm Progress FsmFacts.
Import ListNotations.

(** CastFSMPathToMatRepr_ on one element, as a function *)
Definition castf (e op : oprepr) : oprepr :=
  if op_isnull e then op else if negb (op_eq e op) then op_add e op else e.

(** an operator that can be stored: not null, labels in order *)
Definition okop (o : oprepr) : Prop := o <> [] /\ sorted_keys 0 o.

Lemma castf_ok : forall e op, sorted_keys 0 e -> okop op -> okop (castf e op).
Proof.
  intros e op He [H1 H2]. unfold castf. destruct (op_isnull e) eqn:E; [split; auto|].
  apply op_isnull_false in E. destruct (negb (op_eq e op)); [|split; auto].
  split; [|apply op_add_sorted; auto]. intro Q. apply op_add_nil in Q. tauto.
Qed.

Definition stat_eqb (a b : stat) : bool :=
  match a, b with Ready, Ready => true | Final, Final => true | Mid i, Mid j => i =? j | _, _ => false end.
Lemma stat_eqb_spec : forall a b, stat_eqb a b = true <-> a = b.
Proof.
  intros [| |i] [| |j]; simpl; split; try congruence; rewrite ?Nat.eqb_eq; congruence.
Qed.
Lemma stat_eqb_refl : forall a, stat_eqb a a = true.
Proof. intros. apply stat_eqb_spec. auto. Qed.

Section Mat.
Variables (n : nat) (ids : list oprepr) (ts : list term).
Hypothesis HIok : forall i, i < n -> okop (nth i ids []).
Hypothesis HW : forall j, j < length ts -> wfterm n (nth j ts (mkTerm 0 0 [])).
Hypothesis HOK : forall j i, j < length ts -> i < length (t_ops (nth j ts (mkTerm 0 0 []))) ->
  okop (nth i (t_ops (nth j ts (mkTerm 0 0 []))) []).

Definition tm (j : nat) : term := nth j ts (mkTerm 0 0 []).
(** node of term [j] at bond [b]; its operator on site [i] *)
Definition nd (j b : nat) : stat := node (firstn j ts) (tm j) b.
Definition op (j i : nat) : oprepr := opat ids (tm j) i.

Definition dimf (b : nat) : nat := midc ts b + (if hasr ts b then 1 else 0) + (if hasf ts b then 1 else 0).
Definition sidx (b : nat) (s : stat) : nat :=
  match s with
  | Ready => 0
  | Final => if hasr ts b then dimf b - 1 else 0
  | Mid k => if hasr ts b || hasf ts b then k else k - 1
  end.
(** states present at bond [b] *)
Definition vst (b : nat) (s : stat) : Prop :=
  match s with
  | Ready => hasr ts b = true
  | Final => hasf ts b = true
  | Mid k => 1 <= k <= midc ts b
  end.

Lemma sidx_lt : forall b s, vst b s -> sidx b s < dimf b.
Proof.
  intros b s H. unfold sidx, dimf, vst in *. destruct s; rewrite ?H.
  - lia.
  - destruct (hasr ts b); lia.
  - destruct (hasr ts b), (hasf ts b); simpl; lia.
Qed.
Lemma sidx_inj : forall b s s', vst b s -> vst b s' -> sidx b s = sidx b s' -> s = s'.
Proof.
  intros b s s' H H' E. unfold sidx, dimf, vst in *.
  destruct s as [| |k], s' as [| |k']; auto; rewrite ?H, ?H' in *;
  destruct (hasr ts b) eqn:E1, (hasf ts b) eqn:E2; simpl in *; try discriminate; try lia; f_equal; lia.
Qed.
Lemma sidx_surj : forall b r, r < dimf b -> exists s, vst b s /\ sidx b s = r.
Proof.
  intros b r H. unfold vst, sidx, dimf in *.
  destruct (hasr ts b) eqn:E1, (hasf ts b) eqn:E2; simpl in *.
  - destruct (Nat.eq_dec r 0); [exists Ready; auto|]. destruct (Nat.eq_dec r (midc ts b + 1)); [exists Final|exists (Mid r)];
    simpl; rewrite ?E1, ?E2; simpl; split; auto; lia.
  - destruct (Nat.eq_dec r 0); [exists Ready; auto|]. exists (Mid r). split; auto. lia.
  - destruct (Nat.eq_dec r 0); [exists Final; auto|]. exists (Mid r). split; auto. lia.
  - exists (Mid (S r)). split; auto; lia.
Qed.

(** number of terms before [j] that are inside at bond [b] *)
Definition cnt (j b : nat) : nat := midc (firstn j ts) b.
Lemma firstn_S : forall j, j < length ts -> firstn (S j) ts = firstn j ts ++ [tm j].
Proof.
  intros j Hj. unfold tm. revert Hj. generalize (mkTerm 0 0 []). intros d. revert j. clear.
  induction ts as [|a r IH]; intros [|j] Hj; simpl in *; try lia; auto. f_equal. apply IH. lia.
Qed.
Lemma cnt_S : forall j b, j < length ts -> cnt (S j) b = cnt j b + (if ismid (tm j) b then 1 else 0).
Proof. intros j b Hj. unfold cnt. rewrite firstn_S by auto. apply midc_snoc. Qed.
Lemma cnt_mono : forall j j' b, j <= j' -> j' <= length ts -> cnt j b <= cnt j' b.
Proof.
  intros j j' b H. induction H; intros H1; [lia|]. rewrite cnt_S by lia. specialize (IHle ltac:(lia)). lia.
Qed.
Lemma cnt_all : forall b, cnt (length ts) b = midc ts b.
Proof. intros. unfold cnt. rewrite firstn_all. reflexivity. Qed.
Lemma nd_eq : forall j b, nd j b =
  if b <=? t_head (tm j) then Ready else if t_tail (tm j) <? b then Final else Mid (S (cnt j b)).
Proof. reflexivity. Qed.
Lemma nd_mid : forall j b k, nd j b = Mid k <-> ismid (tm j) b = true /\ k = S (cnt j b).
Proof.
  intros. rewrite nd_eq. unfold ismid. rewrite andb_true_iff, Nat.ltb_lt, Nat.leb_le.
  destruct (Nat.leb_spec b (t_head (tm j))); [split; [discriminate|lia]|].
  destruct (Nat.ltb_spec (t_tail (tm j)) b); split; try discriminate; try lia.
  - intros Q. injection Q as <-. lia.
  - intros [_ ->]. reflexivity.
Qed.
Lemma nd_ready : forall j b, nd j b = Ready <-> b <= t_head (tm j).
Proof.
  intros. rewrite nd_eq. destruct (Nat.leb_spec b (t_head (tm j))); [tauto|].
  destruct (t_tail (tm j) <? b); split; try discriminate; lia.
Qed.
Lemma nd_final : forall j b, j < length ts -> nd j b = Final <-> t_tail (tm j) < b.
Proof.
  intros j b Hj. destruct (HW j Hj) as [H1 _]. fold (tm j) in H1. rewrite nd_eq.
  destruct (Nat.leb_spec b (t_head (tm j))); [split; [discriminate|lia]|].
  destruct (Nat.ltb_spec (t_tail (tm j)) b); split; try discriminate; auto; lia.
Qed.

Lemma tm_in : forall j, j < length ts -> In (tm j) ts.
Proof. intros. apply nth_In. auto. Qed.
Lemma in_tm : forall t, In t ts -> exists j, j < length ts /\ tm j = t.
Proof. intros t H. unfold tm. destruct (In_nth ts t (mkTerm 0 0 []) H) as [j Hj]. eauto. Qed.

Lemma nd_vst : forall j b, j < length ts -> vst b (nd j b).
Proof.
  intros j b Hj. destruct (nd j b) as [| |k] eqn:E; simpl.
  - apply nd_ready in E. unfold hasr. apply existsb_exists. exists (tm j). split; [apply tm_in; auto|]. apply Nat.leb_le. auto.
  - apply nd_final in E; auto. unfold hasf. apply existsb_exists. exists (tm j). split; [apply tm_in; auto|]. apply Nat.ltb_lt. auto.
  - apply nd_mid in E. destruct E as [E ->]. pose proof (cnt_S j b Hj) as Hs. rewrite E in Hs.
    pose proof (cnt_mono (S j) (length ts) b ltac:(lia) ltac:(lia)). rewrite cnt_all in H. lia.
Qed.
Lemma vst_nd : forall b s, vst b s -> exists j, j < length ts /\ nd j b = s.
Proof.
  intros b [| |k] H; simpl in H.
  - unfold hasr in H. apply existsb_exists in H. destruct H as [t [H1 H2]]. apply in_tm in H1. destruct H1 as [j [Hj <-]].
    exists j. split; auto. apply nd_ready. apply Nat.leb_le. auto.
  - unfold hasf in H. apply existsb_exists in H. destruct H as [t [H1 H2]]. apply in_tm in H1. destruct H1 as [j [Hj <-]].
    exists j. split; auto. apply nd_final; auto. apply Nat.ltb_lt. auto.
  - rewrite <- cnt_all in H.
    assert (G : forall m, m <= length ts -> k <= cnt m b -> exists j, j < m /\ ismid (tm j) b = true /\ k = S (cnt j b)).
    { induction m; intros Hm Hk.
      - assert (cnt 0 b = 0) by reflexivity. lia.
      - destruct (Nat.le_gt_cases k (cnt m b)) as [L|L].
        + destruct (IHm ltac:(lia) L) as [j [H1 H2]]. exists j. auto.
        + rewrite cnt_S in Hk by lia. exists m. destruct (ismid (tm m) b); [|lia]. split; auto. split; auto. lia. }
    destruct (G (length ts) ltac:(lia) ltac:(lia)) as [j [Hj H1]]. exists j. split; auto. apply nd_mid. auto.
Qed.
Lemma mid_unique : forall j j' b k, j < length ts -> j' < length ts -> nd j b = Mid k -> nd j' b = Mid k -> j = j'.
Proof.
  intros j j' b k Hj Hj' H H'. apply nd_mid in H. apply nd_mid in H'. destruct H as [H1 H2], H' as [H3 H4].
  assert (G : forall a c, a < c -> c < length ts -> ismid (tm a) b = true -> cnt a b < cnt c b).
  { intros a c Hac Hc Ha. pose proof (cnt_S a b ltac:(lia)) as Hs. rewrite Ha in Hs.
    pose proof (cnt_mono (S a) c b ltac:(lia) ltac:(lia)). lia. }
  destruct (Nat.lt_total j j') as [L|[L|L]]; auto; [pose proof (G _ _ L Hj' H1)|pose proof (G _ _ L Hj H3)]; lia.
Qed.

Hypothesis HI : length ids = n.
(** *** Entries *)
Definition estep (i r c : nat) (e : oprepr) (j : nat) : oprepr :=
  if (r =? sidx i (nd j i)) && (c =? sidx (S i) (nd j (S i))) then castf e (op j i) else e.
Definition ent (m i r c : nat) : oprepr := fold_left (estep i r c) (seq 0 m) [].
Lemma ent_S : forall m i r c, ent (S m) i r c = estep i r c (ent m i r c) m.
Proof. intros. unfold ent. rewrite seq_S, fold_left_app. reflexivity. Qed.

Lemma op_ok : forall j i, j < length ts -> i < n -> okop (op j i).
Proof.
  intros j i Hj Hi. unfold op, opat. destruct (HW j Hj) as [H1 [H2 H3]]. fold (tm j) in *.
  destruct ((i <? t_head (tm j)) || (t_tail (tm j) <? i)) eqn:E; auto.
  apply orb_false_iff in E. destruct E as [E1 E2]. apply Nat.ltb_ge in E1. apply Nat.ltb_ge in E2.
  apply HOK; auto. fold (tm j). lia.
Qed.
Lemma ent_sorted : forall m i r c, m <= length ts -> i < n -> sorted_keys 0 (ent m i r c).
Proof.
  induction m; intros i r c Hm Hi; [exact I|]. rewrite ent_S. unfold estep.
  destruct (_ && _); [|apply IHm; auto; lia]. apply castf_ok; [apply IHm; auto; lia|]. apply op_ok; auto.
Qed.

Definition msat (m : nat) (i : nat) (M : opmat) : Prop :=
  wfo M /\ rows M = dimf i /\ cols M = dimf (S i) /\
  forall r c, r < dimf i -> c < dimf (S i) -> sm M r c = ent m i r c.

Lemma cast_elem_spec : forall M r c o, wfo M -> msrt M -> r < rows M -> c < cols M -> okop o ->
  exists M', cast_elem M r c o = Ok M' /\ wfo M' /\ rows M' = rows M /\ cols M' = cols M /\
   forall x y, x < rows M -> y < cols M -> sm M' x y = if (x =? r) && (y =? c) then castf (sm M r c) o else sm M x y.
Proof.
  intros M r c o WF MS Hr Hc Ho. unfold cast_elem, castf. rewrite oget_sm by auto. cbn [bind].
  destruct (op_isnull (sm M r c)) eqn:E1.
  - destruct (oset_spec M r c o WF Hr Hc (proj1 Ho)) as [M' [Q1 [Q2 [Q3 [Q4 Q5]]]]].
    exists M'. split; auto. split; auto. split; auto. split; auto.
    intros x y Hx Hy. rewrite Q5, (Nat.eqb_sym r x), (Nat.eqb_sym c y) by auto. reflexivity.
  - destruct (negb (op_eq (sm M r c) o)) eqn:E2.
    + assert (Hn : op_add (sm M r c) o <> []).
      { intro Q. apply op_add_nil in Q. destruct Q as [Q _]. apply op_isnull_false in E1. auto. }
      destruct (oset_spec M r c _ WF Hr Hc Hn) as [M' [Q1 [Q2 [Q3 [Q4 Q5]]]]].
      exists M'. split; auto. split; auto. split; auto. split; auto.
      intros x y Hx Hy. rewrite Q5, (Nat.eqb_sym r x), (Nat.eqb_sym c y) by auto. reflexivity.
    + exists M. split; auto. split; auto. split; auto. split; auto. intros x y Hx Hy.
      destruct (Nat.eqb_spec x r); [subst|reflexivity]. destruct (Nat.eqb_spec y c); [subst; reflexivity|reflexivity].
Qed.

Definition fs : fsm := fsm_of n ids ts.

Lemma site_dims_eq : site_dims fs = Ok (map dimf (seq 0 (n + 1))).
Proof.
  unfold site_dims, fs, fsm_of. cbn [f_n f_mid f_ready f_final].
  rewrite (for_loop_build2 _ _ dimf); [reflexivity|].
  intros i acc Hi. rewrite !vget_map_seq by lia. reflexivity.
Qed.
Definition fidx (b : nat) : option nat := if hasf ts b then Some (if hasr ts b then dimf b - 1 else 0) else None.
Lemma final_idxs_eq : final_idxs fs (map dimf (seq 0 (n + 1))) = Ok (map fidx (seq 0 (n + 1))).
Proof.
  unfold final_idxs, fs, fsm_of. cbn [f_n f_mid f_ready f_final].
  rewrite (for_loop_build2 _ _ fidx); [reflexivity|].
  intros i acc Hi. rewrite !vget_map_seq by lia. reflexivity.
Qed.
Lemma stat_index_eq : forall b s, b <= n -> vst b s -> stat_index fs (map fidx (seq 0 (n + 1))) b s = Ok (sidx b s).
Proof.
  intros b s Hb H. unfold stat_index, fs, fsm_of. cbn [f_ready f_final].
  destruct s as [| |k]; simpl in H.
  - rewrite !vget_map_seq by lia. cbn [bind]. rewrite H. reflexivity.
  - rewrite !vget_map_seq by lia. cbn [bind]. unfold fidx, sidx. rewrite H. reflexivity.
  - rewrite !vget_map_seq by lia. cbn [bind]. unfold sidx.
    destruct (hasr ts b), (hasf ts b); simpl; auto.
    destruct (Nat.eqb_spec k 0); [lia|reflexivity].
Qed.

Lemma cast_path_spec : forall m ms, m < length ts -> length ms = n ->
  (forall i M, nth_error ms i = Some M -> msat m i M) ->
  exists ms', cast_path fs (map fidx (seq 0 (n + 1))) ms (mkpath n ids (firstn m ts) (tm m)) = Ok ms' /\
    length ms' = n /\ (forall i M, nth_error ms' i = Some M -> msat (S m) i M).
Proof.
  intros m ms Hm HL HS. unfold cast_path.
  destruct (for_loop_inv _ (fun i ms' => length ms' = n /\
     forall j M, nth_error ms' j = Some M -> msat (if j <? i then S m else m) j M)
     (fun i ms' =>
    let! rs := vget (p_nodes (mkpath n ids (firstn m ts) (tm m))) i in
    let! cs := vget (p_nodes (mkpath n ids (firstn m ts) (tm m))) (i + 1) in
    let! op := vget (p_ops (mkpath n ids (firstn m ts) (tm m))) i in
    let! r := stat_index fs (map fidx (seq 0 (n + 1))) i rs in
    let! c := stat_index fs (map fidx (seq 0 (n + 1))) (i + 1) cs in
    let! m := vget ms' i in
    let! m' := cast_elem m r c op in
    vset ms' i m') n 0 ms) as [ms' [E1 [E2 E3]]].
  - split; auto.
  - intros i x Hi [HL1 HS1]. unfold mkpath. cbn [p_nodes p_ops].
    rewrite !vget_map_seq by lia. cbn [bind]. fold (nd m i). fold (nd m (i + 1)). fold (op m i).
    rewrite !stat_index_eq by (try lia; apply nd_vst; auto). cbn [bind].
    destruct (vget_ok _ x i) as [M [HM1 HM2]]; [lia|]. rewrite HM1. cbn [bind].
    pose proof (HS1 i M HM2) as HMS. rewrite Nat.ltb_irrefl in HMS. destruct HMS as [W [D1 [D2 D3]]].
    assert (MS : msrt M).
    { intros a b Ha Hb. rewrite D3 by lia. apply ent_sorted; lia. }
    pose proof (sidx_lt i (nd m i) (nd_vst m i Hm)) as L1.
    pose proof (sidx_lt (i + 1) (nd m (i + 1)) (nd_vst m (i + 1) Hm)) as L2.
    replace (i + 1) with (S i) in * by lia.
    destruct (cast_elem_spec M (sidx i (nd m i)) (sidx (S i) (nd m (S i))) (op m i) W MS) as [M' [Q1 [Q2 [Q3 [Q4 Q5]]]]];
      [lia|lia|apply op_ok; lia|].
    rewrite Q1. cbn [bind]. rewrite vset_ok by lia. eexists. split; [reflexivity|].
    split; [rewrite upd_length; auto|]. intros j N. rewrite nth_error_upd.
    destruct (Nat.eqb_spec i j) as [->|Hne].
    + rewrite (proj2 (Nat.ltb_lt j (length x))) by lia. cbn [andb]. intros E. injection E as <-.
      rewrite (proj2 (Nat.ltb_lt j (S j))) by lia. split; auto. split; [lia|]. split; [lia|].
      intros r c Hr Hc. rewrite Q5 by lia. rewrite ent_S. unfold estep. rewrite !D3 by lia.
      destruct (Nat.eqb_spec r (sidx j (nd m j))); [subst r|reflexivity].
      destruct (Nat.eqb_spec c (sidx (S j) (nd m (S j)))); [subst c|]; reflexivity.
    + cbn [andb]. intros E. pose proof (HS1 j N E) as Q.
      destruct (Nat.ltb_spec j i), (Nat.ltb_spec j (S i)); auto; lia.
  - exists ms'. split; auto. split; auto. intros i M HM. specialize (E3 i M HM).
    assert (Hi : i < n) by (rewrite <- E2; apply nth_error_Some; congruence).
    simpl plus in E3. rewrite (proj2 (Nat.ltb_lt i n) Hi) in E3. auto.
Qed.

Lemma for_each_map_seq : forall A S (g : nat -> A) (body : A -> S -> res S) m s st,
  for_each (map g (seq s m)) body st = for_loop s m (fun j => body (g j)) st.
Proof.
  induction m; intros s st; simpl; auto. destruct (body (g s) st); simpl; auto.
Qed.

Lemma paths_seq : paths_from n ids [] ts = map (fun j => mkpath n ids (firstn j ts) (tm j)) (seq 0 (length ts)).
Proof.
  unfold tm. clear. induction ts as [|t r IH] using rev_ind; [reflexivity|].
  rewrite paths_from_snoc, IH, app_length. simpl. rewrite Nat.add_1_r, <- map_seq_snoc. f_equal.
  - apply map_seq_ext. intros j Hj. rewrite firstn_app, app_nth1 by lia.
    replace (j - length r) with 0 by lia. simpl. rewrite app_nil_r. reflexivity.
  - rewrite firstn_app, Nat.sub_diag, firstn_all, app_nth2, Nat.sub_diag by lia. simpl. rewrite app_nil_r. reflexivity.
Qed.

Lemma mat_new_sat : forall i, msat 0 i (mat_new (dimf i) (dimf (S i))).
Proof.
  intros i. split; [apply wf_new|]. split; [reflexivity|]. split; [reflexivity|].
  intros. rewrite sm_new. reflexivity.
Qed.

Theorem gen_mat_repr_spec : exists ms, gen_mat_repr fs = Ok ms /\ length ms = n /\
  forall i M, nth_error ms i = Some M -> msat (length ts) i M.
Proof.
  unfold gen_mat_repr. rewrite site_dims_eq. cbn [bind]. rewrite final_idxs_eq. cbn [bind].
  replace (f_n fs) with n by reflexivity.
  rewrite (for_loop_build2 _ _ (fun i => mat_new (dimf i) (dimf (S i)))).
  2:{ intros i acc Hi. rewrite !vget_map_seq by lia. cbn [bind]. replace (i + 1) with (S i) by lia. reflexivity. }
  cbn [bind app]. replace (f_paths fs) with (paths_from n ids [] ts) by reflexivity. rewrite paths_seq, for_each_map_seq.
  destruct (for_loop_inv _ (fun m ms => length ms = n /\ forall i M, nth_error ms i = Some M -> msat m i M)
    (fun j ms' => cast_path fs (map fidx (seq 0 (n + 1))) ms' (mkpath n ids (firstn j ts) (tm j))) (length ts) 0
    (map (fun i => mat_new (dimf i) (dimf (S i))) (seq 0 n))) as [ms [E1 [E2 E3]]].
  - split; [rewrite map_length, seq_length; auto|]. intros i M HM.
    assert (Hi : i < n).
    { assert (Hl : i < length (map (fun i => mat_new (E := oprepr) (dimf i) (dimf (S i))) (seq 0 n))) by (apply nth_error_Some; intro Q; unfold opmat in *; congruence).
      rewrite map_length, seq_length in Hl. auto. }
    rewrite nth_error_map_seq in HM by auto. injection HM as <-. apply mat_new_sat.
  - intros i x Hi [H1 H2]. destruct (cast_path_spec i x) as [ms' [Q1 [Q2 Q3]]]; auto; [lia|]. exists ms'. auto.
  - exists ms. auto.
Qed.
End Mat.
