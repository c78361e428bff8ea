(** Meaning of the matrices of an FSM: structure needed by the compression and value of the chain. *)
From Coq Require Import List Arith Lia Bool Permutation Ring.
From Verif Require Import Base SparMat SparMatFacts CoefOp CoefOpAlg CoefOpFacts Compress Fsm Numeric Chain
  Progress Progress2 ChainProgress FsmFacts FsmMat.
Import ListNotations.

(** Shape of the operators AddTerm hands to AddPath (mpogen_impl.h 100-160): every operator is a single label,
    only the first one carries a coefficient. *)
Definition shterm (t : term) : Prop :=
  (exists l c, nth 0 (t_ops t) [] = [(l, c)] /\ c <> []) /\
  (forall i, 1 <= i < length (t_ops t) -> exists l, nth i (t_ops t) [] = [(l, kId)]).
Definition shid (o : oprepr) : Prop := exists l, o = [(l, kId)].

Section Sem.
Variables (n : nat) (ids : list oprepr) (ts : list term).
Hypothesis HI : length ids = n.
Hypothesis HIs : forall i, i < n -> shid (nth i ids []).
Hypothesis HTs : Forall (fun t => wfterm n t /\ shterm t) ts.
Hypothesis HNE : ts <> [].

Notation L := (length ts).
Notation tm := (tm ts). Notation nd := (nd ts). Notation op := (op ids ts). Notation dimf := (dimf ts).
Notation sidx := (sidx ts). Notation vst := (vst ts). Notation ent := (ent ids ts).

Lemma HT : forall j, j < L -> wfterm n (tm j) /\ shterm (tm j).
Proof. intros j Hj. rewrite Forall_forall in HTs. apply HTs. apply tm_in. auto. Qed.
Lemma HWt : forall j, j < L -> wfterm n (nth j ts (mkTerm 0 0 [])).
Proof. intros j Hj. apply (HT j Hj). Qed.
Lemma HIok : forall i, i < n -> okop (nth i ids []).
Proof. intros i Hi. destruct (HIs i Hi) as [l ->]. split; [discriminate|]. simpl. split; auto. lia. Qed.
Lemma HOKt : forall j i, j < L -> i < length (t_ops (nth j ts (mkTerm 0 0 []))) ->
  okop (nth i (t_ops (nth j ts (mkTerm 0 0 []))) []).
Proof.
  intros j i Hj Hi. destruct (HT j Hj) as [_ [[l [c [H1 _]]] H2]]. unfold FsmMat.tm in *.
  destruct i as [|i].
  - rewrite H1. split; [discriminate|]. simpl. split; auto. lia.
  - destruct (H2 (S i)) as [l' ->]; [lia|]. split; [discriminate|]. simpl. split; auto. lia.
Qed.
Lemma L_pos : 0 < L.
Proof. destruct ts; [congruence|simpl; lia]. Qed.

(** *** operators on the path of a term *)
Lemma op_out : forall j i, j < L -> i < n -> (i < t_head (tm j) \/ t_tail (tm j) < i) -> op j i = nth i ids [].
Proof.
  intros j i Hj Hi H. unfold FsmMat.op, opat.
  destruct (Nat.ltb_spec i (t_head (tm j))); [reflexivity|]. destruct (Nat.ltb_spec (t_tail (tm j)) i); [reflexivity|lia].
Qed.
Lemma op_in : forall j i, j < L -> t_head (tm j) <= i <= t_tail (tm j) -> op j i = nth (i - t_head (tm j)) (t_ops (tm j)) [].
Proof.
  intros j i Hj H. unfold FsmMat.op, opat.
  destruct (Nat.ltb_spec i (t_head (tm j))); [lia|]. destruct (Nat.ltb_spec (t_tail (tm j)) i); [lia|reflexivity].
Qed.
Lemma op_shape : forall j i, j < L -> i < n -> exists l c, op j i = [(l, c)] /\ c <> [].
Proof.
  intros j i Hj Hi. destruct (HT j Hj) as [[W1 [W2 W3]] [S1 S2]].
  destruct (Nat.lt_ge_cases i (t_head (tm j))) as [H|H].
  - rewrite op_out by auto. destruct (HIs i Hi) as [l ->]. exists l, kId. split; auto. discriminate.
  - destruct (Nat.lt_ge_cases (t_tail (tm j)) i) as [H1|H1].
    + rewrite op_out by auto. destruct (HIs i Hi) as [l ->]. exists l, kId. split; auto. discriminate.
    + rewrite op_in by auto. destruct (i - t_head (tm j)) as [|q] eqn:E; auto.
      destruct (S2 (S q)) as [l ->]; [lia|]. exists l, kId. split; auto. discriminate.
Qed.
Lemma op_all_id : forall j i, j < L -> i < n -> i <> t_head (tm j) -> all_id (op j i) = true.
Proof.
  intros j i Hj Hi Hn. destruct (HT j Hj) as [[W1 [W2 W3]] [S1 S2]].
  destruct (Nat.lt_ge_cases i (t_head (tm j))) as [H|H].
  - rewrite op_out by auto. destruct (HIs i Hi) as [l ->]. reflexivity.
  - destruct (Nat.lt_ge_cases (t_tail (tm j)) i) as [H1|H1].
    + rewrite op_out by auto. destruct (HIs i Hi) as [l ->]. reflexivity.
    + rewrite op_in by auto. destruct (S2 (i - t_head (tm j))) as [l ->]; [lia|]. reflexivity.
Qed.
Lemma op_nn : forall j i, j < L -> i < n -> op j i <> [].
Proof. intros j i Hj Hi. destruct (op_shape j i Hj Hi) as [l [c [-> _]]]. discriminate. Qed.

Lemma stat_eqb_sym : forall a b, stat_eqb a b = stat_eqb b a.
Proof. intros [| |i] [| |j]; simpl; auto. apply Nat.eqb_sym. Qed.
(** *** entries by state *)
Definition hit (i : nat) (s s' : stat) (j : nat) : bool := stat_eqb s (nd j i) && stat_eqb s' (nd j (S i)).
Lemma hit_spec : forall i s s' j, hit i s s' j = true <-> nd j i = s /\ nd j (S i) = s'.
Proof. intros. unfold hit. rewrite andb_true_iff, !stat_eqb_spec. split; intros [? ?]; auto. Qed.

Lemma sidx_eqb : forall b s j, vst b s -> j < L -> (sidx b s =? sidx b (nd j b)) = stat_eqb s (nd j b).
Proof.
  intros b s j Hs Hj. destruct (stat_eqb s (nd j b)) eqn:E.
  - apply stat_eqb_spec in E. rewrite <- E. apply Nat.eqb_refl.
  - apply Nat.eqb_neq. intro Q. apply (sidx_inj ts b s (nd j b)) in Q; auto.
    + apply stat_eqb_spec in Q. congruence.
    + apply nd_vst with (n := n); auto. apply HWt.
Qed.
Lemma estep_hit : forall i s s' e j, vst i s -> vst (S i) s' -> j < L ->
  estep ids ts i (sidx i s) (sidx (S i) s') e j = if hit i s s' j then castf e (op j i) else e.
Proof. intros. unfold estep, hit. rewrite !sidx_eqb by auto. reflexivity. Qed.

Lemma ent_none : forall i s s' m, vst i s -> vst (S i) s' -> m <= L ->
  (forall j, j < m -> hit i s s' j = false) -> ent m i (sidx i s) (sidx (S i) s') = [].
Proof.
  intros i s s' m Hs Hs'. induction m; intros Hm H; [reflexivity|].
  rewrite ent_S, IHm, estep_hit, H; auto; lia.
Qed.
Lemma ent_same : forall i s s' m o, vst i s -> vst (S i) s' -> m <= L -> o <> [] ->
  (forall j, j < m -> hit i s s' j = true -> op j i = o) -> (exists j, j < m /\ hit i s s' j = true) ->
  ent m i (sidx i s) (sidx (S i) s') = o.
Proof.
  intros i s s' m o Hs Hs'. induction m; intros Hm Ho H [j [Hj Hh]]; [lia|].
  rewrite ent_S, estep_hit by (auto; lia).
  destruct (existsb (hit i s s') (seq 0 m)) eqn:Ex.
  - apply existsb_exists in Ex. destruct Ex as [j' [Hj' Hh']]. apply in_seq in Hj'.
    rewrite IHm; eauto; try lia; [|exists j'; split; auto; lia].
    destruct (hit i s s' m) eqn:E; auto. rewrite (H m) by auto. unfold castf.
    apply op_isnull_false in Ho. rewrite Ho. rewrite op_eq_refl. reflexivity.
  - assert (Hno : forall j, j < m -> hit i s s' j = false).
    { intros q Hq. destruct (hit i s s' q) eqn:E; auto. rewrite <- Ex. symmetry. apply existsb_exists.
      exists q. split; auto. apply in_seq. lia. }
    rewrite ent_none by (auto; lia). destruct (Nat.eq_dec j m).
    + subst j. rewrite Hh. rewrite (H m) by auto. reflexivity.
    + rewrite Hno in Hh by lia. discriminate.
Qed.
Lemma ent_nn : forall i s s' m j, vst i s -> vst (S i) s' -> i < n -> m <= L -> j < m -> hit i s s' j = true ->
  ent m i (sidx i s) (sidx (S i) s') <> [].
Proof.
  intros i s s' m j Hs Hs' Hi. induction m; intros Hm Hj Hh; [lia|].
  rewrite ent_S, estep_hit by (auto; lia).
  destruct (Nat.eq_dec j m).
  - subst j. rewrite Hh. apply castf_ok.
    + eapply ent_sorted with (n := n); auto; [apply HIok|apply HWt|apply HOKt|lia].
    + eapply op_ok with (n := n); auto; [apply HIok|apply HWt|apply HOKt].
  - specialize (IHm ltac:(lia) ltac:(lia) Hh). destruct (hit i s s' m); auto.
    apply castf_ok; [eapply ent_sorted with (n := n); auto; [apply HIok|apply HWt|apply HOKt|lia]|].
    eapply op_ok with (n := n); auto; [apply HIok|apply HWt|apply HOKt].
Qed.

Definition est (i : nat) (s s' : stat) : oprepr := ent L i (sidx i s) (sidx (S i) s').

Lemma nd_vst' : forall j b, j < L -> vst b (nd j b).
Proof. intros j b Hj. apply nd_vst with (n := n); auto. apply HWt. Qed.
Lemma vst_nd' : forall b s, vst b s -> exists j, j < L /\ nd j b = s.
Proof. intros b s H. apply vst_nd with (n := n); auto. apply HWt. Qed.
Lemma ready_back : forall j b, j < L -> nd j (S b) = Ready -> nd j b = Ready.
Proof. intros j b Hj H. apply nd_ready in H. apply nd_ready. lia. Qed.
Lemma final_fwd : forall j b, j < L -> nd j b = Final -> nd j (S b) = Final.
Proof.
  intros j b Hj H. apply (nd_final n) in H; auto using HWt. apply (nd_final n); auto using HWt.
Qed.
Lemma ready_op : forall j b, j < L -> b < n -> nd j (S b) = Ready -> op j b = nth b ids [].
Proof. intros j b Hj Hb H. apply nd_ready in H. apply op_out; auto. Qed.
Lemma final_op : forall j b, j < L -> b < n -> nd j b = Final -> op j b = nth b ids [].
Proof. intros j b Hj Hb H. apply (nd_final n) in H; auto using HWt. apply op_out; auto. Qed.

Lemma id_nn : forall i, i < n -> nth i ids [] <> [].
Proof. intros i Hi. apply HIok. auto. Qed.

Lemma est_ready : forall i, i < n -> vst (S i) Ready -> est i Ready Ready = nth i ids [] /\ vst i Ready.
Proof.
  intros i Hi H. destruct (vst_nd' _ _ H) as [j [Hj Hn]].
  assert (V : vst i Ready) by (rewrite <- (ready_back j i Hj Hn); apply nd_vst'; auto).
  split; auto. apply ent_same; auto; [apply id_nn; auto| |].
  - intros q Hq Hh. apply hit_spec in Hh. apply ready_op; auto. apply Hh.
  - exists j. split; auto. apply hit_spec. split; auto. apply ready_back; auto.
Qed.
Lemma est_ready_col : forall i s, i < n -> vst i s -> vst (S i) Ready -> s <> Ready -> est i s Ready = [].
Proof.
  intros i s Hi Hs H Hn. apply ent_none; auto. intros j Hj. destruct (hit i s Ready j) eqn:E; auto.
  apply hit_spec in E. destruct E as [E1 E2]. exfalso. apply Hn. rewrite <- E1. apply ready_back; auto.
Qed.
Lemma est_final : forall i, i < n -> vst i Final -> est i Final Final = nth i ids [] /\ vst (S i) Final.
Proof.
  intros i Hi H. destruct (vst_nd' _ _ H) as [j [Hj Hn]].
  assert (V : vst (S i) Final) by (rewrite <- (final_fwd j i Hj Hn); apply nd_vst'; auto).
  split; auto. apply ent_same; auto; [apply id_nn; auto| |].
  - intros q Hq Hh. apply hit_spec in Hh. apply final_op; auto. apply Hh.
  - exists j. split; auto. apply hit_spec. split; auto. apply final_fwd; auto.
Qed.
Lemma est_final_row : forall i s, i < n -> vst i Final -> vst (S i) s -> s <> Final -> est i Final s = [].
Proof.
  intros i s Hi H Hs Hn. apply ent_none; auto. intros j Hj. destruct (hit i Final s j) eqn:E; auto.
  apply hit_spec in E. destruct E as [E1 E2]. exfalso. apply Hn. rewrite <- E2. apply final_fwd; auto.
Qed.
(** the element of a term that is inside on the left or right bond is its own *)
Lemma est_own : forall i j, i < n -> j < L -> (exists k, nd j i = Mid k \/ nd j (S i) = Mid k) ->
  est i (nd j i) (nd j (S i)) = op j i.
Proof.
  intros i j Hi Hj [k Hk]. apply ent_same; auto using nd_vst'; [apply op_nn; auto| |].
  - intros q Hq Hh. apply hit_spec in Hh. destruct Hh as [E1 E2]. replace q with j; auto.
    destruct Hk as [Hk|Hk].
    + eapply mid_unique; eauto. congruence.
    + eapply mid_unique; eauto. congruence.
  - exists j. split; auto. apply hit_spec. auto.
Qed.
Lemma est_mid_col : forall i j k s, i < n -> j < L -> nd j (S i) = Mid k -> vst i s -> s <> nd j i -> est i s (Mid k) = [].
Proof.
  intros i j k s Hi Hj Hk Hs Hn. apply ent_none; auto; [rewrite <- Hk; apply nd_vst'; auto|].
  intros q Hq. destruct (hit i s (Mid k) q) eqn:E; auto. apply hit_spec in E. destruct E as [E1 E2].
  exfalso. apply Hn. assert (q = j) by (eapply mid_unique; eauto). subst q. auto.
Qed.
Lemma est_mid_row : forall i j k s, i < n -> j < L -> nd j i = Mid k -> vst (S i) s -> s <> nd j (S i) -> est i (Mid k) s = [].
Proof.
  intros i j k s Hi Hj Hk Hs Hn. apply ent_none; auto; [rewrite <- Hk; apply nd_vst'; auto|].
  intros q Hq. destruct (hit i (Mid k) s q) eqn:E; auto. apply hit_spec in E. destruct E as [E1 E2].
  exfalso. apply Hn. assert (q = j) by (eapply mid_unique; eauto). subst q. auto.
Qed.

Definition rdf (b : nat) : option nat := if hasr ts b then Some 0 else None.
Lemma rdf_vst : forall b, vst b Ready -> rdf b = Some (sidx b Ready).
Proof. intros b H. simpl in H. unfold rdf. rewrite H. reflexivity. Qed.
Lemma rdf_inv : forall b s, vst b s -> rdf b = Some (sidx b s) -> s = Ready.
Proof.
  intros b s Hs H. unfold rdf in H. destruct (hasr ts b) eqn:E; [|discriminate]. injection H as H.
  apply (sidx_inj ts b s Ready); auto.
Qed.
Lemma fidx_vst : forall b, vst b Final -> fidx ts b = Some (sidx b Final).
Proof. intros b H. simpl in H. unfold fidx. rewrite H. reflexivity. Qed.
Lemma fidx_inv : forall b s, vst b s -> fidx ts b = Some (sidx b s) -> s = Final.
Proof.
  intros b s Hs H. unfold fidx in H. destruct (hasf ts b) eqn:E; [|discriminate]. injection H as H.
  apply (sidx_inj ts b s Final); auto.
Qed.
Lemma sidx_neq : forall b s s', vst b s -> vst b s' -> sidx b s <> sidx b s' -> s <> s'.
Proof. intros. congruence. Qed.

Lemma nd_cases : forall j b, nd j b = Ready \/ nd j b = Final \/ exists k, nd j b = Mid k.
Proof. intros. destruct (nd j b); eauto. Qed.

Lemma mid_head : forall j i k, nd j i = Mid k -> i <> t_head (tm j).
Proof. intros j i k H. apply nd_mid in H. destruct H as [H _]. unfold ismid in H. apply andb_true_iff in H.
  destruct H as [H _]. apply Nat.ltb_lt in H. lia. Qed.

Lemma finv_ent : forall i, i < n ->
  finv (dimf i) (dimf (S i)) (ent L i) (rdf i) (fidx ts i) (rdf (S i)) (fidx ts (S i)).
Proof.
  intros i Hi. constructor.
  - intros y z Hy Hz Hr. destruct (sidx_surj ts i y Hy) as [s [Hs <-]]. destruct (sidx_surj ts (S i) z Hz) as [s' [Hs' <-]].
    fold (est i s s'). destruct s as [| |k].
    + rewrite rdf_vst in Hr by auto. congruence.
    + destruct (stat_eqb s' Final) eqn:E.
      * apply stat_eqb_spec in E. subst s'. rewrite (proj1 (est_final i Hi Hs)). destruct (HIs i Hi) as [l ->]. reflexivity.
      * rewrite est_final_row; auto. intro Q. apply stat_eqb_spec in Q. congruence.
    + destruct (vst_nd' _ _ Hs) as [j [Hj Hn]]. destruct (stat_eqb s' (nd j (S i))) eqn:E.
      * apply stat_eqb_spec in E. subst s'. rewrite <- Hn, est_own by eauto.
        apply op_all_id; auto. eapply mid_head; eauto.
      * rewrite (est_mid_row i j); auto. intro Q. apply stat_eqb_spec in Q. congruence.
  - intros y Hy Hf. destruct (sidx_surj ts i y Hy) as [s [Hs <-]]. apply fidx_inv in Hf; auto. subst s.
    destruct (est_final i Hi Hs) as [E V]. exists (sidx (S i) Final). split; [apply fidx_vst; auto|].
    split; [apply sidx_lt; auto|]. fold (est i Final Final). rewrite E. split; [apply id_nn; auto|].
    split; [destruct (HIs i Hi) as [l ->]; reflexivity|].
    intros z Hz Hne. destruct (sidx_surj ts (S i) z Hz) as [s' [Hs' <-]]. fold (est i Final s').
    apply est_final_row; auto. congruence.
  - intros z Hz Hf. destruct (sidx_surj ts (S i) z Hz) as [s' [Hs' <-]]. destruct s' as [| |k].
    + destruct (est_ready i Hi Hs') as [E V]. exists (sidx i Ready). split; [apply sidx_lt; auto|].
      fold (est i Ready Ready). split.
      * rewrite E. destruct (HIs i Hi) as [l ->]. exists l, kId. split; auto. discriminate.
      * intros y Hy Hne. destruct (sidx_surj ts i y Hy) as [s [Hs <-]]. fold (est i s Ready).
        apply est_ready_col; auto. congruence.
    + rewrite fidx_vst in Hf by auto. congruence.
    + destruct (vst_nd' _ _ Hs') as [j [Hj Hn]]. exists (sidx i (nd j i)). split; [apply sidx_lt; apply nd_vst'; auto|].
      split.
      * fold (est i (nd j i) (Mid k)). rewrite <- Hn, est_own by eauto. apply op_shape; auto.
      * intros y Hy Hne. destruct (sidx_surj ts i y Hy) as [s [Hs <-]]. fold (est i s (Mid k)).
        apply (est_mid_col i j); auto. congruence.
  - intros z Hz Hr. destruct (sidx_surj ts (S i) z Hz) as [s' [Hs' <-]]. apply rdf_inv in Hr; auto. subst s'. split.
    + intro Q. apply fidx_inv in Q; auto. discriminate.
    + intros y Hy Hn. destruct (sidx_surj ts i y Hy) as [s [Hs <-]]. fold (est i s Ready) in *.
      destruct (stat_eqb s Ready) eqn:E.
      * apply stat_eqb_spec in E. subst s. split; [apply rdf_vst; auto|].
        rewrite (proj1 (est_ready i Hi Hs')). destruct (HIs i Hi) as [l ->]. reflexivity.
      * exfalso. apply Hn. apply est_ready_col; auto. intro Q. apply stat_eqb_spec in Q. congruence.
  - intros z Hz. destruct (sidx_surj ts (S i) z Hz) as [s' [Hs' <-]]. destruct (vst_nd' _ _ Hs') as [j [Hj Hn]].
    exists (sidx i (nd j i)). split; [apply sidx_lt; apply nd_vst'; auto|].
    apply (ent_nn _ _ _ _ j); auto using nd_vst'. apply hit_spec. auto.
  - intros y z Hy Hz. eapply ent_sorted with (n := n); auto; [apply HIok|apply HWt|apply HOKt].
Qed.

Lemma ent_row_nn : forall i y, i < n -> y < dimf i -> exists z, z < dimf (S i) /\ ent L i y z <> [].
Proof.
  intros i y Hi Hy. destruct (sidx_surj ts i y Hy) as [s [Hs <-]]. destruct (vst_nd' _ _ Hs) as [j [Hj Hn]].
  exists (sidx (S i) (nd j (S i))). split; [apply sidx_lt; apply nd_vst'; auto|].
  apply (ent_nn _ _ _ _ j); auto using nd_vst'. apply hit_spec. auto.
Qed.

Lemma dimf_pos : forall b, 1 <= dimf b.
Proof.
  intros b. pose proof L_pos as H0. pose proof (sidx_lt ts b _ (nd_vst' 0 b H0)). lia.
Qed.
Lemma dimf_0 : dimf 0 = 1.
Proof.
  assert (E : forall j, j < L -> nd j 0 = Ready) by (intros; apply nd_ready; lia).
  pose proof (sidx_lt ts 0 _ (nd_vst' 0 0 L_pos)) as H.
  destruct (Nat.lt_ge_cases 1 (dimf 0)) as [G|G]; [|lia].
  destruct (sidx_surj ts 0 1 G) as [s [Hs Q]]. destruct (vst_nd' _ _ Hs) as [j [Hj Hn]].
  rewrite (E j Hj) in Hn. subst s. discriminate.
Qed.
Lemma nd_n : forall j, j < L -> nd j n = Final.
Proof. intros j Hj. apply (nd_final n); auto using HWt. destruct (HT j Hj) as [[_ [H _]] _]. auto. Qed.
Lemma sidx_n : sidx n Final = 0.
Proof.
  assert (H : hasr ts n = false).
  { destruct (hasr ts n) eqn:E; auto. destruct (vst_nd' n Ready E) as [j [Hj Hn]]. rewrite nd_n in Hn by auto. discriminate. }
  simpl. rewrite H. reflexivity.
Qed.
Lemma dimf_n : dimf n = 1.
Proof.
  pose proof (dimf_pos n). destruct (Nat.lt_ge_cases 1 (dimf n)) as [G|G]; [|lia].
  destruct (sidx_surj ts n 1 G) as [s [Hs Q]]. destruct (vst_nd' _ _ Hs) as [j [Hj Hn]].
  rewrite nd_n in Hn by auto. subst s. rewrite sidx_n in Q. discriminate.
Qed.

(** *** the uncompressed matrices *)
Theorem gen_facts : exists ms, gen_mat_repr (fs n ids ts) = Ok ms /\ length ms = n /\
  Forall good ms /\ Forall nnm ms /\ chain 1 ms 1 /\
  (forall i m, nth_error ms i = Some m -> fmat rdf (fidx ts) i m /\ rows m = dimf i /\ cols m = dimf (S i) /\
     forall r c, r < dimf i -> c < dimf (S i) -> sm m r c = ent L i r c).
Proof.
  destruct (gen_mat_repr_spec n ids ts HIok HWt HOKt HI) as [ms [E1 [E2 E3]]].
  assert (IN : forall m, In m ms -> exists i, i < n /\ nth_error ms i = Some m).
  { intros m Hm. apply In_nth_error in Hm. destruct Hm as [i Hi]. exists i. split; auto.
    rewrite <- E2. apply nth_error_Some. congruence. }
  exists ms. split; auto. split; auto. split; [|split; [|split]].
  - apply Forall_forall. intros m Hm. destruct (IN m Hm) as [i [Hi Hn]]. destruct (E3 i m Hn) as [W [D1 [D2 D3]]].
    split; auto. split; [|rewrite D1, D2; split; apply dimf_pos].
    intros x y Hx Hy. rewrite D3 by lia. eapply ent_sorted with (n := n); auto; [apply HIok|apply HWt|apply HOKt].
  - apply Forall_forall. intros m Hm. destruct (IN m Hm) as [i [Hi Hn]]. destruct (E3 i m Hn) as [W [D1 [D2 D3]]].
    split.
    + intros x Hx. rewrite D1 in Hx. destruct (ent_row_nn i x Hi Hx) as [z [Hz H]]. exists z. rewrite D2, D3 by auto. auto.
    + intros y Hy. rewrite D2 in Hy. destruct (fi_nn _ _ _ _ _ _ _ (finv_ent i Hi) y Hy) as [x [Hx H]].
      exists x. rewrite D1, D3 by auto. auto.
  - assert (G : forall l b, b + length l = n -> (forall i m, nth_error l i = Some m -> rows m = dimf (b + i) /\ cols m = dimf (S (b + i))) ->
       chain (dimf b) l (dimf n)).
    { induction l as [|m l IH]; intros b Hb H; simpl in *; [f_equal; lia|].
      destruct (H 0 m eq_refl) as [D1 D2]. rewrite Nat.add_0_r in *. split; auto. rewrite D2. apply IH; [lia|].
      intros i q Hq. destruct (H (S i) q Hq) as [D3 D4]. rewrite <- plus_n_Sm in *. auto. }
    specialize (G ms 0 E2). rewrite dimf_0, dimf_n in G. apply G.
    intros i m Hm. destruct (E3 i m Hm) as [W [D1 [D2 D3]]]. auto.
  - intros i m Hm. destruct (E3 i m Hm) as [W [D1 [D2 D3]]]. split; auto.
    assert (Hi : i < n) by (rewrite <- E2; apply nth_error_Some; congruence).
    pose proof (finv_ent i Hi) as FI. unfold fmat. rewrite D1, D2. destruct FI. constructor.
    + intros. rewrite D3 by auto. auto.
    + intros y Hy Hf. destruct (fi_fin y Hy Hf) as [z [Hz HP]]. exists z. split; auto. eapply pure1_ext; eauto.
    + intros z Hz Hf. destruct (fi_one z Hz Hf) as [y0 [H1 [[l [c [H2 H3]]] H4]]]. exists y0. split; auto.
      split; [exists l, c; rewrite D3 by auto; auto|]. intros. rewrite D3 by auto. apply H4; auto.
    + intros z Hz Hr. destruct (fi_rd z Hz Hr) as [H1 H2]. split; auto. intros y Hy. rewrite D3 by auto. auto.
    + intros z Hz. destruct (fi_nn z Hz) as [y [Hy H]]. exists y. rewrite D3 by auto. auto.
    + intros y z Hy Hz. rewrite D3 by auto. auto.
Qed.

(** Compressing the FSM never fails and is a sequence of correct compression steps. *)
Theorem gen_compressed_facts : forall dbg, exists ms ms', gen_mat_repr (fs n ids ts) = Ok ms /\
  gen_compressed dbg (fs n ids ts) = Ok ms' /\ csteps ms ms' /\ Forall good ms /\ Forall nnm ms /\ chain 1 ms 1 /\ length ms = n.
Proof.
  intros dbg. destruct gen_facts as [ms [E1 [E2 [G [NN [C F]]]]]].
  assert (Hn : 1 <= n).
  { destruct (HT 0 L_pos) as [[_ [H _]] _]. lia. }
  destruct (compress_chain_ok n rdf (fidx ts) dbg 1 1 ms Hn E2 G NN C) as [ms' [E3 S]].
  - intros i m Hm. apply (F i m Hm).
  - exists ms, ms'. split; auto. split; [|auto].
    unfold gen_compressed. rewrite E1. cbn [bind]. replace (f_n (fs n ids ts)) with n by reflexivity.
    rewrite (proj2 (Nat.eqb_neq n 0)) by lia. auto.
Qed.

(** *** value of the uncompressed chain *)
Section Val.
Variable R : Type.
Variables (r0 r1 : R) (radd rmul rsub : R -> R -> R) (ropp : R -> R).
Variable Rth : ring_theory r0 r1 radd rmul rsub ropp (@eq R).
Add Ring Rring : Rth.
Variable cv : nat -> R.
Hypothesis cv_id : cv 0 = r1.
Variable ev : nat -> nat -> R.
Infix "*r" := rmul (at level 40).
Infix "+r" := radd (at level 50).
Notation oval := (oval R r0 radd rmul cv).
Notation nsum := (nsum R r0 radd).
Notation mprod := (mprod R r0 r1 radd rmul cv ev).
Notation ite b x := (if (b : bool) then x else r0).

(** operators of term [j] on [k] sites from [b] on *)
Fixpoint tw (k j b : nat) : R :=
  match k with O => r1 | S k' => oval (ev b) (op j b) *r tw k' j (S b) end.
Fixpoint idp (k b : nat) : R :=
  match k with O => r1 | S k' => oval (ev b) (nth b ids []) *r idp k' (S b) end.

(** a term is dropped when it is an on-site term equal to what its site already has *)
Definition onsite (j : nat) : bool := t_head (tm j) =? t_tail (tm j).
Definition eff (j : nat) : bool :=
  negb (onsite j && (let e := ent j (t_head (tm j)) (sidx (t_head (tm j)) Ready) (sidx (S (t_head (tm j))) Final) in
                     negb (op_isnull e) && op_eq e (op j (t_head (tm j))))).

Definition VR (b : nat) (s : stat) : R :=
  match s with
  | Final => idp (n - b) b
  | _ => nsum L (fun j => ite (eff j && stat_eqb (nd j b) s) (tw (n - b) j b))
  end.

Lemma tw_final : forall k j b, j < L -> b + k <= n -> nd j b = Final -> tw k j b = idp k b.
Proof.
  induction k; intros j b Hj Hb H; simpl; auto. rewrite final_op by (auto; lia). f_equal.
  apply IHk; auto; [lia|]. apply final_fwd; auto.
Qed.
Lemma eff_off : forall j b k, j < L -> nd j b = Mid k -> eff j = true.
Proof.
  intros j b k Hj H. unfold eff, onsite. apply nd_mid in H. destruct H as [H _]. unfold ismid in H.
  apply andb_true_iff in H. destruct H as [H1 H2]. apply Nat.ltb_lt in H1. apply Nat.leb_le in H2.
  rewrite (proj2 (Nat.eqb_neq _ _)) by lia. reflexivity.
Qed.

Lemma onsite_val : forall i m, i < n -> vst i Ready -> vst (S i) Final -> m <= L ->
  oval (ev i) (ent m i (sidx i Ready) (sidx (S i) Final)) =
  nsum m (fun j => ite (eff j && hit i Ready Final j) (oval (ev i) (op j i))).
Proof.
  intros i m Hi V1 V2. induction m; intros Hm; [reflexivity|].
  rewrite ent_S, estep_hit by (auto; lia). cbn [Numeric.nsum].
  rewrite <- IHm by lia. destruct (hit i Ready Final m) eqn:E.
  - apply hit_spec in E. destruct E as [E1 E2]. apply nd_ready in E1. apply (nd_final n) in E2; [|apply HWt|lia].
    destruct (HT m ltac:(lia)) as [[W1 _] _]. assert (Eh : t_head (tm m) = i) by lia.
    rewrite andb_true_r. unfold eff, onsite. rewrite Eh. rewrite (proj2 (Nat.eqb_eq i (t_tail (tm m)))) by lia.
    cbn [andb]. unfold castf. set (e := ent m i (sidx i Ready) (sidx (S i) Final)).
    destruct (op_isnull e) eqn:En.
    + apply op_isnull_spec in En. rewrite En. cbn [negb andb]. transitivity (r0 +r oval (ev i) (op m i)); [ring|reflexivity].
    + simpl. destruct (op_eq e (op m i)); simpl.
      * ring.
      * rewrite (oval_add _ _ _ _ _ _ _ Rth). reflexivity.
  - rewrite andb_false_r. ring.
Qed.

Lemma step_val : forall i s s', i < n -> vst i s -> vst (S i) s' -> s <> Final ->
  oval (ev i) (est i s s') *r VR (S i) s' = nsum L (fun j => ite (eff j && hit i s s' j) (tw (n - i) j i)).
Proof.
  intros i s s' Hi Hs Hs' Hns.
  assert (TW : forall j, tw (n - i) j i = oval (ev i) (op j i) *r tw (n - S i) j (S i)).
  { intros j. replace (n - i) with (S (n - S i)) by lia. reflexivity. }
  destruct s' as [| |k].
  - (* to the ready state *)
    destruct (stat_eqb s Ready) eqn:Es.
    + apply stat_eqb_spec in Es. subst s. rewrite (proj1 (est_ready i Hi Hs')). simpl VR.
      rewrite (nsum_mul_l _ _ _ _ _ _ _ Rth). apply nsum_ext. intros j Hj.
      replace (hit i Ready Ready j) with (stat_eqb (nd j (S i)) Ready).
      * destruct (eff j && stat_eqb (nd j (S i)) Ready) eqn:E; [|ring].
        apply andb_true_iff in E. destruct E as [_ E]. apply stat_eqb_spec in E.
        rewrite TW, (ready_op j i) by auto. ring.
      * destruct (stat_eqb (nd j (S i)) Ready) eqn:E.
        { apply stat_eqb_spec in E. symmetry. apply hit_spec. split; auto. apply ready_back; auto. }
        { symmetry. destruct (hit i Ready Ready j) eqn:Q; auto. apply hit_spec in Q. destruct Q as [_ Q].
          apply stat_eqb_spec in Q. congruence. }
    + assert (Hne : s <> Ready) by (intro Q; apply stat_eqb_spec in Q; congruence).
      rewrite est_ready_col by auto. transitivity r0; [unfold CoefOpAlg.oval; simpl; ring|].
      symmetry. apply (nsum_0 _ _ _ _ _ _ _ Rth). intros j Hj.
      destruct (hit i s Ready j) eqn:Q; [|rewrite andb_false_r; reflexivity].
      apply hit_spec in Q. destruct Q as [Q1 Q2]. exfalso. apply Hne. rewrite <- Q1. apply ready_back; auto.
  - (* to the final state *)
    simpl VR. destruct s as [| |k]; [|congruence|].
    + unfold est. rewrite onsite_val by auto. rewrite (nsum_mul_r _ _ _ _ _ _ _ Rth).
      apply nsum_ext. intros j Hj. destruct (eff j && hit i Ready Final j) eqn:E; [|ring].
      apply andb_true_iff in E. destruct E as [_ E]. apply hit_spec in E. destruct E as [E1 E2].
      rewrite TW, tw_final by (auto; lia). reflexivity.
    + destruct (vst_nd' _ _ Hs) as [j [Hj Hn]].
      destruct (stat_eqb (nd j (S i)) Final) eqn:E.
      * apply stat_eqb_spec in E. rewrite <- Hn at 1. rewrite <- E at 1. rewrite est_own by eauto.
        rewrite (nsum_one _ _ _ _ _ _ _ Rth _ j); auto.
        -- rewrite (eff_off j i k), (proj2 (hit_spec i (Mid k) Final j)) by auto. simpl.
           rewrite TW, tw_final by (auto; lia). reflexivity.
        -- intros q Hq Hne. destruct (hit i (Mid k) Final q) eqn:Q; [|rewrite andb_false_r; reflexivity].
           apply hit_spec in Q. destruct Q as [Q1 Q2]. exfalso. apply Hne. eapply mid_unique; eauto.
      * rewrite (est_mid_row i j) by (auto; intro Q; rewrite <- Q, stat_eqb_refl in E; discriminate).
        transitivity r0; [unfold CoefOpAlg.oval; simpl; ring|]. symmetry. apply (nsum_0 _ _ _ _ _ _ _ Rth).
        intros q Hq. destruct (hit i (Mid k) Final q) eqn:Q; [|rewrite andb_false_r; reflexivity].
        apply hit_spec in Q. destruct Q as [Q1 Q2]. exfalso.
        assert (q = j) by (eapply mid_unique; eauto). subst q. rewrite Q2, stat_eqb_refl in E. discriminate.
  - (* to an inner state *)
    destruct (vst_nd' _ _ Hs') as [j [Hj Hn]]. simpl VR.
    assert (V : nsum L (fun q => ite (eff q && stat_eqb (nd q (S i)) (Mid k)) (tw (n - S i) q (S i))) = tw (n - S i) j (S i)).
    { rewrite (nsum_one _ _ _ _ _ _ _ Rth _ j); auto.
      - rewrite (eff_off j (S i) k), Hn, stat_eqb_refl by auto. reflexivity.
      - intros q Hq Hne. destruct (stat_eqb (nd q (S i)) (Mid k)) eqn:Q; [|rewrite andb_false_r; reflexivity].
        apply stat_eqb_spec in Q. exfalso. apply Hne. eapply mid_unique; eauto. }
    rewrite V. destruct (stat_eqb s (nd j i)) eqn:E.
    + apply stat_eqb_spec in E. rewrite E at 1. rewrite <- Hn at 1. rewrite est_own by eauto.
      rewrite (nsum_one _ _ _ _ _ _ _ Rth _ j); auto.
      * rewrite (eff_off j (S i) k), (proj2 (hit_spec i s (Mid k) j)) by auto. simpl. rewrite TW. reflexivity.
      * intros q Hq Hne. destruct (hit i s (Mid k) q) eqn:Q; [|rewrite andb_false_r; reflexivity].
        apply hit_spec in Q. destruct Q as [Q1 Q2]. exfalso. apply Hne. eapply mid_unique; eauto.
    + rewrite (est_mid_col i j) by (auto; intro Q; rewrite Q, stat_eqb_refl in E; discriminate).
      transitivity r0; [unfold CoefOpAlg.oval; simpl; ring|]. symmetry. apply (nsum_0 _ _ _ _ _ _ _ Rth).
      intros q Hq. destruct (hit i s (Mid k) q) eqn:Q; [|rewrite andb_false_r; reflexivity].
      apply hit_spec in Q. destruct Q as [Q1 Q2]. exfalso.
      assert (q = j) by (eapply mid_unique; eauto). subst q. rewrite Q1, stat_eqb_refl in E. discriminate.
Qed.

Lemma suffix_val : forall ms l b, (forall i m, nth_error ms i = Some m -> cols m = dimf (S i) /\
     forall r c, r < dimf i -> c < dimf (S i) -> sm m r c = ent L i r c) ->
  b + length l = n -> (forall i, nth_error l i = nth_error ms (b + i)) ->
  forall s, vst b s -> mprod b l (sidx b s) 0 = VR b s.
Proof.
  intros ms l. induction l as [|m l IH]; intros b HM Hb HN s Hs.
  - simpl in Hb. rewrite Nat.add_0_r in Hb. subst b. destruct (vst_nd' _ _ Hs) as [j [Hj Hn]].
    rewrite nd_n in Hn by auto. subst s. rewrite sidx_n. simpl. rewrite Nat.sub_diag. reflexivity.
  - simpl in Hb. assert (HN0 := HN 0). simpl in HN0. rewrite Nat.add_0_r in HN0. symmetry in HN0.
    destruct (HM b m HN0) as [HC HE]. simpl. rewrite HC.
    assert (IH' : forall s', vst (S b) s' -> mprod (S b) l (sidx (S b) s') 0 = VR (S b) s').
    { apply IH; auto; [lia|]. intros i. replace (S b + i) with (b + S i) by lia. apply (HN (S i)). }
    pose proof (sidx_lt ts b s Hs) as Ls.
    destruct (stat_eqb s Final) eqn:Es.
    + apply stat_eqb_spec in Es. subst s. destruct (est_final b ltac:(lia) Hs) as [E V].
      pose proof (sidx_lt ts (S b) Final V) as Lf.
      rewrite (nsum_one _ _ _ _ _ _ _ Rth _ (sidx (S b) Final)); auto.
      * rewrite HE by auto. fold (est b Final Final). rewrite E, IH' by auto. simpl.
        replace (n - b) with (S (n - S b)) by lia. reflexivity.
      * intros z Hz Hne. destruct (sidx_surj ts (S b) z Hz) as [s' [Hs' <-]].
        rewrite HE by auto. fold (est b Final s'). rewrite est_final_row; auto; [|lia|congruence].
        unfold CoefOpAlg.oval. simpl. ring.
    + assert (Hns : s <> Final) by (intro Q; apply stat_eqb_spec in Q; congruence).
      transitivity (nsum (dimf (S b)) (fun z => nsum L (fun j =>
        ite (eff j && stat_eqb (nd j b) s && (sidx (S b) (nd j (S b)) =? z)) (tw (n - b) j b)))).
      * apply nsum_ext. intros z Hz. destruct (sidx_surj ts (S b) z Hz) as [s' [Hs' <-]].
        rewrite HE by auto. fold (est b s s'). rewrite IH', step_val by (auto; lia).
        apply nsum_ext. intros j Hj. unfold hit.
        rewrite (Nat.eqb_sym (sidx (S b) (nd j (S b)))), sidx_eqb by auto.
        rewrite (stat_eqb_sym (nd j b) s), andb_assoc. reflexivity.
      * rewrite (nsum_swap _ _ _ _ _ _ _ Rth).
        transitivity (nsum L (fun j => ite (eff j && stat_eqb (nd j b) s) (tw (n - b) j b))).
        -- apply nsum_ext. intros j Hj.
           pose proof (sidx_lt ts (S b) _ (nd_vst' j (S b) Hj)) as Lj.
           rewrite (nsum_one _ _ _ _ _ _ _ Rth _ (sidx (S b) (nd j (S b)))); auto.
           ++ rewrite Nat.eqb_refl, andb_true_r. reflexivity.
           ++ intros z Hz Hne. rewrite (proj2 (Nat.eqb_neq _ z)) by auto. rewrite andb_false_r. reflexivity.
        -- destruct s; [reflexivity|congruence|reflexivity].
Qed.

(** The uncompressed chain is the sum over the terms that are not dropped. *)
Theorem gen_value : forall ms, gen_mat_repr (fs n ids ts) = Ok ms ->
  mprod 0 ms 0 0 = nsum L (fun j => ite (eff j) (tw n j 0)).
Proof.
  intros ms E. destruct gen_facts as [ms1 [E1 [E2 [_ [_ [_ F]]]]]]. rewrite E in E1. injection E1 as <-.
  assert (V0 : vst 0 Ready).
  { assert (Q : nd 0 0 = Ready) by (apply nd_ready; lia). rewrite <- Q. apply nd_vst'. apply L_pos. }
  replace (mprod 0 ms 0 0) with (mprod 0 ms (sidx 0 Ready) 0) by reflexivity.
  rewrite (suffix_val ms ms 0); auto.
  - simpl. rewrite Nat.sub_0_r. apply nsum_ext. intros j Hj.
    replace (nd j 0) with Ready by (symmetry; apply nd_ready; lia). simpl. rewrite andb_true_r. reflexivity.
  - intros i m Hm. destruct (F i m Hm) as [_ [_ [D2 D3]]]. auto.
Qed.
End Val.
End Sem.
