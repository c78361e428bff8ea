(** The chain of matrices generated from AddTerm calls represents the sum of the terms. *)
From Coq Require Import List Arith Lia Bool Permutation Ring Sorted.
From Verif Require Import Base SparMat SparMatFacts CoefOp CoefOpAlg CoefOpFacts Compress Fsm Numeric Chain
  ChainProgress FsmFacts FsmMat FsmSem MpoGen MpoGenFacts MpoSpec.
Import ListNotations.

(** *** weight of a symbolic operator: number of coefficient labels *)
Fixpoint weight (o : oprepr) : nat := match o with [] => 0 | kc :: t => length (snd kc) + weight t end.
Lemma remove1_len : forall x l l', remove1 x l = Some l' -> length l = S (length l').
Proof.
  induction l as [|y t IH]; intros l' H; simpl in H; [discriminate|]. destruct (x =? y); [injection H as <-; auto|].
  destruct (remove1 x t) eqn:E; [|discriminate]. injection H as <-. simpl. rewrite (IH l); auto.
Qed.
Lemma coef_eq_len : forall a b, coef_eq a b = true -> length a = length b.
Proof.
  induction a as [|x a IH]; intros b H; simpl in H; [destruct b; [auto|discriminate]|].
  destruct (remove1 x b) as [b'|] eqn:E; [|discriminate]. apply remove1_len in E. rewrite E. simpl. auto.
Qed.
Lemma op_eq_weight : forall a b, op_eq a b = true -> weight a = weight b.
Proof.
  induction a as [|[k c] a IH]; intros [|[k' c'] b] H; simpl in *; try discriminate; auto.
  apply andb_true_iff in H. destruct H as [H H2]. apply andb_true_iff in H. destruct H as [_ H1].
  rewrite (coef_eq_len _ _ H1), (IH _ H2). reflexivity.
Qed.
Lemma map_add_weight : forall k c m, weight (map_add k c m) = length c + weight m.
Proof.
  induction m as [|[k' c'] t IH]; simpl; auto. destruct (k <? k'); simpl; auto. destruct (k =? k'); simpl.
  - rewrite app_length. lia.
  - rewrite IH. lia.
Qed.
Lemma op_add_weight : forall b a, weight (op_add a b) = weight a + weight b.
Proof.
  unfold op_add. induction b as [|kc b IH]; intros a; simpl; auto. rewrite IH, map_add_weight. lia.
Qed.

Section GenSem.
Variables (R : Type) (r0 r1 : R) (radd rmul rsub : R -> R -> R) (ropp : R -> R).
Variable Rth : ring_theory r0 r1 radd rmul rsub ropp (@eq R).
Add Ring Rring2 : Rth.
Variables (reqb : R -> R -> bool) (isneg : R -> bool).
Hypothesis reqb_spec : forall x y, reqb x y = true <-> x = y.
Infix "*r" := rmul (at level 40).
Infix "+r" := radd (at level 50).
Notation lop := (lop R).
Notation norm1 := (norm1 R r0 ropp reqb isneg).
Notation ncoef := (ncoef R r0 ropp reqb isneg).
Notation nrm := (nrm R r0 ropp reqb isneg).
Notation lop_neg := (lop_neg R ropp).
Notation rprod := (rprod R r1 rmul).
Notation elem := (elem r0).
Notation term_elem := (term_elem R r0 r1 rmul).
Notation first_nz := (first_nz R r0 reqb).

Lemma ropp_0 : ropp r0 = r0. Proof. ring. Qed.
Lemma nth_map0 : forall (l : list R) i, nth i (map ropp l) r0 = ropp (nth i l r0).
Proof. induction l; intros [|i]; simpl; auto; symmetry; apply ropp_0. Qed.
Lemma elem_neg : forall o a b, elem (lop_neg o) a b = ropp (elem o a b).
Proof.
  intros o a b. unfold MpoSpec.elem, MpoGen.lop_neg. simpl.
  replace (nth a (map (map ropp) (lo_dat o)) []) with (map ropp (nth a (lo_dat o) [])); [apply nth_map0|].
  symmetry. change (@nil R) with (map ropp []) at 1. apply map_nth.
Qed.

Lemma rprod_ext : forall k b f g, (forall i, b <= i < b + k -> f i = g i) -> rprod k b f = rprod k b g.
Proof. induction k; intros b f g H; simpl; auto. rewrite H by lia. f_equal. apply IHk. intros. apply H. lia. Qed.
Lemma rprod_flip : forall k b i0 f g, b <= i0 < b + k -> g i0 = ropp (f i0) ->
  (forall i, i <> i0 -> g i = f i) -> rprod k b g = ropp (rprod k b f).
Proof.
  induction k; intros b i0 f g H1 H2 H3; [lia|]. simpl. destruct (Nat.eq_dec b i0).
  - subst i0. rewrite H2. rewrite (rprod_ext k (S b) g f) by (intros; apply H3; lia). ring.
  - rewrite (IHk (S b) i0 f g) by (auto; lia). rewrite H3 by auto. ring.
Qed.

Definition sel (P : list (lop * nat)) (f : nat -> R) (e : lop -> nat -> R) (i : nat) : R :=
  match find (fun p => i =? snd p) P with Some p => e (fst p) i | None => f i end.
Lemma find_none_site : forall (P : list (lop * nat)) i, ~ In i (map snd P) -> find (fun p => i =? snd p) P = None.
Proof.
  induction P as [|p P IH]; intros i H; simpl in *; auto. destruct (Nat.eqb_spec i (snd p)); [exfalso; apply H; auto|].
  apply IH. tauto.
Qed.

(** moving the signs of the operators into the coefficient changes nothing *)
Lemma sign_move : forall n P (e : lop -> nat -> R), (forall o i, e (lop_neg o) i = ropp (e o i)) ->
  NoDup (map snd P) -> (forall p, In p P -> snd p < n) -> forall c f,
  ncoef c (map fst P) *r rprod n 0 (sel P f (fun o i => e (norm1 o) i)) = c *r rprod n 0 (sel P f e).
Proof.
  intros n P e He. induction P as [|p P IH]; intros ND HS c f; [reflexivity|].
  simpl in ND. inversion ND; subst. simpl map. unfold MpoGenFacts.ncoef. simpl. fold (ncoef (if isneg (first_nz (fst p)) then ropp c else c) (map fst P)).
  set (c' := if isneg (first_nz (fst p)) then ropp c else c).
  rewrite (rprod_ext n 0 _ (sel P (fun i => if i =? snd p then e (norm1 (fst p)) i else f i) (fun o i => e (norm1 o) i))).
  2:{ intros i _. unfold sel. simpl. destruct (Nat.eqb_spec i (snd p)); auto.
      subst i. rewrite find_none_site by auto. reflexivity. }
  rewrite IH; auto; [|intros; apply HS; right; auto].
  rewrite (rprod_ext n 0 (sel (p :: P) f e) (sel P (fun i => if i =? snd p then e (fst p) i else f i) e)).
  2:{ intros i _. unfold sel. simpl. destruct (Nat.eqb_spec i (snd p)); auto.
      subst i. rewrite find_none_site by auto. reflexivity. }
  unfold c', MpoGenFacts.norm1. destruct (isneg (first_nz (fst p))); [|reflexivity].
  rewrite (rprod_flip n 0 (snd p) (sel P (fun i => if i =? snd p then e (fst p) i else f i) e)).
  - ring.
  - split; [lia|]. simpl. apply HS. left. auto.
  - unfold sel. rewrite find_none_site by auto. rewrite Nat.eqb_refl. apply He.
  - intros i Hi. unfold sel. destruct (find _ P); auto. rewrite (proj2 (Nat.eqb_neq _ _)) by auto. reflexivity.
Qed.

(** lookup does not depend on the order *)
Lemma find_perm : forall (P Q : list (lop * nat)) i, Permutation P Q -> NoDup (map snd P) ->
  find (fun p => i =? snd p) P = find (fun p => i =? snd p) Q.
Proof.
  intros P Q i H. induction H; intros ND; simpl in *; auto.
  - inversion ND; subst. rewrite IHPermutation by auto. reflexivity.
  - inversion ND; subst. destruct (Nat.eqb_spec i (snd x)), (Nat.eqb_spec i (snd y)); auto. subst i.
    exfalso. apply H1. left. auto.
  - rewrite IHPermutation1 by auto. apply IHPermutation2. eapply Permutation_NoDup; [|exact ND]. apply Permutation_map. auto.
Qed.
Lemma find_nrm : forall P i, find (fun p => i =? snd p) (nrm P) =
  option_map (fun p => (norm1 (fst p), snd p)) (find (fun p => i =? snd p) P).
Proof. induction P as [|p P IH]; intros i; simpl; auto. destruct (i =? snd p); auto. Qed.

Variables (sites : list nat) (idops : list lop).
Notation n := (length sites).
Notation opf := (opf R).

Lemma value_move : forall s s' c P, valid_call R sites (c, P) ->
  ncoef c (map fst P) *r rprod n 0 (fun i => elem (opf idops (sort_sites (nrm P)) i) (s i) (s' i)) =
  term_elem idops n s s' (c, P).
Proof.
  intros s s' c P [_ [ND HF]]. simpl in ND, HF. unfold MpoSpec.term_elem. simpl fst. simpl snd.
  set (f := fun i => elem (nth i idops (mkLop 0 [])) (s i) (s' i)).
  set (e := fun (o : lop) i => elem o (s i) (s' i)).
  rewrite (rprod_ext n 0 _ (sel P f (fun o i => e (norm1 o) i))).
  2:{ intros i _. unfold MpoGenFacts.opf, sel. rewrite <- (find_perm (nrm P) _ i).
      - rewrite find_nrm. destruct (find _ P); reflexivity.
      - apply sort_sites_perm.
      - rewrite nrm_snd. auto. }
  rewrite sign_move; auto.
  - f_equal. apply rprod_ext. intros i _. unfold sel, op_on. destruct (find _ P); reflexivity.
  - intros o i. unfold e. apply elem_neg.
  - intros p Hp. rewrite Forall_forall in HF. apply nth_error_Some. rewrite (HF p Hp). discriminate.
Qed.

(** *** semantics of a generator state *)
Section State.
Variables (H : list (call R)) (g : gen R) (idl : list nat) (ts : list term).
Hypothesis Hv : Forall (valid_call R sites) H.
Hypothesis Hne : H <> [].
Hypothesis HL : length idops = n.
Hypothesis HC0 : nth_error (g_ch g) 0 = Some r1.
Hypothesis HCD : NoDup (g_ch g).
Hypothesis HOD : NoDup (g_oh g).
Hypothesis HI : Forall2 (fun l o => nth_error (g_oh g) l = Some o) idl idops.
Hypothesis HT : Forall2 (fun t cp => tmatch R (g_ch g) (g_oh g) idops n t (ncoef (fst cp) (map fst (snd cp)))
        (sort_sites (nrm (snd cp)))) ts H.
Variables s s' : nat -> nat.

Definition cv (k : nat) : R := nth k (g_ch g) r0.
Definition ev (i l : nat) : R := elem (nth l (g_oh g) (mkLop 0 [])) (s i) (s' i).
Notation ids := (map op_of_label idl).
Notation L := (length ts).

Lemma cv_0 : cv 0 = r1.
Proof. unfold cv. apply nth_error_nth. auto. Qed.

Lemma idl_len : length idl = n.
Proof. rewrite (Forall2_len _ _ _ _ _ HI). auto. Qed.
Lemma ids_len : length ids = n.
Proof. rewrite map_length. apply idl_len. Qed.

Lemma Forall2_nth_l : forall A B (P : A -> B -> Prop) l l' i a, Forall2 P l l' -> nth_error l i = Some a ->
  exists b, nth_error l' i = Some b /\ P a b.
Proof.
  intros A B P l l' i a F. revert i. induction F; intros [|i] Hi; simpl in *; try discriminate; eauto.
  injection Hi as <-. eauto.
Qed.
Lemma id_at : forall i, i < n -> exists l, nth i ids [] = [(l, kId)] /\ nth_error (g_oh g) l = Some (nth i idops (mkLop 0 [])).
Proof.
  intros i Hi. rewrite <- idl_len in Hi. apply nth_error_Some in Hi. destruct (nth_error idl i) as [l|] eqn:E; [|congruence].
  destruct (Forall2_nth_l _ _ _ _ _ _ _ HI E) as [o [E1 E2]]. exists l. split.
  - apply nth_error_nth. rewrite nth_error_map, E. reflexivity.
  - rewrite E2. f_equal. symmetry. apply nth_error_nth. auto.
Qed.
Lemma ids_sh : forall i, i < n -> shid (nth i ids []).
Proof. intros i Hi. destruct (id_at i Hi) as [l [E _]]. exists l. auto. Qed.

Lemma ts_sh : Forall (fun t => wfterm n t /\ shterm t) ts.
Proof.
  apply Forall_forall. intros t Ht. destruct (In_nth_error _ _ Ht) as [j Hj].
  destruct (Forall2_nth_l _ _ _ _ _ _ _ HT Hj) as [cp [_ M]]. destruct M as [M1 M2 M3 [l [k [M4 _]]] M5].
  split; auto. split.
  - exists l, [k]. split; auto. discriminate.
  - intros i Hi. destruct M1 as [W1 [W2 W3]]. destruct (M5 (t_head t + i) ltac:(lia)) as [l' [Q _]].
    replace (t_head t + i - t_head t) with i in Q by lia. eauto.
Qed.
Lemma ts_ne : ts <> [].
Proof. intro Z. pose proof (Forall2_len _ _ _ _ _ HT) as Q. rewrite Z in Q. destruct H; [congruence|discriminate]. Qed.
Lemma L_eq : L = length H.
Proof. apply (Forall2_len _ _ _ _ _ HT). Qed.

Lemma tm_at : forall j, j < L -> exists cp, nth_error H j = Some cp /\ valid_call R sites cp /\
  tmatch R (g_ch g) (g_oh g) idops n (tm ts j) (ncoef (fst cp) (map fst (snd cp))) (sort_sites (nrm (snd cp))).
Proof.
  intros j Hj. assert (E : nth_error ts j = Some (tm ts j)).
  { unfold tm. apply nth_error_nth'. auto. }
  destruct (Forall2_nth_l _ _ _ _ _ _ _ HT E) as [cp [E1 E2]]. exists cp. split; auto. split; auto.
  rewrite Forall_forall in Hv. apply Hv. eapply nth_error_In; eauto.
Qed.

(** operator of path [j] on site [i] *)
Lemma op_at : forall j cp i, j < L -> nth_error H j = Some cp -> i < n ->
  exists l c, op ids ts j i = [(l, c)] /\ nth_error (g_oh g) l = Some (opf idops (sort_sites (nrm (snd cp))) i) /\
   (i <> t_head (tm ts j) -> c = kId) /\
   (i = t_head (tm ts j) -> exists k, c = [k] /\ nth_error (g_ch g) k = Some (ncoef (fst cp) (map fst (snd cp)))).
Proof.
  intros j cp i Hj E Hi. destruct (tm_at j Hj) as [cp' [E1 [V M]]]. rewrite E in E1. injection E1 as <-.
  destruct M as [M1 M2 M3 [l [k [M4 [M5 M6]]]] M7]. destruct M1 as [W1 [W2 W3]].
  set (Q := sort_sites (nrm (snd cp))) in *.
  assert (SQ : StronglySorted (site_le lop) Q) by apply sort_sites_sorted.
  assert (HNQ : Q <> []).
  { intro Z. assert (PQ : Permutation (nrm (snd cp)) Q) by apply sort_sites_perm. rewrite Z in PQ.
    apply Permutation_sym, Permutation_nil in PQ. destruct V as [V _]. destruct (snd cp); [congruence|discriminate]. }
  destruct (sorted_head_tail R Q HNQ SQ) as [S1 [S2 S3]].
  unfold op, opat. destruct (Nat.ltb_spec i (t_head (tm ts j))); [|destruct (Nat.ltb_spec (t_tail (tm ts j)) i)]; simpl orb; cbv iota.
  1,2: destruct (id_at i Hi) as [l' [Q1 Q2]]; exists l', kId; split; auto; split; [|split; [auto|lia]];
    rewrite Q2; f_equal; unfold MpoGenFacts.opf; rewrite find_none_site; auto;
    intro Z; apply in_map_iff in Z; destruct Z as [p [Z1 Z2]]; specialize (S3 p Z2); lia.
  destruct (Nat.eq_dec i (t_head (tm ts j))) as [Hh|Hh].
  - exists l, [k]. rewrite Hh. rewrite Nat.sub_diag. split; auto. split; auto. split; [congruence|]. intros _. exists k. auto.
  - destruct (M7 i ltac:(lia)) as [l' [Q1 Q2]]. exists l', kId. split; auto. split; auto. split; auto. lia.
Qed.

Notation tw' := (tw ids ts R r0 r1 radd rmul cv ev).

Lemma tw_prod : forall cp j, j < L -> nth_error H j = Some cp -> forall k b, b + k <= n ->
  tw' k j b = (if (b <=? t_head (tm ts j)) && (t_head (tm ts j) <? b + k) then ncoef (fst cp) (map fst (snd cp)) else r1) *r
    rprod k b (fun i => elem (opf idops (sort_sites (nrm (snd cp))) i) (s i) (s' i)).
Proof.
  intros cp j Hj E. induction k; intros b Hb.
  - simpl. destruct (Nat.leb_spec b (t_head (tm ts j))); simpl; [|ring].
    destruct (Nat.ltb_spec (t_head (tm ts j)) (b + 0)); [lia|ring].
  - simpl tw. simpl rprod. rewrite IHk by lia.
    destruct (op_at j cp b Hj E ltac:(lia)) as [l [c [O1 [O2 [O3 O4]]]]]. rewrite O1.
    assert (EV : ev b l = elem (opf idops (sort_sites (nrm (snd cp))) b) (s b) (s' b)).
    { unfold ev. rewrite (nth_error_nth _ _ _ O2). reflexivity. }
    unfold oval, cval. cbn [fold_right fst snd]. rewrite EV.
    destruct (Nat.eq_dec b (t_head (tm ts j))) as [Hh|Hh].
    + destruct (O4 Hh) as [k0 [-> O5]]. cbn [fold_right]. unfold cv at 1. rewrite (nth_error_nth _ _ _ O5).
      rewrite (proj2 (Nat.leb_le b (t_head (tm ts j)))) by lia. rewrite (proj2 (Nat.ltb_lt (t_head (tm ts j)) (b + S k))) by lia.
      rewrite (proj2 (Nat.leb_gt (S b) _)) by lia. cbn [andb]. ring.
    + rewrite (O3 Hh). unfold kId, kIdCoefLabel. cbn [fold_right]. rewrite cv_0.
      replace (S b <=? t_head (tm ts j)) with (b <=? t_head (tm ts j)).
      2:{ destruct (Nat.leb_spec b (t_head (tm ts j))), (Nat.leb_spec (S b) (t_head (tm ts j))); auto; lia. }
      replace (t_head (tm ts j) <? S b + k) with (t_head (tm ts j) <? b + S k) by (f_equal; lia).
      ring.
Qed.

Lemma tw_value : forall cp j, j < L -> nth_error H j = Some cp -> tw' n j 0 = term_elem idops n s s' cp.
Proof.
  intros cp j Hj E. rewrite (tw_prod cp j Hj E) by lia. destruct (tm_at j Hj) as [cp' [E1 [V M]]].
  rewrite E in E1. injection E1 as <-. destruct M as [[W1 [W2 _]] _ _ _ _].
  rewrite (proj2 (Nat.ltb_lt _ _)) by lia. simpl. destruct cp as [c P]. apply value_move. auto.
Qed.

(** *** dropped terms *)
Lemma single_eq : forall l k l' k', op_eq [(l, [k])] [(l', [k'])] = true -> [(l, [k])] = [(l', [k'])].
Proof.
  intros l k l' k' Q. cbn [op_eq] in Q. apply andb_true_iff in Q. destruct Q as [Q _]. apply andb_true_iff in Q. destruct Q as [Q1 Q2].
  apply Nat.eqb_eq in Q1. cbn [coef_eq remove1] in Q2. destruct (Nat.eqb_spec k k'); [congruence|discriminate].
Qed.

Notation hit' i j := (hit ts i Ready Final j).
Notation acc m i := (ent ids ts m i (sidx ts i Ready) (sidx ts (S i) Final)).

Lemma hit_site : forall i j, j < L -> hit' i j = true <-> (t_head (tm ts j) = i /\ t_tail (tm ts j) = i).
Proof.
  intros i j Hj. destruct (tm_at j Hj) as [cp [_ [_ [[W1 _] _ _ _ _]]]]. rewrite hit_spec. rewrite nd_ready.
  rewrite (nd_final n ts); [lia| |auto]. intros q Hq. destruct (tm_at q Hq) as [? [_ [_ [W _ _ _ _]]]]. exact W.
Qed.
Lemma hit_op : forall i j, j < L -> i < n -> hit' i j = true -> exists l k, op ids ts j i = [(l, [k])].
Proof.
  intros i j Hj Hi Q. apply hit_site in Q; auto. destruct Q as [Q _]. destruct (tm_at j Hj) as [cp [E _]].
  destruct (op_at j cp i Hj E Hi) as [l [c [O1 [_ [_ O4]]]]]. destruct (O4 (eq_sym Q)) as [k [-> _]]. eauto.
Qed.

Lemma acc_cases : forall i m, i < n -> vst ts i Ready -> vst ts (S i) Final -> m <= L ->
  ((forall j, j < m -> hit' i j = false) /\ acc m i = []) \/
  (exists j0, j0 < m /\ hit' i j0 = true /\ (forall j, j < m -> hit' i j = true -> op ids ts j i = op ids ts j0 i) /\
     acc m i = op ids ts j0 i) \/
  (2 <= weight (acc m i) /\ exists j1 j2, j1 < m /\ j2 < m /\ hit' i j1 = true /\ hit' i j2 = true /\
     op ids ts j1 i <> op ids ts j2 i).
Proof.
  intros i m Hi V1 V2. induction m; intros Hm; [left; split; auto; intros; lia|].
  assert (ES : acc (S m) i = if hit' i m then castf (acc m i) (op ids ts m i) else acc m i).
  { rewrite ent_S. apply (estep_hit n); auto using ts_sh; lia. }
  rewrite ES. specialize (IHm ltac:(lia)). destruct (hit' i m) eqn:Eh.
  - destruct (hit_op i m ltac:(lia) Hi Eh) as [lm [km Em]].
    destruct IHm as [[I1 I2]|[[j0 [I1 [I2 [I3 I4]]]]|[I1 [j1 [j2 [I2 [I3 [I4 [I5 I6]]]]]]]]].
    + right. left. exists m. split; [lia|]. split; auto. split.
      * intros j Hj Q. destruct (Nat.eq_dec j m); [subst j; auto|]. rewrite I1 in Q by lia. discriminate.
      * rewrite I2. reflexivity.
    + destruct (hit_op i j0 ltac:(lia) Hi I2) as [l0 [k0 E0]]. rewrite I4.
      unfold castf. rewrite E0. cbn [op_isnull]. replace (op_isnull [(l0, [k0])]) with false by reflexivity.
      rewrite Em. destruct (op_eq [(l0, [k0])] [(lm, [km])]) eqn:EO.
      * right. left. exists j0. split; [lia|]. split; auto. apply single_eq in EO. split.
        -- intros j Hj Q. destruct (Nat.eq_dec j m); [subst j; congruence|]. apply I3; auto. lia.
        -- simpl. auto.
      * right. right. simpl negb. cbv iota. rewrite op_add_weight. split; [simpl; lia|].
        exists j0, m. repeat split; auto; try lia. rewrite E0, Em. intro Q. rewrite Q in EO. rewrite op_eq_refl in EO. discriminate.
    + right. right. split.
      * unfold castf. destruct (op_isnull (acc m i)) eqn:En.
        { apply op_isnull_spec in En. rewrite En in I1. simpl in I1. lia. }
        destruct (negb (op_eq (acc m i) (op ids ts m i))); auto. rewrite op_add_weight. lia.
      * exists j1, j2. repeat split; auto; lia.
  - destruct IHm as [[I1 I2]|[[j0 [I1 [I2 [I3 I4]]]]|[I1 [j1 [j2 [I2 [I3 [I4 [I5 I6]]]]]]]]].
    + left. split; auto. intros j Hj. destruct (Nat.eq_dec j m); [subst j; auto|]. apply I1. lia.
    + right. left. exists j0. split; [lia|]. split; auto. split; auto. intros j Hj Q.
      destruct (Nat.eq_dec j m); [subst j; congruence|]. apply I3; auto. lia.
    + right. right. split; auto. exists j1, j2. repeat split; auto; lia.
Qed.

Lemma eff_false : forall j, j < L -> eff ids ts j = false <->
  (onsite ts j = true /\ (exists j', j' < j /\ hit' (t_head (tm ts j)) j' = true) /\
   (forall j', j' < j -> hit' (t_head (tm ts j)) j' = true -> op ids ts j' (t_head (tm ts j)) = op ids ts j (t_head (tm ts j)))).
Proof.
  intros j Hj. unfold eff. destruct (onsite ts j) eqn:Eo; [|simpl; split; [discriminate|intros [Q _]; discriminate]].
  set (i := t_head (tm ts j)). unfold onsite in Eo. apply Nat.eqb_eq in Eo.
  assert (Hh : hit' i j = true) by (apply hit_site; auto).
  destruct (tm_at j Hj) as [cp [E [V M]]]. destruct M as [[W1 [W2 _]] _ _ _ _]. assert (Hi : i < n) by (unfold i; lia).
  assert (V1 : vst ts i Ready).
  { apply hit_spec in Hh. destruct Hh as [<- _]. apply (nd_vst' n); auto using ts_sh. }
  assert (V2 : vst ts (S i) Final).
  { apply hit_spec in Hh. destruct Hh as [_ <-]. apply (nd_vst' n); auto using ts_sh. }
  destruct (hit_op i j Hj Hi Hh) as [l [k Ej]]. cbn [andb].
  destruct (acc_cases i j Hi V1 V2 ltac:(lia)) as [[I1 I2]|[[j0 [I1 [I2 [I3 I4]]]]|[I1 [j1 [j2 [I2 [I3 [I4 [I5 I6]]]]]]]]].
  - rewrite I2. simpl. split; [discriminate|]. intros [_ [[j' [Q1 Q2]] _]]. rewrite I1 in Q2 by auto. discriminate.
  - rewrite I4. destruct (hit_op i j0 ltac:(lia) Hi I2) as [l0 [k0 E0]]. rewrite E0.
    replace (op_isnull [(l0, [k0])]) with false by reflexivity. rewrite Ej. cbn [negb andb]. rewrite negb_false_iff. split.
    + intros Q. apply single_eq in Q. split; auto. split; [exists j0; auto|]. intros j' Hj' Hh'. rewrite I3, E0 by auto. auto.
    + intros [_ [_ Q]]. rewrite <- E0. rewrite (Q j0 I1 I2). apply op_eq_refl.
  - assert (Eq : op_eq (acc j i) (op ids ts j i) = false).
    { destruct (op_eq (acc j i) (op ids ts j i)) eqn:Q; auto. apply op_eq_weight in Q. rewrite Ej in Q. change (weight [(l, [k])]) with 1 in Q. lia. }
    rewrite Eq, andb_false_r. simpl. split; [discriminate|]. intros [_ [_ Q]]. exfalso. apply I6.
    rewrite (Q j1), (Q j2); auto.
Qed.

Lemma single_site : forall j cp i, j < L -> nth_error H j = Some cp ->
  hit' i j = true <-> single_on R i cp.
Proof.
  intros j cp i Hj E. destruct (tm_at j Hj) as [cp' [E1 [V M]]]. rewrite E in E1. injection E1 as <-.
  rewrite hit_site by auto. destruct M as [_ M2 M3 _ _]. rewrite M2, M3. destruct V as [V1 [V2 _]].
  set (Q := sort_sites (nrm (snd cp))).
  assert (PQ : Permutation (nrm (snd cp)) Q) by apply sort_sites_perm.
  assert (PS : Permutation (map snd (snd cp)) (map snd Q)).
  { rewrite <- (nrm_snd R r0 ropp reqb isneg (snd cp)). apply Permutation_map. auto. }
  split.
  - intros [H1 H2].
    assert (SQ : StronglySorted (site_le lop) Q) by apply sort_sites_sorted. clearbody Q.
    assert (HNQ : Q <> []).
    { intro Z. rewrite Z in PS. apply Permutation_sym, Permutation_nil in PS. destruct (snd cp); [congruence|discriminate]. }
    destruct (sorted_head_tail R Q HNQ SQ) as [_ [_ S3]].
    assert (A : forall p, In p (snd cp) -> snd p = i).
    { intros p Hp. assert (B : In (snd p) (map snd Q)) by (eapply Permutation_in; [exact PS|]; apply in_map; auto).
      apply in_map_iff in B. destruct B as [q [B1 B2]]. specialize (S3 q B2). lia. }
    destruct (snd cp) as [|[o1 i1] [|[o2 i2] r]] eqn:EP; [congruence| |].
    + pose proof (A _ (or_introl eq_refl)) as A1. simpl in A1. subst i1. exists o1. auto.
    + exfalso. pose proof (A _ (or_introl eq_refl)) as A1. pose proof (A _ (or_intror (or_introl eq_refl))) as A2.
      simpl in A1, A2. subst i1 i2. simpl in V2. inversion V2; subst. apply H4. left. auto.
  - intros [o Ho]. unfold Q. rewrite Ho. split; reflexivity.
Qed.

Lemma same_op : forall j j' cp cp' i, j < L -> j' < L -> i < n -> nth_error H j = Some cp -> nth_error H j' = Some cp' ->
  single_on R i cp -> single_on R i cp' ->
  op ids ts j' i = op ids ts j i <-> same_single R r0 ropp reqb isneg cp' cp.
Proof.
  intros j j' cp cp' i Hj Hj' Hi E E' S1 S2.
  assert (G : forall j cp, j < L -> nth_error H j = Some cp -> single_on R i cp -> exists l k o,
    op ids ts j i = [(l, [k])] /\ snd cp = [(o, i)] /\ nth_error (g_oh g) l = Some (norm1 o) /\
    nth_error (g_ch g) k = Some (ncoef (fst cp) [o])).
  { intros q cq Hq Eq Sq. assert (Hh : hit' i q = true) by (eapply single_site; eauto).
    apply hit_site in Hh; auto. destruct Hh as [Hh _].
    destruct (op_at q cq i Hq Eq Hi) as [l [c [O1 [O2 [_ O4]]]]]. destruct (O4 (eq_sym Hh)) as [k [-> O5]].
    destruct Sq as [o Ho]. exists l, k, o. split; auto. split; auto. rewrite Ho in O2, O5. split; auto.
    rewrite O2. unfold MpoGenFacts.opf. simpl. rewrite Nat.eqb_refl. reflexivity. }
  destruct (G j cp Hj E S1) as [l [k [o [G1 [G2 [G3 G4]]]]]].
  destruct (G j' cp' Hj' E' S2) as [l' [k' [o' [G1' [G2' [G3' G4']]]]]].
  assert (SF : forall c o, sign_free R r0 ropp reqb isneg c o = (ncoef c [o], norm1 o)).
  { intros c q. unfold sign_free, MpoGenFacts.ncoef, MpoGenFacts.norm1. simpl. unfold MpoGen.first_nz, first_nonzero.
    destruct (isneg _); reflexivity. }
  unfold same_single. rewrite G1, G1', G2, G2', !SF. split.
  - intros Q. injection Q as -> ->. split; auto. congruence.
  - intros [_ Q]. injection Q as Q1 Q2. f_equal. f_equal.
    + rewrite NoDup_nth_error in HOD. apply HOD; [apply nth_error_Some; rewrite G3'; discriminate|].
      rewrite G3, G3', Q2. reflexivity.
    + f_equal. rewrite NoDup_nth_error in HCD. apply HCD; [apply nth_error_Some; rewrite G4'; discriminate|].
      rewrite G4, G4'. f_equal. exact Q1.
Qed.

Lemma eff_repeated : forall j, j < L -> eff ids ts j = false <-> repeated R r0 ropp reqb isneg H j.
Proof.
  intros j Hj. rewrite eff_false by auto. destruct (tm_at j Hj) as [cp [E [V M]]]. destruct M as [[W1 [W2 _]] _ _ _ _].
  set (i := t_head (tm ts j)). assert (Hi : i < n) by (unfold i; lia).
  assert (HH : forall q, q < L -> exists cq, nth_error H q = Some cq) by (intros q Hq; destruct (tm_at q Hq) as [cq [Q _]]; eauto).
  unfold repeated. split.
  - intros [O [[j' [J1 J2]] J3]]. unfold onsite in O. apply Nat.eqb_eq in O.
    assert (S1 : single_on R i cp) by (eapply single_site; eauto; apply hit_site; auto).
    exists cp, i. split; auto. split; auto. split.
    + destruct (HH j' ltac:(lia)) as [cp' E']. exists j', cp'. split; auto. split; auto.
      apply (single_site j' cp' i ltac:(lia) E'). auto.
    + intros q cq Hq Eq Sq. apply (same_op j q cp cq i Hj ltac:(lia) Hi E Eq S1 Sq). apply J3; auto.
      apply (single_site q cq i ltac:(lia) Eq). auto.
  - intros [t [i' [E1 [S1 [[j' [t' [J1 [J2 J3]]]] J4]]]]]. rewrite E in E1. injection E1 as <-.
    assert (Hh : hit' i' j = true) by (eapply single_site; eauto). apply hit_site in Hh; auto. destruct Hh as [Hh1 Hh2].
    assert (i' = i) by (unfold i; auto). subst i'. split; [unfold onsite; apply Nat.eqb_eq; lia|]. split.
    + exists j'. split; auto. eapply single_site; eauto. lia.
    + intros q Hq Qh. destruct (HH q ltac:(lia)) as [cq Eq].
      assert (Sq : single_on R i cq) by (apply (single_site q cq i ltac:(lia) Eq); exact Qh).
      apply (same_op j q cp cq i Hj ltac:(lia) Hi E Eq S1 Sq). eapply J4; eauto.
Qed.

(** The generated matrices and their value. *)
Theorem state_value : forall ms, gen_mat_repr (fsm_of n ids ts) = Ok ms ->
  exists kept, (forall j, j < length H -> kept j = false <-> repeated R r0 ropp reqb isneg H j) /\
  mprod R r0 r1 radd rmul cv ev 0 ms 0 0 =
  nsum R r0 radd (length H) (fun j => if (kept j : bool) then term_elem idops n s s' (nth j H (r0, [])) else r0).
Proof.
  intros ms E. exists (eff ids ts). split.
  - intros j Hj. apply eff_repeated. rewrite L_eq. auto.
  - rewrite (gen_value n ids ts ids_len ids_sh ts_sh ts_ne R r0 r1 radd rmul rsub ropp Rth cv ev ms E).
    rewrite L_eq. apply nsum_ext. intros j Hj. destruct (eff ids ts j); auto.
    apply tw_value; [rewrite L_eq; auto|]. apply nth_error_nth'. auto.
Qed.
End State.
End GenSem.
