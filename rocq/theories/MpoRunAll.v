(** Whole runs: any list of legal AddTerm calls followed by Gen. *)
From Coq Require Import List Arith Lia Bool Permutation Ring.
From Verif Require Import Base SparMat CoefOp Fsm FsmFacts MpoGen MpoGenFacts MpoSpec MpoGenSem MpoTen MpoTenSpec MpoTopSpec MpoTop
  MpoRunSpec MpoRun.
Import ListNotations.

Section Run.
Variables (R : Type) (r0 r1 : R) (radd rmul rsub : R -> R -> R) (ropp : R -> R).
Variable Rth : ring_theory r0 r1 radd rmul rsub ropp (@eq R).
Add Ring Rring7 : Rth.
Variables (reqb : R -> R -> bool) (isneg small : R -> bool).
Hypothesis reqb_spec : forall x y, reqb x y = true <-> x = y.
Variables (Q : Type) (q0 : Q) (qsub : Q -> Q -> Q) (qeqb : Q -> Q -> bool) (dv : lop R -> Q).
Hypothesis qeqb_spec : forall a b, qeqb a b = true <-> a = b.
Hypothesis qsub_self : forall a, qsub a a = q0.
Hypothesis qsub_cancel : forall a b d, qsub a d = qsub b d -> a = b.
Hypothesis dv_neg : forall o, dv (lop_neg R ropp o) = dv o.
Variable (pd : nat -> nat).
Variable blk : nat -> nat -> nat -> Q -> Prop.
Notation lop := (lop R).
Variables (sites : list nat) (idops : list lop).
Notation n := (length sites).
Hypothesis Hid : good_ids R pd Q qsub dv sites idops.
Hypothesis Hbi : Forall (block_op R r0 Q dv blk) idops.
Notation ginv := (ginv R r0 r1 ropp reqb isneg).
Notation acounted := (acounted R r0 reqb small).
Notation exec_call := (exec_call R r0 ropp reqb isneg small).
Notation run := (run R r0 r1 ropp reqb isneg small).
Notation means := (means R sites idops).
Notation physical := (physical R r0 sites pd Q q0 qsub dv blk).
Notation tail_neg := (tail_neg R r0 reqb isneg).
Notation one_site := (one_site R).
Notation prod_elem := (prod_elem R r0 r1 rmul sites).

Lemma ids_len_ok : length idops = n.
Proof. symmetry. eapply Forall2_len. exact Hid. Qed.

(** entry of the generator's history and the call it comes from *)
Definition rel (h : call R) (x : acall R * (nat -> lop)) : Prop :=
  let (a, op) := x in
  valid_call R sites h /\ (forall i, i < n -> op_on idops (snd h) i = op i) /\ (forall p, In p (snd h) -> fst p = op (snd p)) /\
  fst h = (if tail_neg a then ropp (acoef R a) else acoef R a) /\ (forall o i, snd h = [(o, i)] <-> one_site a = Some (o, i)).
Definition cnt (x : acall R * (nat -> lop)) : bool := acounted (fst x).

Lemma calls_ok : forall dbg l g H, ginv sites idops H g -> Forall (fun x => means (fst x) (snd x)) l ->
  exists g' H', for_each (map fst l) (exec_call dbg) g = Ok g' /\ ginv sites idops (H ++ H') g' /\ Forall2 rel H' (filter cnt l).
Proof.
  intros dbg. induction l as [|[a op] l IH]; intros g H GI HM.
  - exists g, []. rewrite app_nil_r. split; [reflexivity|]. split; [auto|constructor].
  - inversion HM as [|? ? M1 M2]; subst. simpl in M1. simpl. unfold cnt at 1. simpl fst.
    destruct (acounted a) eqn:C.
    + destruct (call_ok R r0 r1 ropp reqb isneg small reqb_spec sites idops dbg a op H g GI M1 C)
        as [g1 [c' [P [E1 [V [G1 [O1 [O2 [O3 O4]]]]]]]]]. rewrite E1. cbn [bind].
      destruct (IH g1 _ G1 M2) as [g2 [H2 [E2 [G2 F2]]]]. exists g2, ((c', P) :: H2). split; auto.
      rewrite <- app_assoc in G2. split; auto. constructor; auto. split; auto.
    + rewrite (call_ignored R r0 ropp reqb isneg small sites idops dbg a op g) by (auto; apply GI). cbn [bind].
      destruct (IH g H GI M2) as [g2 [H2 [E2 [G2 F2]]]]. exists g2, H2. auto.
Qed.

(** the calls as pairs with the operators they stand for *)
Notation legal := (legal R r0 reqb small sites idops pd Q q0 qsub dv blk).
Notation pairs := (list (acall R * (nat -> lop))).
Definition counted_pairs (calls : list (acall R)) (ops : list (nat -> lop)) : pairs := filter cnt (combine calls ops).

Lemma legal_pairs : forall calls ops, legal calls ops ->
  map fst (combine calls ops) = calls /\ Forall (fun x => means (fst x) (snd x)) (combine calls ops) /\
  Forall (fun x => physical (snd x)) (counted_pairs calls ops) /\
  map fst (counted_pairs calls ops) = filter acounted calls.
Proof.
  intros calls ops L. induction L as [|a op calls ops [M1 M2] L IH]; [repeat split; constructor|].
  destruct IH as [I1 [I2 [I3 I4]]]. unfold counted_pairs in *. simpl. split; [f_equal; auto|]. split; [constructor; auto|].
  change (cnt (a, op)) with (acounted a). destruct (acounted a) eqn:C; simpl; split; auto.
  f_equal. auto.
Qed.

Lemma fold_left_seq_ext : forall A (f g : A -> nat -> A) k b x, (forall i a, b <= i < b + k -> f a i = g a i) ->
  fold_left f (seq b k) x = fold_left g (seq b k) x.
Proof.
  intros A f g. induction k; intros b x E; simpl; auto. rewrite E by lia. apply IHk. intros. apply E. lia.
Qed.
Lemma rprod_ext : forall k b (f g : nat -> R), (forall i, b <= i < b + k -> f i = g i) -> rprod R r1 rmul k b f = rprod R r1 rmul k b g.
Proof. induction k; intros b f g E; simpl; auto. rewrite E by lia. f_equal. apply IHk. intros. apply E. lia. Qed.

Lemma rel_facts : forall h x, rel h x -> physical (snd x) ->
  valid_call R sites h /\ square_call R pd h /\ conserves R Q q0 qsub dv idops h /\
  Forall (fun p => block_op R r0 Q dv blk (fst p)) (snd h) /\
  (forall s s', tail_neg (fst x) = false -> term_elem R r0 r1 rmul idops n s s' h = prod_elem (acoef R (fst x)) (snd x) s s') /\
  (forall s s', tail_neg (fst x) = true -> term_elem R r0 r1 rmul idops n s s' h = ropp (prod_elem (acoef R (fst x)) (snd x) s s')).
Proof.
  intros h [a op] [V [O1 [O2 [O3 O4]]]] [P1 P2]. simpl fst. simpl snd in P1, P2.
  assert (IN : forall p, In p (snd h) -> snd p < n).
  { intros p Hp. destruct V as [_ [_ V]]. rewrite Forall_forall in V. apply nth_error_Some. rewrite (V p Hp). discriminate. }
  split; auto. split; [|split; [|split]].
  - apply Forall_forall. intros p Hp. rewrite (O2 p Hp). apply P1. auto.
  - unfold conserves. rewrite ids_len_ok. rewrite <- P2 at 2. apply fold_left_seq_ext. intros i q Hi. rewrite O1 by lia. reflexivity.
  - apply Forall_forall. intros p Hp. rewrite (O2 p Hp). apply P1. auto.
  - assert (E : forall s s', rprod R r1 rmul n 0 (fun i => elem r0 (op_on idops (snd h) i) (s i) (s' i)) =
       rprod R r1 rmul n 0 (fun i => elem r0 (op i) (s i) (s' i))).
    { intros. apply rprod_ext. intros i Hi. rewrite O1 by lia. reflexivity. }
    split; intros s s' T; unfold term_elem, MpoRunSpec.prod_elem; rewrite E, O3, T; simpl snd; ring.
Qed.

Lemma rel_repeated : forall H L, Forall2 rel H L -> Forall (fun x => tail_neg (fst x) = false \/ one_site (fst x) = None) L -> forall j,
  repeated R r0 ropp reqb isneg H j <-> a_repeated R r0 ropp reqb isneg (map fst L) j.
Proof.
  intros H L F T j.
  assert (NL : forall j t, nth_error H j = Some t -> exists x, nth_error L j = Some x /\ rel t x) by (intros; eapply Forall2_nth_l; eauto).
  assert (NR : forall j x, nth_error L j = Some x -> exists t, nth_error H j = Some t /\ rel t x).
  { intros k x Hx. destruct (nth_error H k) as [t|] eqn:E.
    - destruct (NL k t E) as [x' [X1 X2]]. exists t. split; auto. congruence.
    - apply nth_error_None in E. rewrite (Forall2_len _ _ _ _ _ F) in E. apply nth_error_None in E. congruence. }
  assert (CF : forall t x o i, rel t x -> In x L -> snd t = [(o, i)] -> fst t = acoef R (fst x)).
  { intros t [a op] o i [_ [_ [_ [O3 O4]]]] HI HS. rewrite Forall_forall in T. destruct (T _ HI) as [X|X]; simpl in X.
    - rewrite O3, X. reflexivity.
    - apply O4 in HS. congruence. }
  unfold repeated, a_repeated. split.
  - intros [t [i [E1 [[o E2] [[j' [t' [L1 [E3 [o' E4]]]]] A]]]]]. destruct (NL _ _ E1) as [x [X1 X2]]. destruct (NL _ _ E3) as [x' [X3 X4]].
    exists (fst x), o, i. rewrite nth_error_map, X1. split; auto. split; [destruct x; apply X2; auto|]. split.
    + exists j', (fst x'), o'. rewrite nth_error_map, X3. split; auto. split; auto. destruct x'. apply X4. auto.
    + intros k a o1 Hk Ea Eo. rewrite nth_error_map in Ea. destruct (nth_error L k) as [y|] eqn:Ey; [|discriminate]. injection Ea as <-.
      destruct (NR _ _ Ey) as [u [U1 U2]]. assert (Eu : snd u = [(o1, i)]) by (destruct y; apply U2; auto).
      assert (SO : single_on R i u) by (exists o1; auto).
      pose proof (A k u Hk U1 SO) as B. unfold same_single in B. rewrite Eu, E2 in B.
      rewrite (CF u y o1 i U2) in B by (auto; eapply nth_error_In; eauto). rewrite (CF t x o i X2) in B by (auto; eapply nth_error_In; eauto). tauto.
  - intros [a [o [i [E1 [E2 [[j' [a' [o' [L1 [E3 E4]]]]] A]]]]]]. rewrite nth_error_map in E1, E3.
    destruct (nth_error L j) as [x|] eqn:Ex; [|discriminate]. injection E1 as <-.
    destruct (nth_error L j') as [x'|] eqn:Ex'; [|discriminate]. injection E3 as <-.
    destruct (NR _ _ Ex) as [t [T1 T2]]. destruct (NR _ _ Ex') as [t' [T3 T4]].
    assert (S1 : snd t = [(o, i)]) by (destruct x; apply T2; auto).
    assert (S2 : snd t' = [(o', i)]) by (destruct x'; apply T4; auto).
    exists t, i. split; auto. split; [exists o; auto|]. split; [exists j', t'; split; auto; split; auto; exists o'; auto|].
    intros k u Hk Eu [o1 S3]. destruct (NL _ _ Eu) as [y [Y1 Y2]]. unfold same_single. rewrite S3, S1. split; auto.
    rewrite (CF u y o1 i Y2), (CF t x o i T2) by (auto; eapply nth_error_In; eauto). apply (A k); auto.
    + rewrite nth_error_map, Y1. reflexivity.
    + destruct y. apply Y2. auto.
Qed.

Lemma tail_neg_many : forall a, tail_neg a = false \/ one_site a = None.
Proof. intros [c ops idxs|c phys pidx inst ii|c o1 i1 o2 i2 f ii]; simpl; auto. Qed.

(** what the terms of the counted calls add up to; a repeated one-site term is lost and an implicit tail string with
    negative leading element has the wrong sign *)
Definition actual (L : pairs) (kept : nat -> bool) (s s' : nat -> nat) : R :=
  sum_to R r0 radd (length L) (fun j =>
    match nth_error L j with
    | Some (a, op) => if kept j then (if tail_neg a then ropp (prod_elem (acoef R a) op s s') else prod_elem (acoef R a) op s s') else r0
    | None => r0
    end).

Lemma sum_to_ext : forall k (f g : nat -> R), (forall i, i < k -> f i = g i) -> sum_to R r0 radd k f = sum_to R r0 radd k g.
Proof.
  intros k f g E. unfold sum_to. assert (G : forall b, (forall i, b <= i < b + k -> f i = g i) ->
    fold_right (fun k a => radd (f k) a) r0 (seq b k) = fold_right (fun k a => radd (g k) a) r0 (seq b k)).
  { clear E. induction k; intros b E; simpl; auto. rewrite E by lia. f_equal. apply IHk. intros. apply E. lia. }
  apply G. intros. apply E. lia.
Qed.

Lemma run_state : forall calls ops, legal calls ops -> forall dbg, exists g H, run dbg sites idops calls = Ok g /\
  ginv sites idops H g /\ Forall2 rel H (counted_pairs calls ops).
Proof.
  intros calls ops L dbg. destruct (legal_pairs calls ops L) as [P1 [P2 [P3 P4]]].
  destruct (calls_ok dbg (combine calls ops) (gen_new R r1 reqb sites idops) []) as [g [H [E1 [E2 E3]]]]; auto.
  { apply ginv_new; first [exact reqb_spec | apply ids_len_ok]. }
  rewrite P1 in E1. exists g, H. split; auto.
Qed.

Theorem run_gen : forall calls ops, legal calls ops -> existsb acounted calls = true -> forall dbg, exists g kept,
  run dbg sites idops calls = Ok g /\
  (forall j, j < length (filter acounted calls) -> kept j = false <-> a_repeated R r0 ropp reqb isneg (filter acounted calls) j) /\
  forall dbg' compress, exists ts, gen_mpo R r0 radd rmul Q qsub qeqb dv dbg' compress q0 g = Ok ts /\
    mpo_ok R r0 reqb Q q0 qsub blk sites ts /\
    forall s s', mpo_amp R r0 r1 radd rmul reqb Q ts s s' = actual (counted_pairs calls ops) kept s s'.
Proof.
  intros calls ops L EX dbg. destruct (run_state calls ops L dbg) as [g [H [E1 [E2 E3]]]].
  destruct (legal_pairs calls ops L) as [P1 [P2 [P3 P4]]]. set (LL := counted_pairs calls ops) in *.
  assert (LE : @length (call R) H = length LL) by (eapply Forall2_len; eauto).
  assert (LF : length (filter acounted calls) = length LL) by (rewrite <- P4, map_length; auto).
  assert (F : Forall2 (fun h x => rel h x /\ physical (snd x)) H LL).
  { clear - E3 P3. induction E3; inversion P3; constructor; auto. }
  assert (HN : H <> []).
  { intro Z. subst H. destruct LL eqn:EL; [|discriminate]. apply existsb_exists in EX. destruct EX as [a [A1 A2]].
    assert (In a (filter acounted calls)) by (apply filter_In; auto). rewrite <- P4 in H. destruct H. }
  assert (FA : forall (Pr : call R -> Prop), (forall h x, rel h x -> physical (snd x) -> Pr h) -> Forall Pr H).
  { intros Pr HP. clear - F HP. induction F as [|h x H LL [F1 F2] F3 IH]; constructor; eauto. }
  pose proof (gen_mpo_state R r0 r1 radd rmul rsub ropp Rth reqb isneg reqb_spec Q q0 qsub qeqb dv qeqb_spec qsub_self qsub_cancel dv_neg pd blk
    sites idops H g E2) as GS.
  specialize (GS (FA _ (fun h x A B => proj1 (rel_facts h x A B))) HN Hid (FA _ (fun h x A B => proj1 (proj2 (rel_facts h x A B))))
    (FA _ (fun h x A B => proj1 (proj2 (proj2 (rel_facts h x A B))))) Hbi (FA _ (fun h x A B => proj1 (proj2 (proj2 (proj2 (rel_facts h x A B))))))).
  destruct (GS false false) as [_ [_ [_ [kept [K1 _]]]]]. exists g, kept. split; auto. split.
  - intros j Hj. assert (HjH : j < length H).
    { eapply Nat.lt_le_trans; [exact Hj|]. rewrite LF. apply Nat.eq_le_incl. symmetry. exact LE. }
    rewrite (K1 j HjH). rewrite <- P4. apply rel_repeated; auto. apply Forall_forall. intros. apply tail_neg_many.
  - intros dbg' compress. destruct (GS dbg' compress) as [ts [T1 [T2 [kept' [K2 T3]]]]]. exists ts. split; auto. split; auto.
    intros s s'. rewrite T3. unfold actual. rewrite LE. apply sum_to_ext. intros j Hj. assert (Hj' : j < length H).
    { eapply Nat.lt_le_trans; [exact Hj|]. apply Nat.eq_le_incl. symmetry. exact LE. }
    replace (kept' j) with (kept j).
    2:{ pose proof (K1 j Hj') as A. pose proof (K2 j Hj') as B. destruct (kept j), (kept' j); auto; exfalso.
        - assert (true = false) by (apply A, B; auto). discriminate.
        - assert (true = false) by (apply B, A; auto). discriminate. }
    apply nth_error_Some in Hj'. destruct (nth_error H j) as [h|] eqn:Eh; [|congruence].
    rewrite (nth_error_nth _ _ _ Eh). destruct (Forall2_nth_l _ _ _ _ _ _ _ F Eh) as [[a op] [X1 [X2 X3]]]. rewrite X1.
    destruct (kept j); auto. destruct (rel_facts h (a, op) X2 X3) as [_ [_ [_ [_ [Y1 Y2]]]]]. simpl fst in *. simpl snd in *.
    destruct (tail_neg a) eqn:ET; auto.
Qed.

(** without repeated one-site terms and without negative tail strings this is the sum of the terms *)
Lemma total_counted : forall calls ops, length calls = length ops -> forall s s',
  total R r0 r1 rmul reqb small sites radd calls ops s s' =
  fold_right (fun x acc => radd (prod_elem (acoef R (fst x)) (snd x) s s') acc) r0 (counted_pairs calls ops).
Proof.
  induction calls as [|a calls IH]; intros [|op ops] HL s s'; try discriminate; auto. simpl in HL. unfold counted_pairs in *. simpl.
  unfold cnt at 1. simpl fst. rewrite IH by lia. destruct (acounted a); simpl; auto. ring.
Qed.
Lemma sum_to_list : forall A (l : list A) (f : A -> R) (g : nat -> R), (forall j x, nth_error l j = Some x -> g j = f x) ->
  sum_to R r0 radd (length l) g = fold_right (fun x acc => radd (f x) acc) r0 l.
Proof.
  intros A l f g E. unfold sum_to.
  assert (G : forall b, (forall j x, nth_error l j = Some x -> g (b + j) = f x) ->
    fold_right (fun k a => radd (g k) a) r0 (seq b (length l)) = fold_right (fun x acc => radd (f x) acc) r0 l).
  { clear E. induction l as [|x l IH]; intros b E; simpl; auto. rewrite <- (E 0 x eq_refl), Nat.add_0_r. f_equal.
    apply IH. intros j y Hy. replace (S b + j) with (b + S j) by lia. apply E. auto. }
  apply G. auto.
Qed.

Theorem run_gen_total : forall calls ops, legal calls ops -> existsb acounted calls = true ->
  no_twice R r0 ropp reqb isneg (filter acounted calls) -> Forall (fun a => tail_neg a = false) (filter acounted calls) ->
  forall dbg, exists g, run dbg sites idops calls = Ok g /\ forall dbg' compress, exists ts,
    gen_mpo R r0 radd rmul Q qsub qeqb dv dbg' compress q0 g = Ok ts /\ mpo_ok R r0 reqb Q q0 qsub blk sites ts /\
    forall s s', mpo_amp R r0 r1 radd rmul reqb Q ts s s' = total R r0 r1 rmul reqb small sites radd calls ops s s'.
Proof.
  intros calls ops L EX NT TN dbg. destruct (run_gen calls ops L EX dbg) as [g [kept [E1 [E2 E3]]]]. exists g. split; auto.
  intros dbg' compress. destruct (E3 dbg' compress) as [ts [T1 [T2 T3]]]. exists ts. split; auto. split; auto. intros s s'. rewrite T3.
  destruct (legal_pairs calls ops L) as [_ [_ [_ P4]]].
  rewrite total_counted by (eapply Forall2_len; eauto). unfold actual. apply sum_to_list. intros j [a op] Hj. rewrite Hj. simpl fst. simpl snd.
  assert (Hj' : nth_error (filter acounted calls) j = Some a) by (rewrite <- P4, nth_error_map, Hj; reflexivity).
  rewrite Forall_forall in TN. rewrite (TN a) by (eapply nth_error_In; eauto).
  destruct (kept j) eqn:EK; auto. apply E2 in EK; [|apply nth_error_Some; congruence].
  destruct EK as [a1 [o [i [A1 [A2 [[j' [a' [o' [A3 [A4 A5]]]]] A6]]]]]]. exfalso.
  apply (NT j' j a' a1 o' o i); auto. apply (A6 j'); auto.
Qed.

(** GenMatReprMPO and bond dimensions *)
Theorem run_gen_mat : forall calls ops, legal calls ops -> existsb acounted calls = true ->
  forall dbg dbg' dbg'', exists g ws ts ts0, run dbg sites idops calls = Ok g /\
    gen_mat_mpo R r0 radd rmul dbg' g = Ok ws /\ length ws = n /\
    gen_mpo R r0 radd rmul Q qsub qeqb dv dbg' true q0 g = Ok ts /\ gen_mpo R r0 radd rmul Q qsub qeqb dv dbg'' false q0 g = Ok ts0 /\
    (forall s s', matmpo_amp R r0 r1 radd rmul reqb ws s s' = mpo_amp R r0 r1 radd rmul reqb Q ts s s') /\
    (forall s s', mpo_amp R r0 r1 radd rmul reqb Q ts s s' = mpo_amp R r0 r1 radd rmul reqb Q ts0 s s') /\
    Forall2 (fun t t0 => bdim Q (mt_l t) <= bdim Q (mt_l t0) /\ bdim Q (mt_r t) <= bdim Q (mt_r t0)) ts ts0.
Proof.
  intros calls ops L EX dbg dbg' dbg''. destruct (run_state calls ops L dbg) as [g [H [E1 [E2 E3]]]].
  destruct (run_gen calls ops L EX dbg) as [g1 [kept [E1' [_ E4]]]]. rewrite E1 in E1'. injection E1' as <-.
  destruct (legal_pairs calls ops L) as [P1 [P2 [P3 P4]]]. set (LL := counted_pairs calls ops) in *.
  assert (F : Forall2 (fun h x => rel h x /\ physical (snd x)) H LL).
  { clear - E3 P3. induction E3; inversion P3; constructor; auto. }
  assert (HN : H <> []).
  { intro Z. subst H. destruct LL eqn:EL; [|inversion E3]. apply existsb_exists in EX. destruct EX as [a [A1 A2]].
    assert (In a (filter acounted calls)) by (apply filter_In; auto). rewrite <- P4 in H. destruct H. }
  assert (FA : forall (Pr : call R -> Prop), (forall h x, rel h x -> physical (snd x) -> Pr h) -> Forall Pr H).
  { intros Pr HP. clear - F HP. induction F as [|h x H LL [F1 F2] F3 IH]; constructor; eauto. }
  pose proof (gen_mat_mpo_state R r0 r1 radd rmul rsub ropp Rth reqb isneg reqb_spec Q q0 qsub qeqb dv qeqb_spec qsub_self qsub_cancel dv_neg pd blk
    sites idops H g E2 (FA _ (fun h x A B => proj1 (rel_facts h x A B))) HN Hid (FA _ (fun h x A B => proj1 (proj2 (rel_facts h x A B))))
    (FA _ (fun h x A B => proj1 (proj2 (proj2 (rel_facts h x A B))))) Hbi (FA _ (fun h x A B => proj1 (proj2 (proj2 (proj2 (rel_facts h x A B))))))) as GM.
  pose proof (gen_mpo_bonds R r0 r1 radd rmul rsub ropp Rth reqb isneg reqb_spec Q q0 qsub qeqb dv qeqb_spec qsub_self qsub_cancel dv_neg pd blk
    sites idops H g E2 (FA _ (fun h x A B => proj1 (rel_facts h x A B))) HN Hid (FA _ (fun h x A B => proj1 (proj2 (rel_facts h x A B))))
    (FA _ (fun h x A B => proj1 (proj2 (proj2 (rel_facts h x A B))))) Hbi (FA _ (fun h x A B => proj1 (proj2 (proj2 (proj2 (rel_facts h x A B))))))) as GB.
  destruct (GM dbg') as [ws [W1 [W2 W3]]]. destruct (GB dbg' dbg'') as [ts [ts0 [T1 [T2 T3]]]].
  exists g, ws, ts, ts0. split; auto. split; auto. split; auto. split; auto. split; auto. split; [apply W3; auto|]. split; auto.
  destruct (E4 dbg' true) as [u [U1 [_ U2]]]. destruct (E4 dbg'' false) as [u' [U3 [_ U4]]].
  rewrite T1 in U1. injection U1 as <-. rewrite T2 in U3. injection U3 as <-. intros. rewrite U2, U4. reflexivity.
Qed.

(** C09: ignored calls are as if never made *)
Theorem run_counted_only : forall calls ops, legal calls ops -> forall dbg,
  run dbg sites idops calls = run dbg sites idops (filter acounted calls).
Proof.
  intros calls ops L dbg. unfold MpoRunSpec.run. assert (GI : ginv sites idops [] (gen_new R r1 reqb sites idops)) by (apply ginv_new; first [exact reqb_spec | apply ids_len_ok]).
  revert GI. generalize (gen_new R r1 reqb sites idops) as g, (@nil (R * list (lop * nat))) as H.
  induction L as [|a op calls ops [M1 M2] L IH]; intros g H GI; auto. simpl. destruct (acounted a) eqn:C; simpl.
  - destruct (call_ok R r0 r1 ropp reqb isneg small reqb_spec sites idops dbg a op H g GI M1 C) as [g1 [c' [P [E1 [V [G1 _]]]]]].
    rewrite E1. cbn [bind]. eapply IH; eauto.
  - rewrite (call_ignored R r0 ropp reqb isneg small sites idops dbg a op g) by (auto; apply GI). cbn [bind]. eapply IH; eauto.
Qed.
End Run.
