(** Proofs about measurements: segments of a chain, strings of operators *)
From Coq Require Import List Arith Lia Bool ZArith Ring.
From Verif Require Import Base FiniteMps FmpsSpec FmpsFacts FmpsTruth EffHam EffHamSpec FinMpoSpec FinMpoFacts Measure MeasureSpec MeasureFacts.
Import ListNotations.

(** ** Lists *)
Lemma firstn_snoc A (l : list A) n x : nth_error l n = Some x -> firstn (S n) l = firstn n l ++ [x].
Proof. revert n. induction l as [|a l IH]; intros [|n] H; cbn in *; try discriminate; [congruence|]. f_equal. apply IH. auto. Qed.
Lemma nth_skipn A (l : list A) a i : nth_error (skipn a l) i = nth_error l (a + i).
Proof. revert l. induction a as [|a IH]; intros [|x l]; cbn; auto. destruct i; auto. Qed.
Lemma nth_firstn A (l : list A) a i : i < a -> nth_error (firstn a l) i = nth_error l i.
Proof. revert a i. induction l as [|x l IH]; intros [|a] [|i] H; cbn; auto; try lia. apply IH. lia. Qed.
Lemma skipn_cons A (l : list A) n x : nth_error l n = Some x -> skipn n l = x :: skipn (S n) l.
Proof. revert n. induction l as [|a l IH]; intros [|n] H; cbn in *; try discriminate; [congruence|]. apply IH. auto. Qed.
Lemma skipn_skipn' A (l : list A) a b : skipn a (skipn b l) = skipn (b + a) l.
Proof. revert l. induction b as [|b IH]; intros [|x l]; cbn; auto. destruct a; auto. Qed.
Lemma split3 A (l : list A) a n : l = firstn a l ++ firstn n (skipn a l) ++ skipn (a + n) l.
Proof. rewrite <- skipn_skipn'. rewrite firstn_skipn. symmetry. apply firstn_skipn. Qed.
Lemma upd_split A (l : list A) i x : i < length l -> upd l i x = firstn i l ++ [x] ++ skipn (i + 1) l.
Proof.
  revert i. induction l as [|a l IH]; intros [|i] H; cbn in *; try lia; auto. f_equal. apply IH. lia.
Qed.
Lemma Forall2_firstn A B (P : A -> B -> Prop) l l' n : Forall2 P l l' -> Forall2 P (firstn n l) (firstn n l').
Proof. intros H. revert n. induction H; intros [|n]; cbn; constructor; auto. Qed.
Lemma Forall2_skipn A B (P : A -> B -> Prop) l l' n : Forall2 P l l' -> Forall2 P (skipn n l) (skipn n l').
Proof. intros H. revert n. induction H; intros [|n]; cbn; auto. Qed.
Lemma Forall_skipn A (P : A -> Prop) l n : Forall P l -> Forall P (skipn n l).
Proof. intros H. revert n. induction H; intros [|n]; cbn; auto. Qed.
Lemma Forall2_nth A B (P : A -> B -> Prop) l l' i a b : Forall2 P l l' -> nth_error l i = Some a -> nth_error l' i = Some b -> P a b.
Proof. intros H. revert i. induction H; intros [|i] H1 H2; cbn in *; try discriminate; [congruence|eauto]. Qed.
(** sites s .. e *)
Definition seg {A} (s e : nat) (l : list A) : list A := firstn (e + 1 - s) (skipn s l).
Lemma seg_one A (l : list A) s x : nth_error l s = Some x -> seg s s l = [x].
Proof. intros H. unfold seg. replace (s + 1 - s) with 1 by lia. rewrite (skipn_cons _ _ _ _ H). auto. Qed.
Lemma seg_snoc A (l : list A) s e x : s <= e -> nth_error l (e + 1) = Some x -> seg s (e + 1) l = seg s e l ++ [x].
Proof. intros H H1. unfold seg. replace (e + 1 + 1 - s) with (S (e + 1 - s)) by lia. apply firstn_snoc. rewrite nth_skipn. rewrite <- H1. f_equal. lia. Qed.
Lemma seg_len A (l : list A) s e : s <= e -> e < length l -> length (seg s e l) = e + 1 - s.
Proof. intros. unfold seg. rewrite firstn_length, skipn_length. lia. Qed.

Section Chain.
Variables (R : Type) (r0 r1 : R) (radd rmul rsub : R -> R -> R) (ropp : R -> R).
Variable Rth : ring_theory r0 r1 radd rmul rsub ropp (@eq R).
Variable conj : R -> R.
Hypothesis conj_0 : conj r0 = r0.
Hypothesis conj_1 : conj r1 = r1.
Hypothesis conj_add : forall a b, conj (radd a b) = radd (conj a) (conj b).
Hypothesis conj_mul : forall a b, conj (rmul a b) = rmul (conj a) (conj b).
Notation ten := (ten R). Notation lop := (lop R).
Notation expect := (expect R r0 r1 radd rmul conj).
Notation LC := (left_canonical R r0 r1 radd rmul conj). Notation RC := (right_canonical R r0 r1 radd rmul conj).
Notation is_id := (is_id R r0 r1). Notation identities := (identities R r0 r1).
Notation fit := (fit R).
Variable op_eqb : lop -> lop -> bool.
Hypothesis op_eqb_sound : forall a b, op_eqb a b = true -> odim a = odim b /\ forall s s', s < odim b -> s' < odim b -> oe a s s' = oe b s s'.
Notation mid_site := (mid_site R r0 radd rmul conj op_eqb).
Notation one_avg := (one_avg R r0 radd rmul conj). Notation head_site := (head_site R r0 radd rmul conj). Notation tail_site := (tail_site R r0 radd rmul conj).
Notation rep := (rep R r0 r1 radd rmul conj).

Lemma fit_nth : forall l a b i t t', fit a l b -> nth_error l i = Some t -> nth_error l (i + 1) = Some t' -> d2 t = d0 t'.
Proof.
  induction l as [|x l IH]; intros a b [|i] t t' HF H H'; cbn in *; try discriminate; destruct HF as [F1 F2]; [|eapply IH; eauto].
  injection H as <-. destruct l; cbn in *; [discriminate|]. injection H' as <-. symmetry. apply F2.
Qed.
Lemma fit_first : forall l a b t, fit a l b -> nth_error l 0 = Some t -> d0 t = a.
Proof. intros [|x l] a b t HF H; cbn in *; [discriminate|]. destruct HF. congruence. Qed.
Lemma fit_fun : forall l a b b', fit a l b -> fit a l b' -> b = b'.
Proof. induction l as [|x l IH]; intros a b b' H H'; cbn in *; [congruence|]. destruct H, H'. eapply IH; eauto. Qed.
Lemma fit_at l s t : fit 1 l 1 -> nth_error l s = Some t -> fit 1 (firstn s l) (d0 t).
Proof.
  generalize 1 at 1 3. revert s. induction l as [|x l IH]; intros [|s] a HF H; cbn in *; try discriminate; destruct HF as [F1 F2]; [congruence|]. split; auto.
Qed.
Lemma fit_after l s t : fit 1 l 1 -> nth_error l s = Some t -> fit (d2 t) (skipn (s + 1) l) 1.
Proof.
  generalize 1 at 1. revert s. induction l as [|x l IH]; intros [|s] a HF H; cbn in *; try discriminate; destruct HF as [F1 F2]; [congruence|]. eapply IH; eauto.
Qed.

(** what has been contracted of the chain [B] after the sites s .. e with the operators [om] *)
Definition eaten (B : list ten) (s e : nat) (om : list lop) (x : temp R) : Prop :=
  s <= e /\ exists t t', nth_error B s = Some t /\ nth_error B e = Some t' /\ rep (d0 t) (seg s e B) om x /\ fst x = d2 t'.

Variables (B : list ten) (ids : list lop).
Hypothesis HF : fit 1 B 1.
Hypothesis HI : identities B ids.

Lemma eat_head s t o : nth_error B s = Some t -> d1 t = odim o -> exists x, head_site t o = Ok x /\ eaten B s s [o] x.
Proof.
  intros H HO. destruct (head_site_ok R r0 r1 radd rmul rsub ropp Rth conj t o HO) as (x & H1 & H2 & H3). exists x. split; auto. split; auto. exists t, t. rewrite (seg_one _ _ _ _ H). auto.
Qed.
Lemma eat_mid s e om x t o ido : eaten B s e om x -> nth_error B (e + 1) = Some t -> nth_error ids (e + 1) = Some ido -> d1 t = odim o ->
  exists x', mid_site t o ido x = Ok x' /\ eaten B s (e + 1) (om ++ [o]) x'.
Proof.
  intros (H1 & t0 & t' & H2 & H3 & H4 & H5) Ht Hi HO.
  destruct (mid_site_ok R r0 r1 radd rmul rsub ropp Rth conj op_eqb op_eqb_sound (d0 t0) (seg s e B) om x t o ido) as (x' & E & HR & HX); auto.
  - rewrite H5. symmetry. eapply fit_nth; eauto.
  - exact (Forall2_nth _ _ _ _ _ _ _ _ HI Ht Hi).
  - exists x'. split; auto. split; [lia|]. exists t0, t. rewrite (seg_snoc _ _ _ _ _ H1 Ht). auto.
Qed.
Lemma eat_tail s e om x t o : eaten B s e om x -> nth_error B (e + 1) = Some t -> d1 t = odim o ->
  Forall LC (firstn s B) -> Forall RC (skipn (s + 1) B) ->
  tail_site t o x = Ok (expect B (firstn s ids ++ (om ++ [o]) ++ skipn (e + 1 + 1) ids)).
Proof.
  intros (H1 & t0 & t' & H2 & H3 & H4 & H5) Ht HO CL CR.
  rewrite (tail_site_ok R r0 r1 radd rmul rsub ropp Rth conj (d0 t0) (seg s e B) om x t o); auto.
  2:{ rewrite H5. symmetry. eapply fit_nth; eauto. }
  f_equal. rewrite <- (seg_snoc _ _ _ _ _ H1 Ht). symmetry.
  assert (EB : B = firstn s B ++ seg s (e + 1) B ++ skipn (e + 1 + 1) B).
  { unfold seg. replace (skipn (e + 1 + 1) B) with (skipn (s + (e + 1 + 1 - s)) B) by (f_equal; lia). apply split3. }
  rewrite EB at 1. destruct H4 as (G1 & G2 & _). apply (window R r0 r1 radd rmul rsub ropp Rth conj conj_0 conj_1 conj_add conj_mul); auto.
  - apply fit_at; auto.
  - rewrite (seg_snoc _ _ _ _ _ H1 Ht). apply (fit_app R). exists (fst x). split; auto. cbn. split; auto. rewrite H5. symmetry. exact (fit_nth _ _ _ _ _ _ HF H3 Ht).
  - eapply fit_after; eauto.
  - replace (e + 1 + 1) with ((s + 1) + (e + 1 - s)) by lia. rewrite <- skipn_skipn'. apply Forall_skipn. auto.
  - apply Forall2_firstn. auto.
  - apply Forall2_skipn. auto.
  - rewrite (seg_snoc _ _ _ _ _ H1 Ht), !app_length, G2. auto.
Qed.
Lemma one_ok s t o : nth_error B s = Some t -> d1 t = odim o -> Forall LC (firstn s B) -> Forall RC (skipn (s + 1) B) ->
  one_avg t o = Ok (expect B (upd ids s o)).
Proof.
  intros H HO CL CR. rewrite (one_avg_ok R r0 r1 radd rmul rsub ropp Rth conj t o HO). f_equal. symmetry.
  assert (LI : length ids = length B) by (symmetry; eapply Forall2_len; eauto).
  assert (HS : s < length B) by (apply nth_error_Some; congruence).
  rewrite upd_split by lia.
  assert (EB : B = firstn s B ++ [t] ++ skipn (s + 1) B).
  { rewrite <- (seg_one _ _ _ _ H). unfold seg. replace (s + 1 - s) with 1 by lia. apply split3. }
  rewrite EB at 1. apply (window R r0 r1 radd rmul rsub ropp Rth conj conj_0 conj_1 conj_add conj_mul); auto.
  - apply fit_at; auto.
  - cbn. auto.
  - eapply fit_after; eauto.
  - apply Forall2_firstn. auto.
  - apply Forall2_skipn. auto.
Qed.
End Chain.

(** ** Strings *)
Section Strings.
Variable R : Type.
Notation lop := (lop R).
Fixpoint weave (phys : list lop) (insts : list (list lop)) : list lop :=
  match phys with [] => [] | p :: phys => match insts with l :: insts => p :: l ++ weave phys insts | [] => match phys with [] => [p] | _ => [] end end end.
Lemma weave_snoc : forall a b p, length b = length a -> weave (a ++ [p]) b = weave a b ++ [p].
Proof. induction a as [|x a IH]; intros [|l b] p H; try discriminate; auto. cbn [app weave]. rewrite IH by (cbn in H; lia). cbn [app]. rewrite app_assoc. reflexivity. Qed.
Lemma weave_snoc2 : forall a b p l, length b = length a -> weave (a ++ [p]) (b ++ [l]) = weave a b ++ p :: l.
Proof.
  induction a as [|x a IH]; intros [|l' b] p l H; try discriminate; cbn [app weave]. - rewrite app_nil_r. auto.
  - rewrite IH by (cbn in H; lia). cbn [app]. rewrite app_assoc. reflexivity.
Qed.
Lemma last_nonempty A (l : list A) m : length l = S m -> exists x, nth_error l m = Some x /\ l = firstn m l ++ [x].
Proof.
  intros H. destruct (nth_error l m) as [x|] eqn:E. - exists x. split; auto. rewrite <- (firstn_snoc _ _ _ _ E). rewrite firstn_all2; auto. lia.
  - apply nth_error_None in E. lia.
Qed.
Lemma expand_ok dbg phys insts : phys <> [] -> length phys = length insts + 1 \/ length phys = length insts ->
  expand_ops R dbg phys insts = Ok (weave phys insts).
Proof.
  intros HN HL. unfold expand_ops. assert (E0 : (length phys =? length insts + 1) || (length phys =? length insts) = true).
  { apply orb_true_iff. rewrite !Nat.eqb_eq. auto. }
  rewrite E0. replace (assert_ dbg true) with (Ok tt) by (destruct dbg; auto). cbn [bind].
  destruct (length phys) as [|m] eqn:EP; [destruct phys; [congruence|discriminate]|].
  destruct (for_loop_inv _ (fun i ops => i <= m /\ ops = weave (firstn i phys) (firstn i insts))
    (fun i ops => let! p := vget phys i in let! l := vget insts i in Ok (ops ++ p :: l)) m 0 []) as (ops & E & _ & E2).
  - split; [lia|]. auto.
  - intros i ops Hi (H1 & ->). destruct (nth_error phys i) as [p|] eqn:Ep; [|apply nth_error_None in Ep; lia].
    destruct (nth_error insts i) as [l|] eqn:El; [|apply nth_error_None in El; lia].
    unfold vget. rewrite Ep, El. cbn [bind]. eexists. split; [reflexivity|]. split; [lia|].
    rewrite (firstn_snoc _ _ _ _ Ep), (firstn_snoc _ _ _ _ El). rewrite weave_snoc2; auto. rewrite !firstn_length. lia.
  - rewrite E. cbn [bind]. destruct (last_nonempty _ phys m EP) as (p & H1 & H2). unfold vget at 1. rewrite H1. cbn [bind]. cbn [Nat.add] in E2. subst ops.
    destruct HL as [HL|HL].
    + destruct (Nat.eqb_spec (length insts) (S m)); [lia|]. f_equal. rewrite (firstn_all2 insts) by lia.
      rewrite H2 at 2. rewrite weave_snoc; auto. rewrite firstn_length. lia.
    + destruct (Nat.eqb_spec (length insts) (S m)); [|lia]. destruct (last_nonempty _ insts m ltac:(lia)) as (l & H3 & H4). unfold vget. rewrite H3. cbn [bind]. f_equal.
      rewrite <- app_assoc. cbn [app]. rewrite H2 at 2. rewrite H4 at 2. rewrite weave_snoc2; auto. rewrite !firstn_length. lia.
Qed.

Notation gaps_filled := (gaps_filled R). Notation last_site := (last_site R).
Lemma gaps_ge : forall sites insts s0 i s, gaps_filled (s0 :: sites) insts -> nth_error (s0 :: sites) i = Some s -> s0 <= s.
Proof.
  induction sites as [|s1 sites IH]; intros insts s0 i s H Hi.
  - destruct i as [|i]; cbn in Hi; [injection Hi as <-; lia|destruct i; discriminate].
  - destruct insts as [|l insts]; [contradiction H|]. destruct H as [H1 H2]. destruct i as [|i]; cbn in Hi; [injection Hi as <-; lia|].
    specialize (IH insts s1 i s H2 Hi). lia.
Qed.
Lemma weave_spec : forall sites phys insts s0, gaps_filled (s0 :: sites) insts -> length phys = length (s0 :: sites) ->
  s0 + length (weave phys insts) = last_site (s0 :: sites) insts + 1 /\
  (forall i s p, nth_error (s0 :: sites) i = Some s -> nth_error phys i = Some p -> nth_error (weave phys insts) (s - s0) = Some p) /\
  (forall i s l k o, nth_error (s0 :: sites) i = Some s -> nth_error insts i = Some l -> nth_error l k = Some o -> nth_error (weave phys insts) (s - s0 + 1 + k) = Some o) /\
  (forall j, j < length (weave phys insts) -> (exists i, nth_error (s0 :: sites) i = Some (s0 + j)) \/
    (exists i s l k, nth_error (s0 :: sites) i = Some s /\ nth_error insts i = Some l /\ k < length l /\ s0 + j = s + 1 + k)).
Proof.
  induction sites as [|s1 sites IH]; intros phys insts s0 HG HL.
  - destruct phys as [|p [|]]; try discriminate. destruct insts as [|l [|l' insts]]; [| |contradiction HG].
    + cbn. split; [lia|]. split; [|split].
      * intros [|i] s p' H1 H2; cbn in *; [|destruct i; discriminate]. injection H1 as <-. replace (s0 - s0) with 0 by lia. auto.
      * intros i s l k o _ H. destruct i; discriminate.
      * intros j Hj. left. exists 0. cbn. f_equal. lia.
    + cbn [weave]. rewrite app_nil_r. cbn [last_site MeasureSpec.last_site]. split; [cbn; lia|]. split; [|split].
      * intros [|i] s p' H1 H2; cbn in *; [|destruct i; discriminate]. injection H1 as <-. replace (s0 - s0) with 0 by lia. auto.
      * intros [|i] s l' k o H1 H2 H3; cbn in *; [|destruct i; discriminate]. injection H1 as <-. injection H2 as <-. replace (s0 - s0 + 1 + k) with (S k) by lia. auto.
      * intros [|j] Hj; [left; exists 0; cbn; f_equal; lia|]. right. exists 0, s0, l, j. cbn in *. repeat split; auto; lia.
  - destruct phys as [|p phys]; [discriminate|]. destruct insts as [|l insts]; [contradiction HG|]. destruct HG as [G1 G2].
    assert (GE : forall i s, nth_error (s1 :: sites) i = Some s -> s1 <= s) by (intros; eapply gaps_ge; eauto).
    destruct (IH phys insts s1 G2 ltac:(cbn in *; lia)) as (I1 & I2 & I3 & I4). cbn [weave]. split; [|split; [|split]].
    + change (last_site (s0 :: s1 :: sites) (l :: insts)) with (last_site (s1 :: sites) insts). cbn [length]. rewrite app_length. lia.
    + intros [|i] s p' H1 H2; cbn [nth_error] in H1, H2.
      * injection H1 as <-. injection H2 as <-. replace (s0 - s0) with 0 by lia. auto.
      * pose proof (GE _ _ H1). replace (s - s0) with (S (length l + (s - s1))) by lia. cbn [nth_error]. rewrite nth_error_app2 by lia. rewrite <- (I2 i s p' H1 H2). f_equal. lia.
    + intros [|i] s l' k o H1 H2 H3; cbn [nth_error] in H1, H2.
      * injection H1 as <-. injection H2 as <-. replace (s0 - s0 + 1 + k) with (S k) by lia. cbn [nth_error]. rewrite nth_error_app1; auto. apply nth_error_Some. congruence.
      * pose proof (GE _ _ H1). replace (s - s0 + 1 + k) with (S (length l + (s - s1 + 1 + k))) by lia. cbn [nth_error]. rewrite nth_error_app2 by lia. rewrite <- (I3 i s l' k o H1 H2 H3). f_equal. lia.
    + intros [|j] Hj; [left; exists 0; cbn; f_equal; lia|]. cbn [length] in Hj. rewrite app_length in Hj.
      destruct (Nat.lt_ge_cases j (length l)).
      * right. exists 0, s0, l, j. cbn [nth_error]. repeat split; auto; lia.
      * destruct (I4 (j - length l) ltac:(lia)) as [(i & Hi)|(i & s & l' & k & A1 & A2 & A3 & A4)].
        -- left. exists (S i). cbn [nth_error]. rewrite Hi. f_equal. lia.
        -- right. exists (S i), s, l', k. cbn [nth_error]. repeat split; auto. lia.
Qed.
(** the list of operators that an event stands for *)
Definition spread (ids : list lop) (s0 : nat) (W : list lop) : list lop := firstn s0 ids ++ W ++ skipn (s0 + length W) ids.
Lemma spread_nth ids s0 W j : s0 + length W <= length ids ->
  nth_error (spread ids s0 W) j = if j <? s0 then nth_error ids j else if j <? s0 + length W then nth_error W (j - s0) else nth_error ids j.
Proof.
  intros H. unfold spread. destruct (Nat.ltb_spec j s0).
  - rewrite nth_error_app1 by (rewrite firstn_length; lia). apply nth_firstn. auto.
  - rewrite nth_error_app2 by (rewrite firstn_length; lia). rewrite firstn_length. replace (Nat.min s0 (length ids)) with s0 by lia. destruct (Nat.ltb_spec j (s0 + length W)).
    + apply nth_error_app1. lia.
    + rewrite nth_error_app2 by lia. rewrite nth_skipn. f_equal. lia.
Qed.
Lemma placed_spread ids s0 sites phys insts : gaps_filled (s0 :: sites) insts -> length phys = length (s0 :: sites) -> last_site (s0 :: sites) insts < length ids ->
  placed R ids (s0 :: sites) phys insts (spread ids s0 (weave phys insts)).
Proof.
  intros HG HL HN. destruct (weave_spec sites phys insts s0 HG HL) as (I1 & I2 & I3 & I4). set (W := weave phys insts) in *.
  assert (GE : forall i s, nth_error (s0 :: sites) i = Some s -> s0 <= s) by (intros; eapply gaps_ge; eauto).
  split; [|split; [|split]].
  - unfold spread. rewrite !app_length, firstn_length, skipn_length. lia.
  - intros i s p H1 H2. pose proof (GE _ _ H1). rewrite spread_nth by lia. specialize (I2 i s p H1 H2). assert (s - s0 < length W) by (apply nth_error_Some; congruence).
    destruct (Nat.ltb_spec s s0); [lia|]. destruct (Nat.ltb_spec s (s0 + length W)); [|lia]. auto.
  - intros i s l k o H1 H2 H3. pose proof (GE _ _ H1). rewrite spread_nth by lia. specialize (I3 i s l k o H1 H2 H3). assert (s - s0 + 1 + k < length W) by (apply nth_error_Some; congruence).
    destruct (Nat.ltb_spec (s + 1 + k) s0); [lia|]. destruct (Nat.ltb_spec (s + 1 + k) (s0 + length W)); [|lia]. rewrite <- I3. f_equal. lia.
  - intros j H1 H2. rewrite spread_nth by lia. destruct (Nat.ltb_spec j s0); auto. destruct (Nat.ltb_spec j (s0 + length W)); auto. exfalso.
    destruct (I4 (j - s0) ltac:(lia)) as [(i & Hi)|(i & s & l & k & A1 & A2 & A3 & A4)].
    + replace (s0 + (j - s0)) with j in Hi by lia. eapply H1; eauto.
    + replace (s0 + (j - s0)) with j in A4 by lia. eapply H2; eauto.
Qed.
(** and it is the only one *)
Lemma placed_unique ids sites phys insts os os' : length phys = length sites -> placed R ids sites phys insts os -> placed R ids sites phys insts os' -> os = os'.
Proof.
  intros HL (A1 & A2 & A3 & A4) (B1 & B2 & B3 & B4). apply nth_error_ext. intros j.
  destruct (in_dec Nat.eq_dec j sites) as [H|H].
  - apply In_nth_error in H. destruct H as (i & Hi). destruct (nth_error phys i) as [p|] eqn:Ep. + rewrite (A2 _ _ _ Hi Ep), (B2 _ _ _ Hi Ep). auto.
    + apply nth_error_None in Ep. assert (i < length sites) by (apply nth_error_Some; congruence). lia.
  - set (pos := flat_map (fun sl : nat * list lop => map (fun k => (fst sl + 1 + k)) (seq 0 (length (snd sl)))) (combine sites insts)).
    destruct (in_dec Nat.eq_dec j pos) as [H'|H'].
    + unfold pos in H'. apply in_flat_map in H'. destruct H' as ((s & l) & H1 & H2). apply in_map_iff in H2. destruct H2 as (k & E & H2). apply in_seq in H2. cbn [fst snd] in *.
      apply In_nth_error in H1. destruct H1 as (i & Hi). assert (Hs : nth_error sites i = Some s /\ nth_error insts i = Some l).
      { clear -Hi. revert insts i Hi. induction sites as [|a sites IH]; intros [|b insts] [|i] Hi; cbn in *; try discriminate; [injection Hi as -> ->; auto|eauto]. }
      destruct Hs as [Hs Hl]. destruct (nth_error l k) as [o|] eqn:Eo; [|apply nth_error_None in Eo; lia]. subst j. rewrite (A3 _ _ _ _ _ Hs Hl Eo), (B3 _ _ _ _ _ Hs Hl Eo). auto.
    + rewrite A4, B4; auto.
      1, 3: intros i s Hi ->; apply H; eapply nth_error_In; eauto.
      all: intros i s l k Hi Hl Hk ->; apply H'; unfold pos; apply in_flat_map; exists (s, l); split;
        [|apply in_map_iff; exists k; split; auto; apply in_seq; cbn; lia].
      all: clear -Hi Hl; revert insts i Hi Hl; induction sites as [|a sites IH]; intros [|b insts] [|i] Hi Hl; cbn in *; try discriminate;
        [injection Hi as ->; injection Hl as ->; left; auto|right; eauto].
Qed.
End Strings.
