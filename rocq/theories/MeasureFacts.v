(** Proofs about measurements: the contractions give expectation values *)
From Coq Require Import List Arith Lia Bool ZArith Ring.
From Verif Require Import Base FiniteMps FmpsSpec FmpsFacts FmpsTruth EffHam EffHamSpec FinMpoSpec FinMpoFacts Measure MeasureSpec.
Import ListNotations.

Lemma Forall2_len A B (P : A -> B -> Prop) l l' : Forall2 P l l' -> length l = length l'.
Proof. induction 1; cbn; auto. Qed.

Section Layers.
Variables (R : Type) (r0 r1 : R) (radd rmul rsub : R -> R -> R) (ropp : R -> R).
Variable Rth : ring_theory r0 r1 radd rmul rsub ropp (@eq R).
Add Ring Rms : Rth.
Variable conj : R -> R.
Hypothesis conj_0 : conj r0 = r0.
Hypothesis conj_1 : conj r1 = r1.
Hypothesis conj_add : forall a b, conj (radd a b) = radd (conj a) (conj b).
Hypothesis conj_mul : forall a b, conj (rmul a b) = rmul (conj a) (conj b).
Infix "+r" := radd (at level 50, left associativity).
Infix "*r" := rmul (at level 40, left associativity).
Notation sumn := (sumn R r0 radd). Notation lsum := (lsum R r0 radd). Notation ten := (ten R). Notation lop := (lop R).
Notation delta := (delta R r0 r1). Notation mps_mat := (mps_mat R r0 r1 radd rmul).
Notation prod_elem := (prod_elem R r0 r1 rmul). Notation expect := (expect R r0 r1 radd rmul conj).
Notation LC := (left_canonical R r0 r1 radd rmul conj). Notation RC := (right_canonical R r0 r1 radd rmul conj).
Notation is_id := (is_id R r0 r1). Notation identities := (identities R r0 r1).
Notation fit := (fit R).
Let sx := s_ext R r0 radd.
Let sml := s_mull R r0 r1 radd rmul rsub ropp Rth.
Let smr := s_mulr R r0 r1 radd rmul rsub ropp Rth.
Let ssw := s_swap R r0 r1 radd rmul rsub ropp Rth.
Let so := s_one R r0 r1 radd rmul rsub ropp Rth.
Let s0 := s_0 R r0 r1 radd rmul rsub ropp Rth.

Lemma conj_s n f : conj (sumn n f) = sumn n (fun i => conj (f i)).
Proof. induction n; cbn; auto. rewrite conj_add, IHn. auto. Qed.
Lemma conj_d a b : conj (delta a b) = delta a b.
Proof. unfold FmpsSpec.delta. destruct (a =? b); auto. Qed.
Lemma d_sym a b : delta a b = delta b a.
Proof. unfold FmpsSpec.delta. rewrite Nat.eqb_sym. auto. Qed.
Ltac dz := first [assumption|let i := fresh in intros i ? ?; unfold FmpsSpec.delta; match goal with |- context [?a =? ?b] => destruct (Nat.eqb_spec a b); [exfalso; lia|ring] end
  |let i := fresh in intros i ? ?; apply s0; intros; unfold FmpsSpec.delta; match goal with |- context [?a =? ?b] => destruct (Nat.eqb_spec a b); [exfalso; lia|ring] end].
Lemma d_sum n k f : k < n -> sumn n (fun i => delta k i *r f i) = f k.
Proof.
  intros H. rewrite (so n k) by dz.
  unfold FmpsSpec.delta. rewrite Nat.eqb_refl. ring.
Qed.
(** the sum over the diagonal of two indices *)
Lemma d_diag n f : sumn n (fun z => sumn n (fun z' => delta z z' *r f z z')) = sumn n (fun z => f z z).
Proof. apply sx. intros z Hz. apply (d_sum n z (fun z' => f z z')). auto. Qed.

(** one site of the double layer *)
Definition lay (t : ten) (o : lop) (x x' z z' : nat) : R :=
  sumn (d1 t) (fun s => sumn (d1 t) (fun s' => el t x s z *r oe o s s' *r conj (el t x' s' z'))).
Fixpoint dl (ts : list ten) (os : list lop) (x x' y y' : nat) : R :=
  match ts, os with
  | [], [] => delta x y *r delta x' y'
  | t :: ts, o :: os => sumn (d2 t) (fun z => sumn (d2 t) (fun z' => lay t o x x' z z' *r dl ts os z z' y y'))
  | _, _ => r0
  end.

Lemma dl_configs : forall ts os x x' y y', length os = length ts -> dl ts os x x' y y' =
  lsum (configs (map (@d1 R) ts)) (fun c => lsum (configs (map (@d1 R) ts)) (fun c' =>
    mps_mat ts c x y *r prod_elem os c c' *r conj (mps_mat ts c' x' y'))).
Proof.
  induction ts as [|t ts IH]; intros [|o os] x x' y y' HL; try discriminate.
  - cbn [map configs dl]. rewrite !l_cons, !l_nil. cbn. rewrite conj_d. ring.
  - cbn [map]. rewrite (cfg_cons R r0 r1 radd rmul rsub ropp Rth). cbn [dl].
    set (D := map (@d1 R) ts).
    transitivity (sumn (d2 t) (fun z => sumn (d2 t) (fun z' => sumn (d1 t) (fun s => sumn (d1 t) (fun s' =>
      lsum (configs D) (fun c => lsum (configs D) (fun c' =>
        el t x s z *r oe o s s' *r conj (el t x' s' z') *r (mps_mat ts c z y *r prod_elem os c c' *r conj (mps_mat ts c' z' y'))))))))).
    + apply sx. intros z Hz. apply sx. intros z' Hz'. unfold lay. rewrite smr. apply sx. intros s Hs. rewrite smr. apply sx. intros s' Hs'.
      rewrite IH by (cbn in HL; lia). fold D. rewrite (l_mull R r0 r1 radd rmul rsub ropp Rth). apply l_ext. intros c _.
      rewrite (l_mull R r0 r1 radd rmul rsub ropp Rth). auto.
    + transitivity (sumn (d1 t) (fun s => sumn (d1 t) (fun s' => sumn (d2 t) (fun z => sumn (d2 t) (fun z' => lsum (configs D) (fun c => lsum (configs D) (fun c' =>
        el t x s z *r oe o s s' *r conj (el t x' s' z') *r (mps_mat ts c z y *r prod_elem os c c' *r conj (mps_mat ts c' z' y'))))))))).
      { transitivity (sumn (d2 t) (fun z => sumn (d1 t) (fun s => sumn (d1 t) (fun s' => sumn (d2 t) (fun z' => lsum (configs D) (fun c => lsum (configs D) (fun c' =>
          el t x s z *r oe o s s' *r conj (el t x' s' z') *r (mps_mat ts c z y *r prod_elem os c c' *r conj (mps_mat ts c' z' y'))))))))).
        - apply sx. intros z Hz. rewrite ssw. apply sx. intros s Hs. apply ssw.
        - rewrite ssw. apply sx. intros s Hs. apply ssw. }
      apply sx. intros s Hs. rewrite (l_ext R r0 radd _ _ (fun c => sumn (d1 t) (fun s' => lsum (configs D) (fun c' =>
        mps_mat (t :: ts) (s :: c) x y *r prod_elem (o :: os) (s :: c) (s' :: c') *r conj (mps_mat (t :: ts) (s' :: c') x' y'))))).
      2:{ intros c _. apply (cfg_cons R r0 r1 radd rmul rsub ropp Rth). }
      rewrite (l_sumn R r0 r1 radd rmul rsub ropp Rth). apply sx. intros s' Hs'.
      rewrite (sx _ _ (fun z => lsum (configs D) (fun c => sumn (d2 t) (fun z' => lsum (configs D) (fun c' =>
        el t x s z *r oe o s s' *r conj (el t x' s' z') *r (mps_mat ts c z y *r prod_elem os c c' *r conj (mps_mat ts c' z' y'))))))).
      2:{ intros z Hz. symmetry. apply (l_sumn R r0 r1 radd rmul rsub ropp Rth). }
      rewrite <- (l_sumn R r0 r1 radd rmul rsub ropp Rth). apply l_ext. intros c _.
      rewrite (sx _ _ (fun z => lsum (configs D) (fun c' => sumn (d2 t) (fun z' =>
        el t x s z *r oe o s s' *r conj (el t x' s' z') *r (mps_mat ts c z y *r prod_elem os c c' *r conj (mps_mat ts c' z' y')))))).
      2:{ intros z Hz. symmetry. apply (l_sumn R r0 r1 radd rmul rsub ropp Rth). }
      rewrite <- (l_sumn R r0 r1 radd rmul rsub ropp Rth). apply l_ext. intros c' _.
      cbn [EffHamSpec.mps_mat MeasureSpec.prod_elem]. rewrite conj_s, !smr. apply sx. intros z Hz. rewrite sml. apply sx. intros z' Hz'. rewrite conj_mul. ring.
Qed.
Lemma expect_dl A os : length os = length A -> expect A os = dl A os 0 0 0 0.
Proof. intros H. rewrite dl_configs by auto. auto. Qed.

Lemma dl_app : forall a oa b ob x x' y y' c e, fit c a e -> x < c -> x' < c -> length oa = length a -> length ob = length b ->
  dl (a ++ b) (oa ++ ob) x x' y y' = sumn e (fun z => sumn e (fun z' => dl a oa x x' z z' *r dl b ob z z' y y')).
Proof.
  induction a as [|t a IH]; intros [|o oa] b ob x x' y y' c e HF Hx Hx' HL HL'; try discriminate.
  - cbn in HF. subst e. cbn [app dl].
    rewrite (so c x) by dz.
    rewrite (so c x') by dz.
    unfold FmpsSpec.delta. rewrite !Nat.eqb_refl. ring.
  - cbn [app dl]. destruct HF as [HF1 HF2].
    transitivity (sumn (d2 t) (fun w => sumn (d2 t) (fun w' => sumn e (fun z => sumn e (fun z' => lay t o x x' w w' *r dl a oa w w' z z' *r dl b ob z z' y y'))))).
    + apply sx. intros w Hw. apply sx. intros w' Hw'. rewrite (IH oa b ob w w' y y' (d2 t) e) by (auto; cbn in *; lia). rewrite sml. apply sx. intros z Hz. rewrite sml.
      apply sx. intros. ring.
    + transitivity (sumn e (fun z => sumn e (fun z' => sumn (d2 t) (fun w => sumn (d2 t) (fun w' => lay t o x x' w w' *r dl a oa w w' z z' *r dl b ob z z' y y'))))).
      { transitivity (sumn (d2 t) (fun w => sumn e (fun z => sumn e (fun z' => sumn (d2 t) (fun w' => lay t o x x' w w' *r dl a oa w w' z z' *r dl b ob z z' y y'))))).
        - apply sx. intros w Hw. rewrite ssw. apply sx. intros z Hz. apply ssw.
        - rewrite ssw. apply sx. intros z Hz. apply ssw. }
      apply sx. intros z Hz. apply sx. intros z' Hz'. rewrite smr. apply sx. intros w Hw. rewrite smr. apply sx. intros w' Hw'. ring.
Qed.

(** canonical tensors and identities *)
Lemma lay_id t o x x' z z' : is_id (d1 t) o -> lay t o x x' z z' = sumn (d1 t) (fun s => el t x s z *r conj (el t x' s z')).
Proof.
  intros [H1 H2]. unfold lay. apply sx. intros s Hs. rewrite (so (d1 t) s); auto.
  - rewrite H2, Nat.eqb_refl by auto. ring.
  - intros i Hi Ne. rewrite H2 by auto. destruct (Nat.eqb_spec s i); [lia|ring].
Qed.
Lemma left_ids : forall ls os a c z z', fit a ls c -> Forall LC ls -> identities ls os -> z < c -> z' < c ->
  sumn a (fun x => dl ls os x x z z') = delta z z'.
Proof.
  induction ls as [|t ls IH]; intros os a c z z' HF HC HI Hz Hz'; inversion HI as [|? o ? os' I1 I2]; subst.
  - cbn in HF. subst a. cbn [dl]. rewrite (so c z) by dz.
    unfold FmpsSpec.delta. rewrite Nat.eqb_refl. ring.
  - cbn in HF. destruct HF as [HF1 HF2]. inversion HC as [|? ? C1 C2]; subst. cbn [dl].
    rewrite ssw. rewrite <- (IH os' (d2 t) c z z') by auto. apply sx. intros w Hw. rewrite ssw.
    transitivity (sumn (d2 t) (fun w' => delta w w' *r dl ls os' w w' z z')); [|apply (d_sum (d2 t) w (fun w' => dl ls os' w w' z z')); auto].
    apply sx. intros w' Hw'. rewrite <- smr. f_equal.
    transitivity (sumn (d0 t) (fun l => sumn (d1 t) (fun s => conj (el t l s w') *r el t l s w))).
    + apply sx. intros l Hl. rewrite lay_id by auto. apply sx. intros. ring.
    + rewrite (C1 w' w) by auto. apply d_sym.
Qed.
Lemma right_ids : forall rs os c x x', fit c rs 1 -> Forall RC rs -> identities rs os -> x < c -> x' < c -> dl rs os x x' 0 0 = delta x x'.
Proof.
  induction rs as [|t rs IH]; intros os c x x' HF HC HI Hx Hx'; inversion HI as [|? o ? os' I1 I2]; subst.
  - cbn in HF. subst c. cbn [dl]. replace x with 0 by lia. replace x' with 0 by lia. unfold FmpsSpec.delta. cbn. ring.
  - cbn in HF. destruct HF as [HF1 HF2]. inversion HC as [|? ? C1 C2]; subst. cbn [dl].
    transitivity (sumn (d2 t) (fun z => lay t o x x' z z)).
    + apply sx. intros z Hz. transitivity (sumn (d2 t) (fun z' => delta z z' *r lay t o x x' z z')); [|apply (d_sum (d2 t) z (fun z' => lay t o x x' z z')); auto].
      apply sx. intros z' Hz'. rewrite (IH os' (d2 t)) by auto. ring.
    + transitivity (sumn (d2 t) (fun r => sumn (d1 t) (fun s => conj (el t x' s r) *r el t x s r))).
      * apply sx. intros z Hz. rewrite lay_id by auto. apply sx. intros. ring.
      * rewrite (C1 x' x) by auto. apply d_sym.
Qed.

(** a window of operators in a chain whose rest is canonical *)
Theorem window ls mid rs il om ir c e : fit 1 ls c -> fit c mid e -> fit e rs 1 -> Forall LC ls -> Forall RC rs ->
  identities ls il -> identities rs ir -> length om = length mid ->
  expect (ls ++ mid ++ rs) (il ++ om ++ ir) = sumn c (fun z => sumn e (fun w => dl mid om z z w w)).
Proof.
  intros F1 F2 F3 C1 C3 I1 I3 HL.
  assert (LL : length il = length ls) by (clear -I1; induction I1; cbn; auto).
  assert (LR : length ir = length rs) by (clear -I3; induction I3; cbn; auto).
  rewrite expect_dl by (rewrite !app_length; lia).
  rewrite (dl_app ls il (mid ++ rs) (om ++ ir) 0 0 0 0 1 c) by (auto; rewrite ?app_length; lia).
  transitivity (sumn c (fun z => sumn c (fun z' => delta z z' *r dl (mid ++ rs) (om ++ ir) z z' 0 0))).
  { apply sx. intros z Hz. apply sx. intros z' Hz'. pose proof (left_ids ls il 1 c z z' F1 C1 I1 Hz Hz') as E. cbn [FmpsSpec.sumn] in E.
    rewrite <- E. ring. }
  rewrite d_diag. apply sx. intros z Hz.
  rewrite (dl_app mid om rs ir z z 0 0 c e) by auto. rewrite <- (d_diag e (fun w w' => dl mid om z z w w')). apply sx. intros w Hw. apply sx. intros w' Hw'.
  rewrite (right_ids rs ir e) by auto. ring.
Qed.

(** ** The contractions *)
Lemma dl_one t o x x' w w' : w < d2 t -> w' < d2 t -> dl [t] [o] x x' w w' = lay t o x x' w w'.
Proof. intros H H'. cbn [dl]. rewrite (so (d2 t) w) by dz. rewrite (so (d2 t) w') by dz. unfold FmpsSpec.delta. rewrite !Nat.eqb_refl. ring. Qed.
Lemma fit_app : forall l a l' b, fit a (l ++ l') b <-> exists c, fit a l c /\ fit c l' b.
Proof. exact (linked_app R). Qed.
Lemma dl_snoc m om t o c n x x' w w' : fit c m n -> length om = length m -> d0 t = n -> x < c -> x' < c -> w < d2 t -> w' < d2 t ->
  dl (m ++ [t]) (om ++ [o]) x x' w w' = sumn n (fun z => sumn n (fun z' => dl m om x x' z z' *r lay t o z z' w w')).
Proof.
  intros HF HL HD Hx Hx' Hw Hw'. rewrite (dl_app m om [t] [o] x x' w w' c n) by auto. apply sx. intros z Hz. apply sx. intros z' Hz'. rewrite dl_one; auto.
Qed.
Lemma lay_ext t o o' x x' z z' : (forall s s', s < d1 t -> s' < d1 t -> oe o s s' = oe o' s s') -> lay t o x x' z z' = lay t o' x x' z z'.
Proof. intros H. unfold lay. apply sx. intros. apply sx. intros. rewrite H; auto. Qed.

Definition rep (c : nat) (m : list ten) (om : list lop) (x : temp R) : Prop :=
  fit c m (fst x) /\ length om = length m /\ forall w w', w < fst x -> w' < fst x -> snd x w w' = sumn c (fun z => dl m om z z w w').

Notation one_avg := (one_avg R r0 radd rmul conj). Notation head_site := (head_site R r0 radd rmul conj). Notation tail_site := (tail_site R r0 radd rmul conj).
Variable op_eqb : lop -> lop -> bool.
Hypothesis op_eqb_sound : forall a b, op_eqb a b = true -> odim a = odim b /\ forall s s', s < odim b -> s' < odim b -> oe a s s' = oe b s s'.
Notation mid_site := (mid_site R r0 radd rmul conj op_eqb).

Lemma one_avg_ok t o : d1 t = odim o -> one_avg t o = Ok (sumn (d0 t) (fun z => sumn (d2 t) (fun w => dl [t] [o] z z w w))).
Proof.
  intros H. unfold Measure.one_avg. rewrite H, Nat.eqb_refl, <- H. f_equal. apply sx. intros l Hl. rewrite ssw. apply sx. intros r Hr. rewrite dl_one by auto. unfold lay.
  rewrite (ssw (d1 t) (d1 t)). apply sx. intros s' Hs'. rewrite smr. auto.
Qed.
Lemma head_site_ok t o : d1 t = odim o -> exists x, head_site t o = Ok x /\ rep (d0 t) [t] [o] x /\ fst x = d2 t.
Proof.
  intros H. unfold Measure.head_site. rewrite H, Nat.eqb_refl, <- H. eexists. split; [reflexivity|]. split; [|reflexivity]. split; [cbn; auto|]. split; [auto|]. cbn [fst snd].
  intros w w' Hw Hw'. apply sx. intros l Hl. rewrite dl_one by auto. unfold lay. rewrite (ssw (d1 t) (d1 t)). apply sx. intros s' Hs'. rewrite smr. auto.
Qed.
Lemma push c m om n f t o w w' : rep c m om (n, f) -> d0 t = n -> w < d2 t -> w' < d2 t ->
  sumn c (fun z => dl (m ++ [t]) (om ++ [o]) z z w w') = sumn n (fun l => sumn n (fun l' => f l l' *r lay t o l l' w w')).
Proof.
  intros (H1 & H2 & H3) HD Hw Hw'. cbn [fst snd] in *.
  transitivity (sumn c (fun z => sumn n (fun l => sumn n (fun l' => dl m om z z l l' *r lay t o l l' w w')))).
  { apply sx. intros z Hz. apply (dl_snoc m om t o c n); auto. }
  rewrite ssw. apply sx. intros l Hl. rewrite ssw. apply sx. intros l' Hl'. rewrite H3 by auto. rewrite smr. auto.
Qed.
Lemma mid_site_ok c m om x t o ido : rep c m om x -> d0 t = fst x -> d1 t = odim o -> is_id (d1 t) ido ->
  exists x', mid_site t o ido x = Ok x' /\ rep c (m ++ [t]) (om ++ [o]) x' /\ fst x' = d2 t.
Proof.
  intros HR HD HO HI. destruct x as [n f]. cbn [fst] in HD. pose proof HR as (H1 & H2 & H3). cbn [fst snd] in *. unfold Measure.mid_site.
  assert (FT : fit c (m ++ [t]) (d2 t)) by (apply fit_app; exists n; split; auto; cbn; auto).
  assert (LT : length (om ++ [o]) = length (m ++ [t])) by (rewrite !app_length; cbn; lia).
  destruct (op_eqb o ido) eqn:E.
  - apply op_eqb_sound in E. destruct E as [E1 E2]. rewrite HD, Nat.eqb_refl. eexists. split; [reflexivity|]. split; [|reflexivity]. split; [exact FT|]. split; [exact LT|].
    cbn [fst snd]. intros w w' Hw Hw'. rewrite (push c m om n f t o w w') by auto.
    transitivity (sumn n (fun l => sumn n (fun l' => f l l' *r sumn (d1 t) (fun s => el t l s w *r conj (el t l' s w'))))).
    2:{ apply sx. intros l Hl. apply sx. intros l' Hl'. f_equal. rewrite (lay_ext t o ido) by (intros; apply E2; congruence). rewrite lay_id by auto. auto. }
    transitivity (sumn (d1 t) (fun s => sumn n (fun l => sumn n (fun l' => f l l' *r (el t l s w *r conj (el t l' s w')))))).
    + apply sx. intros s Hs. rewrite (ssw n n). apply sx. intros l' Hl'. rewrite smr. apply sx. intros. ring.
    + rewrite ssw. apply sx. intros l Hl. rewrite ssw. apply sx. intros l' Hl'. rewrite sml. auto.
  - rewrite HD, Nat.eqb_refl, HO, Nat.eqb_refl, <- HO. cbn [andb]. eexists. split; [reflexivity|]. split; [|reflexivity]. split; [exact FT|]. split; [exact LT|].
    cbn [fst snd]. intros w w' Hw Hw'. rewrite (push c m om n f t o w w') by auto. rewrite (ssw n n). apply sx. intros l' Hl'.
    transitivity (sumn (d1 t) (fun s' => sumn (d1 t) (fun s => sumn n (fun l => f l l' *r (el t l s w *r oe o s s' *r conj (el t l' s' w')))))).
    + apply sx. intros s' Hs'. rewrite smr. apply sx. intros s Hs. rewrite !smr. apply sx. intros. ring.
    + transitivity (sumn n (fun l => sumn (d1 t) (fun s => sumn (d1 t) (fun s' => f l l' *r (el t l s w *r oe o s s' *r conj (el t l' s' w')))))).
      { rewrite (ssw (d1 t) (d1 t)). transitivity (sumn (d1 t) (fun s => sumn n (fun l => sumn (d1 t) (fun s' => f l l' *r (el t l s w *r oe o s s' *r conj (el t l' s' w')))))); [apply sx; intros; apply ssw|apply ssw]. }
      apply sx. intros l Hl. unfold lay. rewrite sml. apply sx. intros s Hs. rewrite sml. auto.
Qed.
Lemma tail_site_ok c m om x t o : rep c m om x -> d0 t = fst x -> d1 t = odim o ->
  tail_site t o x = Ok (sumn c (fun z => sumn (d2 t) (fun w => dl (m ++ [t]) (om ++ [o]) z z w w))).
Proof.
  intros HR HD HO. destruct x as [n f]. cbn [fst] in HD. unfold Measure.tail_site. rewrite HD, Nat.eqb_refl, HO, Nat.eqb_refl, <- HO. cbn [andb]. f_equal.
  rewrite (ssw c (d2 t)). apply sx. intros w Hw. rewrite (push c m om n f t o w w) by auto. rewrite (ssw n n). apply sx. intros l' Hl'.
  transitivity (sumn (d1 t) (fun s' => sumn (d1 t) (fun s => sumn n (fun l => f l l' *r (el t l s w *r oe o s s' *r conj (el t l' s' w)))))).
  - apply sx. intros s' Hs'. rewrite smr. apply sx. intros s Hs. rewrite !smr. apply sx. intros. ring.
  - transitivity (sumn n (fun l => sumn (d1 t) (fun s => sumn (d1 t) (fun s' => f l l' *r (el t l s w *r oe o s s' *r conj (el t l' s' w)))))).
    { rewrite (ssw (d1 t) (d1 t)). transitivity (sumn (d1 t) (fun s => sumn n (fun l => sumn (d1 t) (fun s' => f l l' *r (el t l s w *r oe o s s' *r conj (el t l' s' w)))))); [apply sx; intros; apply ssw|apply ssw]. }
    apply sx. intros l Hl. unfold lay. rewrite sml. apply sx. intros s Hs. rewrite sml. auto.
Qed.

(** the expectation value is a function of the state *)
Lemma mat_from : forall ts k s x y, mps_from R r0 r1 radd rmul k ts s x y = mps_mat ts (map s (seq k (length ts))) x y.
Proof. induction ts as [|t ts IH]; intros k s x y; cbn [length seq map EffHamSpec.mps_mat mps_from]; auto. apply sx. intros z Hz. rewrite IH. auto. Qed.
Lemma map_nth_seq (c : list nat) : map (fun i => nth i c 0) (seq 0 (length c)) = c.
Proof.
  apply nth_error_ext. intros i. destruct (Nat.lt_ge_cases i (length c)) as [H|H].
  - rewrite nth_error_map. rewrite (nth_error_nth' (seq 0 (length c)) 0) by (rewrite seq_length; auto). cbn. rewrite seq_nth by auto. cbn. symmetry. apply nth_error_nth'. auto.
  - rewrite (proj2 (nth_error_None _ _)) by (rewrite map_length, seq_length; auto). symmetry. apply nth_error_None. auto.
Qed.
Lemma same_expect A B os : same_state R r0 r1 radd rmul 1 1 A B -> expect B os = expect A os.
Proof.
  intros [H1 H2 H3 H4]. unfold MeasureSpec.expect. rewrite H3.
  assert (G : forall c, In c (configs (map (@d1 R) A)) -> amp R r0 r1 radd rmul B c = amp R r0 r1 radd rmul A c).
  { intros c Hc. apply cfg_in in Hc. assert (LC_ : length c = length A) by (pose proof (Forall2_len _ _ _ _ _ Hc) as E; rewrite map_length in E; auto).
    unfold amp. assert (CF : config R A (fun i => nth i c 0)).
    2:{ pose proof (H4 _ CF 0 0 ltac:(lia)) as E. rewrite !mat_from, H1, <- LC_, map_nth_seq in E. exact E. }
    intros i t Ht. assert (Hi : i < length c) by (rewrite LC_; apply nth_error_Some; congruence).
    assert (Ed : nth_error (map (@d1 R) A) i = Some (d1 t)) by (rewrite nth_error_map, Ht; auto).
    clear -Hc Ed Hi. revert i Ed Hi. induction Hc as [|s d c ds H _ IH]; intros [|i] Ed Hi; cbn in *; try lia; [congruence|apply IH; auto; lia]. }
  apply l_ext. intros c Hc. apply l_ext. intros c' Hc'. rewrite !G by auto. auto.
Qed.
End Layers.
