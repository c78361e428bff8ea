(** Proofs about measurements in memory *)
From Coq Require Import List Arith Lia Bool ZArith Ring.
From Verif Require Import Base FiniteMps FmpsSpec FmpsFacts FmpsTruth EffHam EffHamSpec FinMpoSpec FinMpoFacts Measure MeasureSpec MeasureFacts MeasureChain.
Import ListNotations.

Section Mem.
Variables (R : Type) (r0 r1 : R) (radd rmul rsub : R -> R -> R) (ropp : R -> R).
Variable Rth : ring_theory r0 r1 radd rmul rsub ropp (@eq R).
Variable conj : R -> R.
Hypothesis conj_0 : conj r0 = r0.
Hypothesis conj_1 : conj r1 = r1.
Hypothesis conj_add : forall a b, conj (radd a b) = radd (conj a) (conj b).
Hypothesis conj_mul : forall a b, conj (rmul a b) = rmul (conj a) (conj b).
Notation ten := (ten R). Notation lop := (lop R). Notation fmps := (fmps R).
Notation expect := (expect R r0 r1 radd rmul conj).
Notation LC := (left_canonical R r0 r1 radd rmul conj). Notation RC := (right_canonical R r0 r1 radd rmul conj).
Notation identities := (identities R r0 r1).
Notation fit := (fit R). Notation holds := (holds R). Notation truthful := (truthful R r0 r1 radd rmul conj).
Notation same := (same_state R r0 r1 radd rmul 1 1).
Variable op_eqb : lop -> lop -> bool.
Hypothesis op_eqb_sound : forall a b, op_eqb a b = true -> odim a = odim b /\ forall s s', s < odim b -> s' < odim b -> oe a s s' = oe b s s'.
Variable qr : ten -> ten * mat2 R.
Variable svd1 : ten -> mat2 R * ten * list R.
Hypothesis QR : qr_exact R r0 r1 radd rmul conj qr.
Hypothesis SVD : svd_exact R r0 r1 radd rmul conj svd1.
Notation centralize := (centralize R r0 radd rmul qr svd1).

(** a chain in memory with center [k] *)
Definition centered (A : list ten) (k : nat) (st : fmps) (ts : list ten) : Prop :=
  holds st ts /\ truthful st /\ same A ts /\ Forall LC (firstn k ts) /\ Forall RC (skipn (k + 1) ts).
Definition stands (A : list ten) (st : fmps) : Prop := exists ts, holds st ts /\ truthful st /\ same A ts.

Lemma Forall_nth A (P : A -> Prop) l : (forall i x, nth_error l i = Some x -> P x) -> Forall P l.
Proof. intros H. apply Forall_forall. intros x Hx. apply In_nth_error in Hx. destruct Hx as (i & Hi). eauto. Qed.
Lemma cent A dbg k st : stands A st -> k < length A -> exists st' ts, centralize dbg (Z.of_nat k) st = Ok st' /\ centered A k st' ts.
Proof.
  intros (ts & H1 & H2 & H3) HK. destruct (centralize_ok R r0 r1 radd rmul rsub ropp Rth conj qr svd1 QR SVD dbg 1 1 ts st k H1 (ss_link _ _ _ _ _ _ _ _ _ H3)) as (st' & ts' & E & A1 & A2 & A3 & A4 & A5).
  { rewrite (ss_len _ _ _ _ _ _ _ _ _ H3). auto. }
  pose proof (centralize_true R r0 r1 radd rmul conj qr svd1 QR SVD dbg (Z.of_nat k) st st' H2 E) as HT.
  assert (LL : length ts' = length A) by (rewrite (ss_len _ _ _ _ _ _ _ _ _ A2); apply (ss_len _ _ _ _ _ _ _ _ _ H3)).
  exists st', ts'. split; auto. split; auto. split; auto. split; [eapply same_trans; eauto|]. destruct A1 as [T1 T2]. split.
  - apply Forall_nth. intros i x Hi. assert (Hlt : i < k). { assert (i < length (firstn k ts')) by (apply nth_error_Some; congruence). rewrite firstn_length in H. lia. }
    rewrite nth_firstn in Hi by auto. destruct (proj1 (HT i) (A4 i Hlt)) as (t & E1 & E2). rewrite T1, nth_error_map, Hi in E1. cbn in E1. injection E1 as ->. exact E2.
  - apply Forall_nth. intros i x Hi. rewrite nth_skipn in Hi. assert (Hlt : k + 1 + i < length ts') by (apply nth_error_Some; congruence).
    destruct (proj2 (HT (k + 1 + i)) (A5 (k + 1 + i) ltac:(rewrite (ss_len _ _ _ _ _ _ _ _ _ A2) in Hlt; lia))) as (t & E1 & E2). rewrite T1, nth_error_map, Hi in E1. cbn in E1. injection E1 as ->. exact E2.
Qed.
Lemma cent_stands A k st ts : centered A k st ts -> stands A st.
Proof. intros (H1 & H2 & H3 & _). exists ts. auto. Qed.
Lemma touch_cent A k st ts i : centered A k st ts -> i < length A -> exists st', touch R i st = Ok st' /\ centered A k st' ts.
Proof.
  intros ((T1 & T2) & H2 & H3 & H4) Hi. pose proof (ss_len _ _ _ _ _ _ _ _ _ H3) as LL. assert (E : touch R i st = Ok (mkFmps (tens st) (upd (types st) i NONE) (-1)%Z)).
  { apply touch_ok; [rewrite T1, map_length; lia|lia]. }
  eexists. split; [exact E|]. split; [split; [exact T1|cbn [types]; rewrite upd_length; auto]|]. split; [|split; auto]. exact (proj1 (touch_true _ _ _ _ _ _ i st _ H2 E)).
Qed.
Lemma deref_cent A k st ts i t : centered A k st ts -> nth_error ts i = Some t -> deref R st i = Ok t.
Proof. intros ((T1 & _) & _) H. apply deref_ok. rewrite T1, nth_error_map, H. auto. Qed.
Lemma same_nth A B i t : same A B -> nth_error A i = Some t -> exists t', nth_error B i = Some t' /\ d1 t' = d1 t.
Proof.
  intros H Ht. destruct (nth_error B i) as [t'|] eqn:E.
  - exists t'. split; auto. pose proof (nth_error_map (@d1 R) i A) as E1. rewrite <- (ss_phys _ _ _ _ _ _ _ _ _ H), nth_error_map, E, Ht in E1. cbn in E1. congruence.
  - apply nth_error_None in E. rewrite (ss_len _ _ _ _ _ _ _ _ _ H) in E. assert (i < length A) by (apply nth_error_Some; congruence). lia.
Qed.
Lemma same_ids A B ids : same A B -> identities A ids -> identities B ids.
Proof.
  intros H HI. apply ss_phys in H. unfold MeasureSpec.identities in *. revert B H. induction HI as [|t o A ids H1 _ IH]; intros [|t' B] H; cbn in H; try discriminate; constructor.
  - injection H as -> _. auto. - apply IH. congruence.
Qed.

Variables (A : list ten) (ids : list lop).
Hypothesis HI : identities A ids.
Lemma ids_len : length ids = length A.
Proof. symmetry. eapply Forall2_len; eauto. Qed.

Lemma one_at k st ts t o : centered A k st ts -> nth_error ts k = Some t -> odim o = d1 t -> one_avg R r0 radd rmul conj t o = Ok (expect A (upd ids k o)).
Proof.
  intros (H1 & H2 & H3 & H4 & H5) Ht HO. rewrite <- (same_expect R r0 r1 radd rmul conj A ts _ H3).
  apply (one_ok R r0 r1 radd rmul rsub ropp Rth conj conj_0 conj_1 conj_add conj_mul ts ids); auto.
  - exact (ss_link _ _ _ _ _ _ _ _ _ H3). - eapply same_ids; eauto.
Qed.
Definition ones (o : lop) (n : nat) : list (list nat * R) := map (fun i => ([i], expect A (upd ids i o))) (seq 0 n).
Lemma ones_S o n : ones o (S n) = ones o n ++ [([n], expect A (upd ids n o))].
Proof. unfold ones. rewrite seq_S, map_app. auto. Qed.

Theorem one_site_mem_ok dbg o st : stands A st -> (forall t, In t A -> odim o = d1 t) ->
  exists st', one_site_mem R r0 radd rmul conj qr svd1 dbg o st = Ok (st', ones o (length A)) /\ stands A st'.
Proof.
  intros HS HO. unfold one_site_mem. assert (LT : length (tens st) = length A).
  { destruct HS as (ts & (T1 & _) & _ & H3). rewrite T1, map_length. apply (ss_len _ _ _ _ _ _ _ _ _ H3). }
  rewrite LT.
  match goal with |- context [for_loop 0 ?n ?b ?s] => destruct (for_loop_inv _ (fun i (x : fmps * list (list nat * R)) => stands A (fst x) /\ snd x = ones o i) b n 0 s) as ((st' & out) & E & H1 & H2) end.
  - split; auto.
  - intros i [st1 out] Hi (H1 & H2). cbn [fst snd] in *. subst out. destruct (cent A dbg i st1 H1 ltac:(lia)) as (st2 & ts & E2 & C2). rewrite E2. cbn [bind].
    destruct (touch_cent A i st2 ts i C2 ltac:(lia)) as (st3 & E3 & C3). rewrite E3. cbn [bind].
    destruct (nth_error A i) as [t|] eqn:Et; [|apply nth_error_None in Et; lia].
    destruct (same_nth A ts i t (proj1 (proj2 (proj2 C3))) Et) as (t' & Et' & Ed). rewrite (deref_cent A i st3 ts i t' C3 Et'). cbn [bind].
    rewrite (one_at i st3 ts t' o C3 Et') by (rewrite Ed; apply HO; eapply nth_error_In; eauto). cbn [bind].
    eexists. split; [reflexivity|]. cbn [fst snd]. split; [eapply cent_stands; eauto|]. rewrite ones_S. auto.
  - cbn [fst snd] in *. exists st'. split; [rewrite H2 in E; exact E|auto].
Qed.

(** several operators *)
Lemma avg_all_ok k st ts t ops (P : lop -> list (list nat * R)) : centered A k st ts -> nth_error ts k = Some t -> (forall o, In o ops -> odim o = d1 t) -> k < length A ->
  exists st', avg_all R r0 radd rmul conj ops k (st, map P ops) = Ok (st', map (fun o => P o ++ [([k], expect A (upd ids k o))]) ops) /\ centered A k st' ts.
Proof.
  intros HC Ht HO HK. unfold avg_all.
  match goal with |- context [for_loop 0 ?n ?b ?s] => destruct (for_loop_inv _ (fun i (x : fmps * list (list (list nat * R))) => centered A k (fst x) ts /\
    length (snd x) = length ops /\ forall j o, nth_error ops j = Some o -> nth_error (snd x) j = Some (if j <? i then P o ++ [([k], expect A (upd ids k o))] else P o)) b n 0 s) as ((st' & out) & E & H1 & H2 & H3) end.
  - split; auto. cbn [snd]. split; [apply map_length|]. intros j o Hj. rewrite nth_error_map, Hj. auto.
  - intros i [st1 out] Hi (H1 & H2 & H3). cbn [fst snd] in *. destruct (touch_cent A k st1 ts k H1 HK) as (st3 & E3 & C3). rewrite E3. cbn [bind].
    rewrite (deref_cent A k st3 ts k t C3 Ht). cbn [bind]. destruct (nth_error ops i) as [o|] eqn:Eo; [|apply nth_error_None in Eo; lia].
    unfold vget at 1. rewrite Eo. cbn [bind]. rewrite (one_at k st3 ts t o C3 Ht) by (apply HO; eapply nth_error_In; eauto). cbn [bind].
    unfold vget. rewrite (H3 _ _ Eo). cbn [bind]. rewrite vset_ok by lia. cbn [bind]. eexists. split; [reflexivity|]. cbn [fst snd]. split; auto. split; [rewrite upd_length; auto|].
    intros j o' Hj. destruct (Nat.eq_dec j i) as [->|Ne].
    + rewrite nth_error_upd_same by lia. rewrite Eo in Hj. injection Hj as <-. destruct (Nat.ltb_spec i i); [lia|]. destruct (Nat.ltb_spec i (S i)); [auto|lia].
    + rewrite nth_error_upd_other by auto. rewrite (H3 _ _ Hj). destruct (Nat.ltb_spec j i), (Nat.ltb_spec j (S i)); auto; lia.
  - cbn [fst snd Nat.add] in *. exists st'. split; auto. etransitivity; [exact E|]. do 2 f_equal. apply nth_error_ext. intros j. rewrite nth_error_map.
    destruct (nth_error ops j) as [o|] eqn:Eo.
    + rewrite (H3 _ _ Eo). assert (j < length ops) by (apply nth_error_Some; congruence). destruct (Nat.ltb_spec j (length ops)); [auto|lia].
    + cbn. apply nth_error_None. apply nth_error_None in Eo. lia.
Qed.
Theorem one_sites_mem_ok dbg ops st : stands A st -> (forall o t, In o ops -> In t A -> odim o = d1 t) ->
  exists st', one_sites_mem R r0 radd rmul conj qr svd1 dbg ops st = Ok (st', map (fun o => ones o (length A)) ops) /\ stands A st'.
Proof.
  intros HS HO. unfold one_sites_mem. assert (LT : length (tens st) = length A).
  { destruct HS as (ts & (T1 & _) & _ & H3). rewrite T1, map_length. apply (ss_len _ _ _ _ _ _ _ _ _ H3). }
  rewrite LT.
  match goal with |- context [for_loop 0 ?n ?b ?s] => destruct (for_loop_inv _ (fun i (x : fmps * list (list (list nat * R))) => stands A (fst x) /\ snd x = map (fun o => ones o i) ops) b n 0 s) as ((st' & out) & E & H1 & H2) end.
  - split; auto. cbn [snd]. unfold ones. cbn. clear. induction ops; cbn; f_equal; auto.
  - intros i [st1 out] Hi (H1 & H2). cbn [fst snd] in *. subst out. destruct (cent A dbg i st1 H1 ltac:(lia)) as (st2 & ts & E2 & C2). rewrite E2. cbn [bind].
    destruct (nth_error A i) as [t|] eqn:Et; [|apply nth_error_None in Et; lia].
    destruct (same_nth A ts i t (proj1 (proj2 (proj2 C2))) Et) as (t' & Et' & Ed).
    destruct (avg_all_ok i st2 ts t' ops (fun o => ones o i) C2 Et') as (st3 & E3 & C3).
    { intros o Ho. rewrite Ed. apply HO; auto. eapply nth_error_In; eauto. } { lia. }
    eexists. split; [exact E3|]. cbn [fst snd]. split; [eapply cent_stands; eauto|]. apply map_ext. intros o. rewrite ones_S. auto.
  - cbn [fst snd] in *. exists st'. split; [rewrite H2 in E; exact E|auto].
Qed.

(** strings of operators *)
Notation ops_avg := (ops_avg R r0 radd rmul conj op_eqb ids).
Lemma ops_avg_ok dbg st ts head ops : centered A head st ts -> 2 <= length ops -> head + length ops <= length A ->
  (forall k o t, nth_error ops k = Some o -> nth_error A (head + k) = Some t -> odim o = d1 t) ->
  ops_avg dbg st ops head (head + length ops - 1) = Ok (expect A (spread R ids head ops)).
Proof.
  intros HC HL HN HO. pose proof HC as (H1 & H2 & H3 & H4 & H5). pose proof (ss_len _ _ _ _ _ _ _ _ _ H3) as LL. pose proof ids_len as LI.
  assert (HO' : forall k o t, nth_error ops k = Some o -> nth_error ts (head + k) = Some t -> d1 t = odim o).
  { intros k o t Ho Ht. destruct (nth_error A (head + k)) as [t0|] eqn:E0.
    - destruct (same_nth A ts _ _ H3 E0) as (t' & E1 & E2). rewrite (HO _ _ _ Ho E0). congruence.
    - apply nth_error_None in E0. assert (head + k < length ts) by (apply nth_error_Some; congruence). lia. }
  assert (FT : fit 1 ts 1) by exact (ss_link _ _ _ _ _ _ _ _ _ H3). assert (IT : identities ts ids) by (eapply same_ids; eauto).
  assert (GT : forall i, i < length A -> exists t, nth_error ts i = Some t).
  { intros i Hi. destruct (nth_error ts i) eqn:E; eauto. apply nth_error_None in E. lia. }
  assert (GO : forall i, i < length ops -> exists o, nth_error ops i = Some o).
  { intros i Hi. destruct (nth_error ops i) eqn:E; eauto. apply nth_error_None in E. lia. }
  rewrite <- (same_expect R r0 r1 radd rmul conj A ts _ H3). unfold Measure.ops_avg.
  destruct (GT head ltac:(lia)) as (th & Eh). destruct (GO 0 ltac:(lia)) as (o0 & Eo0). rewrite (deref_cent _ _ _ _ _ _ HC Eh). cbn [bind]. unfold vget at 1. rewrite Eo0. cbn [bind].
  destruct (eat_head R r0 r1 radd rmul rsub ropp Rth conj ts head th o0 Eh) as (x0 & X1 & X2). { apply (HO' 0); auto. rewrite Nat.add_0_r. auto. }
  rewrite X1. cbn [bind]. replace (length ops =? head + length ops - 1 - head + 1) with true by (symmetry; apply Nat.eqb_eq; lia). replace (assert_ dbg true) with (Ok tt) by (destruct dbg; auto). cbn [bind].
  match goal with |- context [for_loop (head + 1) ?n ?b ?s] => destruct (for_loop_inv _ (fun i x => head + 1 <= i /\ eaten R r0 r1 radd rmul conj ts head (i - 1) (firstn (i - head) ops) x) b n (head + 1) s) as (x & E & HX1 & HX2) end.
  - split; [lia|]. replace (head + 1 - 1) with head by lia. replace (head + 1 - head) with 1 by lia. rewrite (firstn_snoc _ _ _ _ Eo0). auto.
  - intros i x Hi (I1 & I2). destruct (GO (i - head) ltac:(lia)) as (o & Eo). unfold vget at 1. rewrite Eo. cbn [bind].
    destruct (GT i ltac:(lia)) as (t & Et). destruct (nth_error ids i) as [ido|] eqn:Ei; [|apply nth_error_None in Ei; lia]. unfold vget. rewrite Ei. cbn [bind].
    rewrite (deref_cent _ _ _ _ _ _ HC Et). cbn [bind].
    destruct (eat_mid R r0 r1 radd rmul rsub ropp Rth conj op_eqb op_eqb_sound ts ids FT IT head (i - 1) _ x t o ido I2) as (x' & E1 & E2).
    + replace (i - 1 + 1) with i by lia. auto. + replace (i - 1 + 1) with i by lia. auto. + apply (HO' (i - head)); auto. replace (head + (i - head)) with i by lia. auto.
    + exists x'. split; auto. split; [lia|]. replace (S i - 1) with (i - 1 + 1) by lia. replace (S i - head) with (S (i - head)) by lia. rewrite (firstn_snoc _ _ _ _ Eo). auto.
  - rewrite E. cbn [bind]. destruct (GT (head + length ops - 1) ltac:(lia)) as (t & Et). rewrite (deref_cent _ _ _ _ _ _ HC Et). cbn [bind].
    destruct (GO (length ops - 1) ltac:(lia)) as (o & Eo). unfold vget. rewrite Eo. cbn [bind].
    rewrite (eat_tail R r0 r1 radd rmul rsub ropp Rth conj conj_0 conj_1 conj_add conj_mul ts ids FT IT head _ _ x t o HX2); auto.
    + f_equal. f_equal. unfold spread. f_equal. rewrite <- (firstn_snoc _ ops (head + 1 + (head + length ops - 1 - (head + 1)) - head)) by (rewrite <- Eo; f_equal; lia).
      rewrite firstn_all2 by lia. f_equal. f_equal. lia.
    + rewrite <- Et. f_equal. lia.
    + apply (HO' (length ops - 1)); auto. rewrite <- Et. f_equal. lia.
Qed.

Notation event := (event R A ids).
Lemma suited_nth os j o t : suited R A os -> nth_error os j = Some o -> nth_error A j = Some t -> odim o = d1 t.
Proof. intros H Ho Ht. exact (Forall2_nth _ _ _ _ _ _ _ _ H Ht Ho). Qed.
Lemma gaps_len : forall sites insts, gaps_filled R sites insts -> length sites = length insts + 1 \/ length sites = length insts.
Proof.
  induction sites as [|s [|s' sites] IH]; intros [|l [|l' insts]] H; try contradiction H; cbn; auto; destruct H as [_ H]; [contradiction||(specialize (IH [] H); cbn in IH; lia)|specialize (IH (l' :: insts) H); cbn in IH; lia].
Qed.
Lemma gaps_order : forall sites insts, gaps_filled R sites insts -> order_kept sites = true.
Proof.
  induction sites as [|s [|s' sites] IH]; intros insts H; auto. destruct insts as [|l insts]; [contradiction H|]. destruct H as [H1 H2]. cbn [order_kept]. destruct (Nat.ltb_spec s' s); [lia|]. eauto.
Qed.
Lemma multi_avg_ok dbg st ts phys insts sites os s0 : event phys insts sites os -> nth_error sites 0 = Some s0 -> centered A s0 st ts ->
  multi_avg R r0 radd rmul conj op_eqb ids dbg st phys insts sites = Ok (sites, expect A os).
Proof.
  intros (E1 & E2 & E3 & E4 & E5 & E6) Hs HC. unfold multi_avg. rewrite expand_ok.
  2:{ intros ->. cbn in E2. lia. } 2:{ rewrite E2. apply gaps_len. auto. }
  cbn [bind]. unfold vget. rewrite Hs. cbn [bind]. destruct sites as [|s sites]; [discriminate|]. cbn in Hs. injection Hs as ->. pose proof ids_len as LI.
  destruct (weave_spec R sites phys insts s0 E3 E2) as (W1 & _).
  assert (EO : os = spread R ids s0 (weave R phys insts)).
  { eapply placed_unique; eauto. apply placed_spread; auto. lia. }
  assert (L2 : 2 <= length (weave R phys insts)).
  { destruct sites as [|s1 sites]; [cbn in E1; lia|]. destruct insts as [|l insts]; [contradiction E3|]. destruct E3 as [G1 G2].
    destruct phys as [|p [|p' phys]]; try discriminate. cbn [weave length]. rewrite app_length. destruct insts; [destruct phys; [cbn; lia|]|cbn; lia].
    destruct sites; [discriminate|contradiction G2]. }
  rewrite (ops_avg_ok dbg st ts s0 (weave R phys insts) HC L2).
  3:{ intros k o t Ho Ht. apply (suited_nth os (s0 + k)); auto. rewrite EO, spread_nth by lia.
    assert (k < length (weave R phys insts)) by (apply nth_error_Some; congruence). destruct (Nat.ltb_spec (s0 + k) s0); [lia|].
    destruct (Nat.ltb_spec (s0 + k) (s0 + length (weave R phys insts))); [|lia]. rewrite <- Ho. f_equal. lia. }
  2:{ lia. }
  cbn [bind]. rewrite EO. auto.
Qed.
Lemma fill_ok dbg np inst sites : np = length inst + 1 -> length sites = length inst + 1 -> ascending sites ->
  fill_ops R dbg np inst sites = Ok (gap_strings R sites inst).
Proof.
  intros HN HL HA. unfold fill_ops. replace (np =? length inst + 1) with true by (symmetry; apply Nat.eqb_eq; auto). replace (assert_ dbg true) with (Ok tt) by (destruct dbg; auto). cbn [bind].
  assert (GL : forall sites inst, length sites = length inst + 1 -> length (gap_strings R sites inst) = length inst).
  { induction sites0 as [|s [|s' ss] IH]; intros [|o is] H; try (cbn in H; lia); auto. change (S (length (gap_strings R (s' :: ss) is)) = S (length is)). f_equal. apply IH. cbn in *. lia. }
  assert (GN : forall sites inst i s s' o, ascending sites -> nth_error sites i = Some s -> nth_error sites (i + 1) = Some s' -> nth_error inst i = Some o ->
    s < s' /\ nth_error (gap_strings R sites inst) i = Some (repeat o (s' - s - 1))).
  { induction sites0 as [|a [|b ss] IH]; intros [|o' is] [|i] s s' o HA' H1 H2 H3; try discriminate; try (cbn in H2; destruct (i + 1); discriminate).
    - cbn in H1, H2, H3. injection H1 as <-. injection H2 as <-. injection H3 as <-. destruct HA' as [HA1 _]. auto.
    - destruct HA' as [_ HA2]. apply (IH is i s s' o HA2 H1 H2 H3). }
  match goal with |- context [for_loop 0 ?n ?b ?s] => destruct (for_loop_inv _ (fun i l => l = firstn i (gap_strings R sites inst)) b n 0 s) as (l & E & H) end.
  - auto.
  - intros i l Hi ->. destruct (nth_error sites (i + 1)) as [s'|] eqn:E1; [|apply nth_error_None in E1; lia]. destruct (nth_error sites i) as [s|] eqn:E2; [|apply nth_error_None in E2; lia].
    destruct (nth_error inst i) as [o|] eqn:E3; [|apply nth_error_None in E3; lia]. unfold vget. rewrite E1, E2, E3. cbn [bind]. destruct (GN sites inst i s s' o HA E2 E1 E3) as [G1 G2].
    destruct (Nat.leb_spec s' s); [lia|]. eexists. split; [reflexivity|]. rewrite (firstn_snoc _ _ _ _ G2). auto.
  - rewrite E, H. cbn [Nat.add]. rewrite firstn_all2; auto. rewrite GL; auto.
Qed.
Lemma gap_filled : forall sites inst, length sites = length inst + 1 -> ascending sites -> gaps_filled R sites (gap_strings R sites inst).
Proof.
  induction sites as [|s [|s' ss] IH]; intros [|o is] H HA; try (cbn in H; lia); [exact I|]. destruct HA as [H1 H2]. split; [rewrite repeat_length; lia|]. apply IH; [cbn in *; lia|exact H2].
Qed.
Lemma multi_avg1_ok dbg st ts phys inst sites os s0 : length sites = length inst + 1 -> ascending sites -> event phys (gap_strings R sites inst) sites os ->
  nth_error sites 0 = Some s0 -> centered A s0 st ts ->
  multi_avg1 R r0 radd rmul conj op_eqb ids dbg st phys inst sites = Ok (sites, expect A os).
Proof.
  intros H1 H2 HE Hs HC. unfold multi_avg1. rewrite (fill_ok dbg _ inst sites) by (auto; destruct HE as (_ & -> & _); auto). cbn [bind]. eapply multi_avg_ok; eauto.
Qed.

(** whole lists of events *)
Lemma multi_loop_ok (I : Type) (avg : fmps -> list lop -> I -> list nat -> res (list nat * R)) (good : list lop -> I -> list nat -> list lop -> Prop) dbg phys_set inst_set sites_set oss st :
  stands A st -> length oss = length sites_set ->
  (forall i sites os, nth_error sites_set i = Some sites -> nth_error oss i = Some os -> exists phys inst, nth_error phys_set i = Some phys /\ nth_error inst_set i = Some inst /\
    good phys inst sites os /\ 2 <= length sites /\ order_kept sites = true /\ exists s0, nth_error sites 0 = Some s0 /\ s0 < length A) ->
  (forall phys inst sites os s0 st ts, good phys inst sites os -> nth_error sites 0 = Some s0 -> centered A s0 st ts -> avg st phys inst sites = Ok (sites, expect A os)) ->
  exists st', multi_loop R r0 radd rmul qr svd1 avg dbg phys_set inst_set sites_set st = Ok (st', combine sites_set (map (expect A) oss)) /\ stands A st'.
Proof.
  intros HS HL HG HA. unfold multi_loop.
  match goal with |- context [for_loop 0 ?n ?b ?s] => destruct (for_loop_inv _ (fun i (x : fmps * list (list nat * R)) => stands A (fst x) /\ snd x = firstn i (combine sites_set (map (expect A) oss))) b n 0 s) as ((st' & out) & E & H1 & H2) end.
  - split; auto.
  - intros i [st1 out] Hi (H1 & H2). cbn [fst snd] in *. subst out.
    destruct (nth_error sites_set i) as [sites|] eqn:Es; [|apply nth_error_None in Es; lia]. destruct (nth_error oss i) as [os|] eqn:Eo; [|apply nth_error_None in Eo; lia].
    destruct (HG i sites os Es Eo) as (phys & inst & G1 & G2 & G3 & G4 & G5 & s0 & G6 & G7). unfold vget. rewrite G1, G2, Es. cbn [bind].
    destruct (Nat.ltb_spec 1 (length sites)); [|lia]. rewrite G5. replace (assert_ dbg true) with (Ok tt) by (destruct dbg; auto). cbn [bind]. rewrite G6. cbn [bind].
    destruct (cent A dbg s0 st1 H1 G7) as (st2 & ts & E2 & C2). rewrite E2. cbn [bind]. rewrite (HA _ _ _ _ _ _ _ G3 G6 C2). cbn [bind]. eexists. split; [reflexivity|]. cbn [fst snd].
    split; [eapply cent_stands; eauto|]. erewrite firstn_snoc; [reflexivity|]. clear -Es Eo. revert oss i Es Eo. induction sites_set as [|a l IH]; intros [|b l'] [|i] Es Eo; cbn in *; try discriminate; [congruence|auto].
  - cbn [fst snd Nat.add] in *. exists st'. split; auto. etransitivity; [exact E|]. rewrite H2, firstn_all2; auto. rewrite combine_length, map_length. lia.
Qed.
Theorem multi_site_mem_ok dbg phys_set inst_set sites_set oss st : stands A st -> length oss = length sites_set ->
  (forall i sites os, nth_error sites_set i = Some sites -> nth_error oss i = Some os -> exists phys insts, nth_error phys_set i = Some phys /\ nth_error inst_set i = Some insts /\ event phys insts sites os) ->
  exists st', multi_site_mem R r0 radd rmul conj qr svd1 op_eqb ids dbg phys_set inst_set sites_set st = Ok (st', combine sites_set (map (expect A) oss)) /\ stands A st'.
Proof.
  intros HS HL HG. unfold multi_site_mem. apply (multi_loop_ok _ _ event); auto.
  - intros i sites os Es Eo. destruct (HG i sites os Es Eo) as (phys & insts & G1 & G2 & G3). exists phys, insts. pose proof G3 as (E1 & E2 & E3 & E4 & E5 & E6). split; auto. split; auto. split; auto. split; auto. split; [eapply gaps_order; eauto|].
    destruct sites as [|s0 sites]; [cbn in E1; lia|]. exists s0. split; auto. destruct (weave_spec R sites phys insts s0 E3 E2) as (W1 & W2 & _). destruct phys as [|p phys]; [discriminate|].
    specialize (W2 0 s0 p eq_refl eq_refl). assert (s0 - s0 < length (weave R (p :: phys) insts)) by (apply nth_error_Some; congruence). lia.
  - intros. eapply multi_avg_ok; eauto.
Qed.
Theorem multi_site_mem1_ok dbg phys_set inst_set sites_set oss st : stands A st -> length oss = length sites_set ->
  (forall i sites os, nth_error sites_set i = Some sites -> nth_error oss i = Some os -> exists phys inst, nth_error phys_set i = Some phys /\ nth_error inst_set i = Some inst /\
    length sites = length inst + 1 /\ ascending sites /\ event phys (gap_strings R sites inst) sites os) ->
  exists st', multi_site_mem1 R r0 radd rmul conj qr svd1 op_eqb ids dbg phys_set inst_set sites_set st = Ok (st', combine sites_set (map (expect A) oss)) /\ stands A st'.
Proof.
  intros HS HL HG. unfold multi_site_mem1. apply (multi_loop_ok _ _ (fun phys inst sites os => length sites = length inst + 1 /\ ascending sites /\ event phys (gap_strings R sites inst) sites os)); auto.
  - intros i sites os Es Eo. destruct (HG i sites os Es Eo) as (phys & inst & G1 & G2 & G3). exists phys, inst. pose proof G3 as (_ & _ & E1 & E2 & E3 & E4 & E5 & E6). split; auto. split; auto. split; auto. split; auto. split; [eapply gaps_order; eauto|].
    destruct sites as [|s0 sites]; [cbn in E1; lia|]. exists s0. split; auto. destruct (weave_spec R sites phys _ s0 E3 E2) as (W1 & W2 & _). destruct phys as [|p phys]; [discriminate|].
    specialize (W2 0 s0 p eq_refl eq_refl). assert (s0 - s0 < length (weave R (p :: phys) (gap_strings R (s0 :: sites) inst))) by (apply nth_error_Some; congruence). lia.
  - intros phys inst sites os s0 st1 ts (G1 & G2 & G3) Hs HC. eapply multi_avg1_ok; eauto.
Qed.
Lemma nth_repeat_lt T (x : T) n i : i < n -> nth_error (repeat x n) i = Some x.
Proof. revert i. induction n; intros [|i] H; cbn; auto; try lia. apply IHn. lia. Qed.
Theorem two_site_mem_ok dbg phys insts sites_set oss st : stands A st -> length phys = 2 -> length insts = length sites_set -> length oss = length sites_set ->
  (forall i sites ins os, nth_error sites_set i = Some sites -> nth_error insts i = Some ins -> nth_error oss i = Some os -> event phys [ins] sites os) ->
  exists st', two_site_mem R r0 radd rmul conj qr svd1 op_eqb ids dbg phys insts sites_set st = Ok (st', combine sites_set (map (expect A) oss)) /\ stands A st'.
Proof.
  intros HS HP HI' HL HG. unfold two_site_mem. rewrite HP, HI', !Nat.eqb_refl. replace (assert_ dbg true) with (Ok tt) by (destruct dbg; auto). cbn [bind].
  assert (EV : forall i sites ins, nth_error sites_set i = Some sites -> nth_error insts i = Some ins -> exists os, nth_error oss i = Some os /\ event phys [ins] sites os).
  { intros i sites ins Hs Hi. destruct (nth_error oss i) as [os|] eqn:Eo; eauto. apply nth_error_None in Eo. assert (i < length sites_set) by (apply nth_error_Some; congruence). lia. }
  match goal with |- context [for_loop 0 ?n ?b ?s] => destruct (for_loop_inv _ (fun i l => l = firstn i (map (fun ins => [ins]) insts)) b n 0 s) as (l & E & H) end.
  - auto.
  - intros i l Hi ->. destruct (nth_error sites_set i) as [sites|] eqn:Es; [|apply nth_error_None in Es; lia]. destruct (nth_error insts i) as [ins|] eqn:Ei; [|apply nth_error_None in Ei; lia].
    unfold vget at 1 2. rewrite Es, Ei. cbn [bind]. destruct (EV i sites ins Es Ei) as (os & _ & E1 & E2 & E3 & _). rewrite HP in E2. rewrite <- E2. change (2 =? 2) with true.
    replace (assert_ dbg true) with (Ok tt) by (destruct dbg; auto). cbn [bind]. destruct sites as [|a [|b [|]]]; try discriminate. destruct E3 as [E3 _].
    assert (ED : (if dbg then let! s' := vget [a; b] 1 in let! s := vget [a; b] 0 in assert_ dbg ((s <? s') && (s' - s - 1 =? length ins)) else Ok tt) = Ok tt).
    { destruct dbg; auto. cbn [vget nth_error bind]. rewrite (proj2 (Nat.ltb_lt a b)) by lia. rewrite (proj2 (Nat.eqb_eq (b - a - 1) (length ins))) by lia. reflexivity. }
    rewrite ED. cbn [bind]. eexists. split; [reflexivity|]. erewrite firstn_snoc; [reflexivity|]. rewrite nth_error_map, Ei. auto.
  - rewrite E. cbn [bind]. rewrite firstn_all2 in H by (rewrite map_length; lia). subst l. apply multi_site_mem_ok; auto.
    intros i sites os Es Eo. assert (Hi : i < length sites_set) by (apply nth_error_Some; congruence). destruct (nth_error insts i) as [ins|] eqn:Ei; [|apply nth_error_None in Ei; lia].
    exists phys, [ins]. split; [apply nth_repeat_lt; auto|]. split; [rewrite nth_error_map, Ei; auto|]. eauto.
Qed.
Theorem two_site_mem1_ok dbg phys inst sites_set oss st : stands A st -> length phys = 2 -> length oss = length sites_set ->
  (forall i sites os, nth_error sites_set i = Some sites -> nth_error oss i = Some os -> length sites = 2 /\ ascending sites /\ event phys (gap_strings R sites [inst]) sites os) ->
  exists st', two_site_mem1 R r0 radd rmul conj qr svd1 op_eqb ids dbg phys inst sites_set st = Ok (st', combine sites_set (map (expect A) oss)) /\ stands A st'.
Proof.
  intros HS HP HL HG. unfold two_site_mem1. rewrite HP. change (2 =? 2) with true. replace (assert_ dbg true) with (Ok tt) by (destruct dbg; auto). cbn [bind]. apply multi_site_mem1_ok; auto.
  intros i sites os Es Eo. assert (Hi : i < length sites_set) by (apply nth_error_Some; congruence). exists phys, [inst]. split; [apply nth_repeat_lt; auto|]. split; [apply nth_repeat_lt; auto|]. eauto.
Qed.
End Mem.
