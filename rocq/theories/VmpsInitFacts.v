(** The preparation refines its specification on the chain. *)
From Coq Require Import List Arith Lia Bool.
From Verif Require Import Base Disk SweepSpec DiskFacts TwoSite TwoSiteFacts VmpsInit NoiseSpec.
Import ListNotations.

Section Facts.
Variables T E En : Type.
Variables (dT : T) (dE : E) (triv : side -> E) (grow : side -> nat -> E -> T -> E) (solve : bool -> nat -> E -> T -> T -> E -> T * T * En).
Variables (canoL canoR : T -> T -> T * T).
Variables (bigL smallL bigR smallR : T -> bool) (combL combR : T -> T -> T * T).
Variable dbg : bool.
Notation world := (world T E En).
Notation exec := (exec T E En dT dE triv grow solve canoL canoR dbg).
Notation nm := (nm T E En). Notation mm := (mm T E En). Notation ne := (ne T E En). Notation dm := (dm T E En).
Notation le := (le T E En). Notation re := (re T E En). Notation dl := (dl T E En). Notation dr := (dr T E En).
Notation eng := (eng T E En). Notation acc := (acc T E En). Notation tmp := (tmp T E En).
Notation left_loop := (left_loop T E En dT dE triv grow solve canoL canoR bigL smallL combL dbg).
Notation right_loop := (right_loop T E En dT dE triv grow solve canoL canoR bigR smallR combR dbg).
Notation boundary := (boundary T E En dT dE triv grow solve canoL canoR bigL smallL bigR smallR combL combR dbg).
Notation vmps_init := (vmps_init T E En dT dE triv grow solve canoL canoR bigL smallL bigR smallR combL combR dbg).
Notation prep_left := (prep_left T canoL bigL smallL combL).
Notation prep_right := (prep_right T canoR bigR smallR combR).
Variable N : nat.
Notation left_env := (left_env T E triv grow). Notation right_env := (right_env T E triv grow N).
Notation prep := (prep T canoL canoR bigL smallL bigR smallR combL combR N).

Definition keepE (w w' : world) : Prop := nm w' = nm w /\ dl w' = dl w /\ dr w' = dr w /\ tmp w' = tmp w.
Lemma keepE_refl : forall w, keepE w w.
Proof. intros. repeat split. Qed.
Lemma keepE_trans : forall a b c, keepE a b -> keepE b c -> keepE a c.
Proof. intros a b c [A1 [A2 [A3 A4]]] [B1 [B2 [B3 B4]]]. repeat split; congruence. Qed.

Lemma dumps_ok : forall ts l w q, NoDup l -> (forall i, In i l -> i < nm w /\ mm w i = Some (ts i)) ->
  exists w', exec (dumps l ++ q) w = exec q w' /\ keepE w w' /\
    (forall i, In i l -> mm w' i = None /\ dm w' i = Some (ts i)) /\ (forall i, ~ In i l -> mm w' i = mm w i /\ dm w' i = dm w i).
Proof.
  intros ts. induction l as [|x l IH]; intros w q HN HI.
  - exists w. split; auto. split; [apply keepE_refl|]. split; [intros i []|auto].
  - cbn [dumps map app]. destruct (HI x (or_introl eq_refl)) as [X1 X2]. rewrite (ex_DumpM _ _ _ _ _ _ _ _ _ _ _ _ _ _ _ (ts x)); auto.
    match goal with |- context [exec _ ?v] => set (w1 := v) end. inversion HN as [|? ? N1 N2]; subst.
    destruct (IH w1 q N2) as [w2 [A1 [A2 [A3 A4]]]].
    { intros i Hi. unfold w1. fs. destruct (HI i (or_intror Hi)) as [H1 H2]. split; auto. rewrite fset_other; auto. intros ->. contradiction. }
    exists w2. split; [exact A1|]. split; [exact A2|]. split.
    + intros i [<-|Hi]; [|apply A3; auto]. destruct (A4 x N1) as [B1 B2]. rewrite B1, B2. unfold w1. fs. auto.
    + intros i Hi. destruct (A4 i) as [B1 B2]; [intros Hl; apply Hi; right; auto|]. rewrite B1, B2. unfold w1. cbn. rewrite !fset_other by (intros ->; apply Hi; left; auto). auto.
Qed.

(** *** left part *)
Lemma set2_0 : forall ts i p, set2 T ts i p i = fst p.
Proof. intros. unfold set2. fs. auto. Qed.
Lemma set2_1 : forall ts i p, set2 T ts i p (i + 1) = snd p.
Proof. intros. unfold set2. fs. auto. Qed.
Lemma set2_o : forall ts i p j, j <> i -> j <> i + 1 -> set2 T ts i p j = ts j.
Proof. intros. unfold set2. fs. auto. Qed.
Lemma exec_nil_ok : forall p w w', exec p w = exec [] w' -> exec p w = Ok w'.
Proof. intros p w w' H. exact H. Qed.
Lemma left_loop_ok : forall n i lb ts w, 1 <= n -> i + n < N -> nm w = N ->
  (forall j, j < N -> mm w j = if j <=? i then Some (ts j) else None) -> (forall j, i < j < N -> dm w j = Some (ts j)) ->
  exists w', left_loop n i lb w = Ok (fst (prep_left n i lb ts), w') /\ keepE w w' /\
    let lb' := fst (prep_left n i lb ts) in let ts' := snd (prep_left n i lb ts) in
    (forall j, j < N -> mm w' j = if j <=? lb' + 1 then Some (ts' j) else None) /\ (forall j, lb' + 1 < j < N -> dm w' j = Some (ts' j)) /\
    i <= lb' < i + n.
Proof.
  induction n as [|n IH]; intros i lb ts w H1 HN W1 W2 W3; [lia|]. cbn [VmpsInit.left_loop NoiseSpec.prep_left].
  set (ts1 := set2 T ts i (canoL (ts i) (ts (i + 1)))).
  assert (X : exists w1, exec [LoadM (i + 1); CanoL i] w = Ok w1 /\ keepE w w1 /\ (forall j, j < N -> mm w1 j = if j <=? i + 1 then Some (ts1 j) else None) /\ (forall j, i + 1 < j < N -> dm w1 j = Some (ts1 j))).
  { rewrite (ex_LoadM _ _ _ _ _ _ _ _ _ _ _ _ _ _ (ts (i + 1))); [|lia|apply W3; lia].
    rewrite (ex_CanoL _ _ _ _ _ _ _ _ _ _ _ _ _ _ (ts i) (ts (i + 1))); [|cbn; lia|fs; rewrite W2 by lia; rewrite Nat.leb_refl; auto|fs; auto].
    eexists. split; [reflexivity|]. split; [repeat split|]. split.
    - intros j Hj. unfold ts1, set2. fcase; subst; auto; rewrite ?W2 by lia.
      + replace (i + 1 <=? i + 1) with true by (symmetry; apply Nat.leb_le; lia). auto.
      + replace (i <=? i + 1) with true by (symmetry; apply Nat.leb_le; lia). auto.
      + replace (j <=? i) with (j <=? i + 1); auto. destruct (Nat.leb_spec j (i + 1)), (Nat.leb_spec j i); auto; lia.
    - intros j Hj. cbn. unfold ts1. rewrite set2_o by lia. apply W3. lia. }
  destruct X as [w1 [X1 [X2 [X3 X4]]]]. rewrite X1. cbn [bind].
  assert (NM1 : nm w1 = N) by (destruct X2; congruence).
  unfold getM at 1. rewrite ltb_t by lia. rewrite X3 by lia. replace (i <=? i + 1) with true by (symmetry; apply Nat.leb_le; lia). cbn [use bind].
  destruct (bigL (ts1 i)) eqn:EB.
  - exists w1. cbn [fst snd]. split; auto. split; auto. split; [exact X3|]. split; [exact X4|lia].
  - set (ts2 := if smallL (ts1 i) then set2 T ts1 i (combL (ts1 i) (ts1 (i + 1))) else ts1).
    assert (Y : exists w2, (if smallL (ts1 i) then let! b := getM T E En (i + 1) w1 in let (a', b') := combL (ts1 i) b in let! w0 := putM T E En (i + 1) b' w1 in putM T E En i a' w0 else Ok w1) = Ok w2 /\
      keepE w1 w2 /\ (forall j, j < N -> mm w2 j = if j <=? i + 1 then Some (ts2 j) else None) /\ (forall j, i + 1 < j < N -> dm w2 j = Some (ts2 j))).
    { unfold ts2. destruct (smallL (ts1 i)); [|exists w1; split; auto; split; [apply keepE_refl|auto]].
      unfold getM. rewrite ltb_t by lia. rewrite X3 by lia. rewrite Nat.leb_refl. cbn [use bind]. destruct (combL (ts1 i) (ts1 (i + 1))) as [a' b'].
      unfold putM. rewrite ltb_t by lia. cbn [bind]. rewrite ltb_t by (cbn; lia). eexists. split; [reflexivity|]. split; [repeat split|]. split.
      - intros j Hj. unfold set2. fcase; subst; auto.
        + replace (i <=? i + 1) with true by (symmetry; apply Nat.leb_le; lia). auto.
        + rewrite Nat.leb_refl. auto.
      - intros j Hj. cbn. rewrite set2_o by lia. apply X4. lia. }
    destruct Y as [w2 [Y1 [Y2 [Y3 Y4]]]]. rewrite Y1. cbn [bind].
    destruct n as [|n].
    + cbn [VmpsInit.left_loop NoiseSpec.prep_left Nat.eqb fst snd]. exists w2. split; auto. split; [eapply keepE_trans; eauto|]. split; [exact Y3|]. split; [exact Y4|lia].
    + destruct (IH (S i) (if S n =? 0 then i else lb) ts2 w2) as [w3 [Z1 [Z2 [Z3 [Z4 Z5]]]]]; try lia.
      * destruct Y2. congruence.
      * intros j Hj. rewrite Y3 by auto. replace (i + 1) with (S i) by lia. auto.
      * intros j Hj. apply Y4. lia.
      * exists w3. split; auto. split; [eapply keepE_trans; [exact X2|eapply keepE_trans; eauto]|]. split; auto. split; auto. lia.
Qed.
(** *** right part *)
Lemma right_loop_ok : forall n i rb ts w, 1 <= n -> n <= i -> i < N -> nm w = N ->
  (forall j, j < N -> mm w j = if i <=? j then Some (ts j) else None) -> (forall j, j < i -> dm w j = Some (ts j)) ->
  exists w', right_loop n i rb w = Ok (fst (prep_right n i rb ts), w') /\ keepE w w' /\
    let rb' := fst (prep_right n i rb ts) in let ts' := snd (prep_right n i rb ts) in
    (forall j, j < N -> mm w' j = if rb' - 1 <=? j then Some (ts' j) else None) /\ (forall j, j < rb' - 1 -> dm w' j = Some (ts' j)) /\
    i - n < rb' <= i.
Proof.
  induction n as [|n IH]; intros i rb ts w H1 HN HI W1 W2 W3; [lia|]. cbn [VmpsInit.right_loop NoiseSpec.prep_right].
  set (ts1 := set2 T ts (i - 1) (canoR (ts (i - 1)) (ts i))).
  assert (X : exists w1, exec [LoadM (i - 1); CanoR i] w = Ok w1 /\ keepE w w1 /\ (forall j, j < N -> mm w1 j = if i - 1 <=? j then Some (ts1 j) else None) /\ (forall j, j < i - 1 -> dm w1 j = Some (ts1 j))).
  { rewrite (ex_LoadM _ _ _ _ _ _ _ _ _ _ _ _ _ _ (ts (i - 1))); [|lia|apply W3; lia].
    rewrite (ex_CanoR _ _ _ _ _ _ _ _ _ _ _ _ _ _ (ts (i - 1)) (ts i)); [|cbn; lia|fs; auto|fs; rewrite W2 by lia; rewrite Nat.leb_refl; auto].
    eexists. split; [reflexivity|]. split; [repeat split|]. split.
    - intros j Hj. unfold ts1, set2. fcase; subst; auto; rewrite ?W2 by lia.
      + replace (i - 1 <=? i) with true by (symmetry; apply Nat.leb_le; lia). auto.
      + replace (i - 1 <=? i - 1) with true by (symmetry; apply Nat.leb_le; lia). auto.
      + replace (i <=? j) with (i - 1 <=? j); auto. destruct (Nat.leb_spec (i - 1) j), (Nat.leb_spec i j); auto; lia.
    - intros j Hj. cbn. unfold ts1. rewrite set2_o by lia. apply W3. lia. }
  destruct X as [w1 [X1 [X2 [X3 X4]]]]. rewrite X1. cbn [bind].
  assert (NM1 : nm w1 = N) by (destruct X2; congruence).
  unfold getM at 1. rewrite ltb_t by lia. rewrite X3 by lia. replace (i - 1 <=? i) with true by (symmetry; apply Nat.leb_le; lia). cbn [use bind].
  destruct (bigR (ts1 i)) eqn:EB.
  - exists w1. cbn [fst snd]. split; auto. split; auto. split; [exact X3|]. split; [exact X4|lia].
  - set (ts2 := if smallR (ts1 i) then set2 T ts1 (i - 1) (combR (ts1 (i - 1)) (ts1 i)) else ts1).
    assert (Y : exists w2, (if smallR (ts1 i) then let! b := getM T E En (i - 1) w1 in let (b', a') := combR b (ts1 i) in let! w0 := putM T E En (i - 1) b' w1 in putM T E En i a' w0 else Ok w1) = Ok w2 /\
      keepE w1 w2 /\ (forall j, j < N -> mm w2 j = if i - 1 <=? j then Some (ts2 j) else None) /\ (forall j, j < i - 1 -> dm w2 j = Some (ts2 j))).
    { unfold ts2. destruct (smallR (ts1 i)); [|exists w1; split; auto; split; [apply keepE_refl|auto]].
      unfold getM. rewrite ltb_t by lia. rewrite X3 by lia. rewrite Nat.leb_refl. cbn [use bind]. destruct (combR (ts1 (i - 1)) (ts1 i)) as [b' a'].
      unfold putM. rewrite ltb_t by lia. cbn [bind]. rewrite ltb_t by (cbn; lia). eexists. split; [reflexivity|]. split; [repeat split|]. split.
      - intros j Hj. unfold set2. fcase; subst; auto.
        + replace (i - 1 <=? i) with true by (symmetry; apply Nat.leb_le; lia). auto.
        + rewrite Nat.leb_refl. auto.
      - intros j Hj. cbn. rewrite set2_o by lia. apply X4. lia. }
    destruct Y as [w2 [Y1 [Y2 [Y3 Y4]]]]. rewrite Y1. cbn [bind].
    destruct n as [|n].
    + cbn [VmpsInit.right_loop NoiseSpec.prep_right Nat.eqb fst snd]. exists w2. split; auto. split; [eapply keepE_trans; eauto|]. split; [exact Y3|]. split; [exact Y4|lia].
    + destruct (IH (i - 1) (if S n =? 0 then i else rb) ts2 w2) as [w3 [Z1 [Z2 [Z3 [Z4 Z5]]]]]; auto; try lia.
      * destruct Y2. congruence.
      * exists w3. split; auto. split; [eapply keepE_trans; [exact X2|eapply keepE_trans; eauto]|]. split; auto. split; auto. lia.
Qed.
Lemma half_bounds : 3 <= N -> 1 <= half N /\ half N <= N / 2 /\ N / 2 + 1 < N /\ 1 <= N - 1 - N / 2.
Proof.
  intros HN. unfold half. pose proof (Nat.div_mod N 2). pose proof (Nat.mod_upper_bound N 2). destruct (Nat.even N) eqn:EV.
  - apply Nat.even_spec in EV. destruct EV as [k ->]. replace (2 * k / 2) with k in * by (rewrite Nat.mul_comm, Nat.div_mul; auto). lia.
  - assert (N = 2 * (N / 2) + 1). { rewrite <- Nat.negb_odd, negb_false_iff in EV. apply Nat.odd_spec in EV. destruct EV as [k ->]. replace ((2 * k + 1) / 2) with k; [lia|]. rewrite Nat.mul_comm, Nat.add_comm, Nat.div_add by lia. auto. } lia.
Qed.
(** the boundaries *)
Lemma prep_range : forall ts lb rb ts', 3 <= N -> prep ts = (lb, rb, ts') -> lb < half N /\ N / 2 < rb < N.
Proof.
  intros ts lb rb ts' HN H. destruct (half_bounds HN) as [B1 [B2 [B3 B4]]]. unfold NoiseSpec.prep in H.
  assert (PL : forall n i l t, 1 <= n -> i <= fst (prep_left n i l t) < i + n).
  { induction n as [|n IH]; intros i l t Hn; [lia|]. cbn [NoiseSpec.prep_left]. destruct (bigL _); [cbn; lia|]. destruct n; [cbn; lia|].
    match goal with |- context [prep_left (S n) ?a ?b ?c] => specialize (IH a b c) end. lia. }
  assert (PR : forall n i l t, 1 <= n -> n <= i -> i - n < fst (prep_right n i l t) <= i).
  { induction n as [|n IH]; intros i l t Hn Hi; [lia|]. cbn [NoiseSpec.prep_right]. destruct (bigR _); [cbn; lia|]. destruct n; [cbn; lia|].
    match goal with |- context [prep_right (S n) ?a ?b ?c] => specialize (IH a b c) end. lia. }
  specialize (PL (half N) 0 0 ts B1). destruct (prep_left (half N) 0 0 ts) as [l t1]. cbn [fst] in PL.
  specialize (PR (N - 1 - N / 2) (N - 1) 0 t1 B4 ltac:(lia)). destruct (prep_right (N - 1 - N / 2) (N - 1) 0 t1) as [r t2]. cbn [fst] in PR. injection H as <- <- <-. lia.
Qed.
Lemma boundary_ok : forall ts w, 3 <= N -> nm w = N -> mem_empty T E En N w -> on_disk T E En N ts w ->
  exists lb rb ts' w', prep ts = (lb, rb, ts') /\ boundary w = Ok (lb, rb, w') /\ keepE w w' /\ mem_empty T E En N w' /\ on_disk T E En N ts' w'.
Proof.
  intros ts w HN W1 W2 W3. destruct (half_bounds HN) as [B1 [B2 [B3 B4]]].
  destruct (prep ts) as [[lb rb] ts2] eqn:EP. exists lb, rb, ts2. pose proof (prep_range _ _ _ _ HN EP) as [R1 R2].
  unfold NoiseSpec.prep in EP. unfold VmpsInit.boundary. rewrite W1. fold (half N). change (left_middle N) with (half N). unfold right_middle.
  rewrite ex_EmptyM by (rewrite W1; exact W2). rewrite (ex_LoadM _ _ _ _ _ _ _ _ _ _ _ _ _ _ (ts 0)); [|lia|apply W3; lia]. cbn [Disk.exec bind].
  match goal with |- context [left_loop _ _ _ ?x] => set (w0 := x) end.
  destruct (left_loop_ok (half N) 0 0 ts w0) as [w1 [A1 [A2 [A3 [A4 A5]]]]]; auto; try lia.
  { intros j Hj. unfold w0. fcase; subst; auto. rewrite W2 by auto. destruct j; [lia|auto]. }
  { intros j Hj. apply W3. lia. }
  destruct (prep_left (half N) 0 0 ts) as [lb' ts1]. destruct (prep_right (N - 1 - N / 2) (N - 1) 0 ts1) as [rb' ts2'] eqn:ER. injection EP as -> -> ->.
  cbn [fst snd] in *. rewrite A1. cbn [bind].
  destruct (dumps_ok ts1 (seq 0 (lb + 2)) w1 [LoadM (N - 1)]) as [w2 [D1 [D2 [D3 D4]]]].
  { apply seq_NoDup. }
  { intros i Hi. apply in_seq in Hi. destruct A2 as [A2 _]. cbn in A2. split; [lia|]. rewrite A3 by lia. replace (i <=? lb + 1) with true by (symmetry; apply Nat.leb_le; lia). auto. }
  rewrite D1. assert (NM2 : nm w2 = N) by (destruct D2, A2; cbn in *; congruence).
  assert (OD : on_disk T E En N ts1 w2).
  { intros i Hi. destruct (in_dec Nat.eq_dec i (seq 0 (lb + 2))) as [I|I]; [apply D3; auto|]. destruct (D4 i I) as [_ ->]. apply A4. rewrite in_seq in I. lia. }
  assert (ME : mem_empty T E En N w2).
  { intros i Hi. destruct (in_dec Nat.eq_dec i (seq 0 (lb + 2))) as [I|I]; [apply D3; auto|]. destruct (D4 i I) as [-> _]. rewrite A3 by auto. rewrite in_seq in I. replace (i <=? lb + 1) with false; auto. symmetry. apply Nat.leb_gt. lia. }
  rewrite (ex_LoadM _ _ _ _ _ _ _ _ _ _ _ _ _ _ (ts1 (N - 1))); [|lia|apply OD; lia]. cbn [Disk.exec bind].
  match goal with |- context [right_loop _ _ _ ?x] => set (w3 := x) end.
  destruct (right_loop_ok (N - 1 - N / 2) (N - 1) 0 ts1 w3) as [w4 [E1 [E2 [E3 [E4 E5]]]]]; auto; try lia.
  { intros j Hj. unfold w3. fcase; [match goal with H : j = _ |- _ => rewrite H end; rewrite Nat.leb_refl; auto|]. rewrite ME by auto. replace (N - 1 <=? j) with false; auto. symmetry. apply Nat.leb_gt. lia. }
  { intros j Hj. apply OD. lia. }
  rewrite ER in *. cbn [fst snd] in *. rewrite E1. cbn [bind].
  destruct rb as [|[|r]]; [lia|lia|]. set (r1 := S r) in *.
  destruct (dumps_ok ts2 (rev (seq r1 (N - r1))) w4 []) as [w5 [F1 [F2 [F3 F4]]]].
  { apply NoDup_rev, seq_NoDup. }
  { intros i Hi. apply in_rev, in_seq in Hi. assert (nm w4 = N) by (destruct E2 as [E2 _]; cbn in E2; congruence). split; [lia|]. rewrite E3 by lia. replace (S r1 - 1 <=? i) with true by (symmetry; apply Nat.leb_le; lia). auto. }
  rewrite app_nil_r in F1. rewrite F1. cbn [Disk.exec bind].
  assert (NM5 : nm w5 = N) by (destruct F2, E2 as [E2 _]; cbn in *; congruence).
  assert (OD5 : on_disk T E En N ts2 w5).
  { intros i Hi. destruct (in_dec Nat.eq_dec i (rev (seq r1 (N - r1)))) as [I|I]; [apply F3; auto|]. destruct (F4 i I) as [_ ->]. apply E4. rewrite <- in_rev, in_seq in I. lia. }
  assert (ME5 : mem_empty T E En N w5).
  { intros i Hi. destruct (in_dec Nat.eq_dec i (rev (seq r1 (N - r1)))) as [I|I]; [apply F3; auto|]. destruct (F4 i I) as [-> _]. rewrite E3 by auto. rewrite <- in_rev, in_seq in I. replace (S r1 - 1 <=? i) with false; auto. symmetry. apply Nat.leb_gt. lia. }
  pose proof (ex_EmptyM T E En dT dE triv grow solve canoL canoR dbg [] w5) as EM. cbn [Disk.exec] in EM. rewrite EM by (rewrite NM5; exact ME5). cbn [bind].
  exists w5. split; auto. split; auto. split; auto.
  eapply keepE_trans; [|exact F2]. eapply keepE_trans; [|exact E2]. eapply keepE_trans; [|exact D2]. exact A2.
Qed.
(** *** environments *)
Lemma update_boundary_ok : forall ts lb rb w, 3 <= N -> lb + 2 <= rb -> rb < N -> nm w = N -> mem_empty T E En N w -> on_disk T E En N ts w ->
  exists w', exec (update_boundary N lb rb) w = Ok w' /\ nm w' = N /\ mem_empty T E En N w' /\ on_disk T E En N ts w' /\ tmp w' = tmp w /\
    dr w' (N - 1 - rb) = Some (right_env ts (N - 1 - rb)) /\ dr w' (N - rb) = Some (right_env ts (N - rb)) /\ (forall n, n <> N - 1 - rb -> n <> N - rb -> dr w' n = dr w n) /\
    dl w' lb = Some (left_env ts lb) /\ (forall n, n <> lb -> dl w' n = dl w n).
Proof.
  intros ts lb rb w HN H1 H2 W1 W2 W3. unfold update_boundary. cbn [app].
  rewrite ex_EmptyM by (rewrite W1; exact W2).
  rewrite (ex_LoadM _ _ _ _ _ _ _ _ _ _ _ _ _ _ (ts (N - 1))); [|lia|apply W3; lia].
  rewrite (ex_SetAcc _ _ _ _ _ _ _ _ _ _ _ _ _ _ _ (ts (N - 1))); [|cbn; lia|fs; auto].
  rewrite ex_FreeM; [|cbn; lia].
  match goal with |- exists w', exec _ ?x = _ /\ _ => set (w1 := x) end.
  assert (L1 : forall q k i v, 1 <= i -> i + k = N - rb -> nm v = N -> mem_empty T E En N v -> dm v = dm w -> dr v = dr w -> dl v = dl w -> tmp v = tmp w -> acc v = Some (right_env ts (i - 1)) ->
    exists v', exec (flat_map (fun i => [LoadM (N - i); GrowAcc R (N - i); FreeM (N - i)]) (seq i k) ++ q) v = exec q v' /\ nm v' = N /\ mem_empty T E En N v' /\ dm v' = dm w /\ dr v' = dr w /\ dl v' = dl w /\ tmp v' = tmp w /\
      acc v' = Some (right_env ts (N - rb - 1))).
  { intros q. induction k as [|k IH]; intros i v I1 I2 V1 V2 V3 V4 V5 V6 V7; cbn [seq flat_map app].
    - exists v. replace (N - rb - 1) with (i - 1) by lia. repeat split; auto.
    - rewrite (ex_LoadM _ _ _ _ _ _ _ _ _ _ _ _ _ _ (ts (N - i))); [|lia|rewrite V3; apply W3; lia].
      rewrite (ex_GrowAcc _ _ _ _ _ _ _ _ _ _ _ _ _ _ _ (ts (N - i)) (right_env ts (i - 1))); [|cbn; lia|fs; auto|fs; auto].
      rewrite ex_FreeM; [|cbn; lia]. apply IH; fs; auto; try lia.
      + intros j Hj. fcase; auto; apply V2; auto.
      + replace (S i - 1) with i by lia. destruct i; [lia|]. cbn [SweepSpec.right_env]. rewrite Nat.sub_succ, Nat.sub_0_r. replace (N - 1 - i) with (N - S i) by lia. auto. }
  match goal with |- context [flat_map _ (seq 1 (N - rb - 1)) ++ ?x] => destruct (L1 x (N - rb - 1) 1 w1) as [w2 [A1 [A2 [A3 [A4 [A5 [A6 [A7 A8]]]]]]]] end; auto; try lia.
  { unfold w1. intros j Hj. fcase; auto; apply W2; auto. }
  rewrite A1. rewrite (ex_WriteAcc _ _ _ _ _ _ _ _ _ _ _ _ _ _ _ (right_env ts (N - rb - 1))); [|exact A8].
  rewrite (ex_LoadM _ _ _ _ _ _ _ _ _ _ _ _ _ _ (ts rb)); [|cbn; lia|fs; rewrite A4; apply W3; lia].
  rewrite (ex_GrowAcc _ _ _ _ _ _ _ _ _ _ _ _ _ _ _ (ts rb) (right_env ts (N - rb - 1))); [|cbn; lia|fs; auto|fs; auto].
  rewrite ex_FreeM; [|cbn; lia].
  assert (ER : grow R rb (right_env ts (N - rb - 1)) (ts rb) = right_env ts (N - rb)).
  { replace (N - rb) with (S (N - rb - 1)) by lia. cbn [SweepSpec.right_env]. replace (N - 1 - (N - rb - 1)) with rb by lia. replace (S (N - rb - 1) - 1) with (N - rb - 1) by lia. auto. }
  rewrite ER. rewrite (ex_WriteAcc _ _ _ _ _ _ _ _ _ _ _ _ _ _ _ (right_env ts (N - rb))); [|reflexivity].
  rewrite (ex_LoadM _ _ _ _ _ _ _ _ _ _ _ _ _ _ (ts 0)); [|cbn; lia|fs; rewrite A4; apply W3; lia].
  rewrite (ex_SetAcc _ _ _ _ _ _ _ _ _ _ _ _ _ _ _ (ts 0)); [|cbn; lia|fs; auto].
  rewrite ex_FreeM; [|cbn; lia].
  match goal with |- exists w', exec _ ?x = _ /\ _ => set (w3 := x) end.
  assert (L2 : forall q k i v, i + k = lb -> nm v = N -> mem_empty T E En N v -> dm v = dm w -> dr v = dr w3 -> dl v = dl w -> tmp v = tmp w -> acc v = Some (left_env ts i) ->
    exists v', exec (flat_map (fun i => [LoadM i; GrowAcc L i; FreeM i]) (seq i k) ++ q) v = exec q v' /\ nm v' = N /\ mem_empty T E En N v' /\ dm v' = dm w /\ dr v' = dr w3 /\ dl v' = dl w /\ tmp v' = tmp w /\
      acc v' = Some (left_env ts lb)).
  { intros q. induction k as [|k IH]; intros i v I2 V1 V2 V3 V4 V5 V6 V7; cbn [seq flat_map app].
    - exists v. replace lb with i by lia. repeat split; auto.
    - rewrite (ex_LoadM _ _ _ _ _ _ _ _ _ _ _ _ _ _ (ts i)); [|lia|rewrite V3; apply W3; lia].
      rewrite (ex_GrowAcc _ _ _ _ _ _ _ _ _ _ _ _ _ _ _ (ts i) (left_env ts i)); [|cbn; lia|fs; auto|fs; auto].
      rewrite ex_FreeM; [|cbn; lia]. apply IH; fs; auto; try lia.
      intros j Hj. fcase; auto; apply V2; auto. }
  destruct (L2 [WriteAcc L lb; EmptyM] lb 0 w3) as [w4 [B1 [B2 [B3 [B4 [B5 [B6 [B7 B8]]]]]]]]; auto; try lia.
  { unfold w3. intros j Hj. fcase; auto; apply A3; auto. }
  rewrite B1. rewrite (ex_WriteAcc _ _ _ _ _ _ _ _ _ _ _ _ _ _ _ (left_env ts lb)); [|exact B8].
  rewrite ex_EmptyM by (fs; rewrite B2; exact B3).
  eexists. split; [reflexivity|]. fs. split; [exact B2|]. split; [exact B3|]. split; [intros i Hi; cbn; rewrite B4; apply W3; auto|]. split; auto.
  rewrite B5. unfold w3. fs. split; [replace (N - 1 - rb) with (N - rb - 1) by lia; auto|]. split; auto.
  split; [intros n N1 N2; rewrite fset_other by lia; rewrite fset_other by lia; rewrite A5; auto|]. split; auto. intros n Hn. rewrite fset_other by auto. rewrite B6. auto.
Qed.
(** after FiniteVMPSInit: tensors prepared and on disk; the environments needed by the sweep exist; those next to the
    boundaries are fresh; the others are fresh when they were generated, and otherwise what was on disk before *)
Lemma vmps_init_ok : forall ts w, 3 <= N -> nm w = N -> mem_empty T E En N w -> on_disk T E En N ts w ->
  exists lb rb ts' w', prep ts = (lb, rb, ts') /\ vmps_init w = Ok (lb, rb, w') /\ nm w' = N /\ mem_empty T E En N w' /\ on_disk T E En N ts' w' /\ tmp w' = true /\
    dl w' lb = Some (left_env ts' lb) /\
    (forall n, N - 1 - rb <= n <= N - 2 - lb -> n <= N - rb \/ tmp w = false \/ (exists m, N - 1 - rb <= m <= N - 2 - lb /\ dr w m = None) -> dr w' n = Some (right_env ts' n)) /\
    (forall n, N - rb < n <= N - 2 - lb -> tmp w = true -> (forall m, N - 1 - rb <= m <= N - 2 - lb -> dr w m <> None) -> dr w' n = dr w n).
Proof.
  intros ts w HN W1 W2 W3. destruct (boundary_ok ts w HN W1 W2 W3) as [lb [rb [ts' [w1 [P1 [P2 [[K1 [K2 [K3 K4]]] [P4 P5]]]]]]]].
  pose proof (prep_range _ _ _ _ HN P1) as [R1 R2]. destruct (half_bounds HN) as [B1 [B2 [B3 B4]]].
  assert (LR : lb + 2 <= rb).
  { unfold half in R1, B2. destruct (Nat.even N); lia. }
  exists lb, rb, ts'. unfold VmpsInit.vmps_init. rewrite W1, P2. cbn [bind]. rewrite K4.
  assert (NM1 : nm w1 = N) by congruence.
  (* generating *)
  assert (GEN : forall v, nm v = N -> mem_empty T E En N v -> dm v = dm w1 -> tmp v = true -> exists v', exec (init_envs N (lb + 2)) v = Ok v' /\ nm v' = N /\ mem_empty T E En N v' /\ on_disk T E En N ts' v' /\ tmp v' = true /\
     forall n, n <= N - 2 - lb -> dr v' n = Some (right_env ts' n)).
  { intros v V1 V2 V3 V4. destruct (init_envs_ok T E En dT dE triv grow solve canoL canoR dbg N (lb + 2) ts' v []) as [v' [I1 [I2 [I3 [I4 [I5 [I6 [I7 _]]]]]]]]; auto; try lia.
    { intros i Hi. rewrite V3. apply P5. auto. }
    rewrite app_nil_r in I1. exists v'. split; [exact I1|]. split; auto. split; auto. split; [intros i Hi; rewrite I4, V3; apply P5; auto|]. split; [congruence|]. intros n Hn. apply I7. lia. }
  assert (MID : exists w2, (if tmp w then (if envs_missing T E En N lb rb w1 then exec (init_envs N (lb + 2)) w1 else Ok w1) else exec (Mkdir :: init_envs N (lb + 2)) w1) = Ok w2 /\
    nm w2 = N /\ mem_empty T E En N w2 /\ on_disk T E En N ts' w2 /\ tmp w2 = true /\
    (tmp w = false \/ (exists m, N - 1 - rb <= m <= N - 2 - lb /\ dr w m = None) -> forall n, n <= N - 2 - lb -> dr w2 n = Some (right_env ts' n)) /\
    (tmp w = true -> (forall m, N - 1 - rb <= m <= N - 2 - lb -> dr w m <> None) -> dr w2 = dr w)).
  { destruct (tmp w) eqn:ET.
    - destruct (envs_missing T E En N lb rb w1) eqn:EM.
      + destruct (GEN w1 NM1 P4 eq_refl K4) as [w2 [G1 [G2 [G3 [G4 [G5 G6]]]]]]. exists w2. split; auto. split; auto. split; auto. split; auto. split; auto. split; [intros _; exact G6|].
        intros _ HM. exfalso. unfold envs_missing in EM. apply negb_true_iff in EM. rewrite <- not_true_iff_false in EM. apply EM. apply forallb_forall. intros n Hn. apply in_seq in Hn.
        rewrite K3. specialize (HM n ltac:(lia)). destruct (dr w n); auto; congruence.
      + exists w1. split; auto. split; auto. split; auto. split; auto. split; [congruence|]. split; [|intros; auto].
        intros [H|[m [Hm HX]]]; [discriminate|]. exfalso. unfold envs_missing in EM. apply negb_false_iff in EM. rewrite forallb_forall in EM. specialize (EM m). rewrite K3, HX in EM. cbn in EM.
        assert (In m (seq (N - 1 - rb) (S (N - 1 - (lb + 1)) - (N - 1 - rb)))) by (apply in_seq; lia). specialize (EM H). discriminate.
    - rewrite ex_Mkdir. destruct (GEN (set_tmp T E En true w1)) as [w2 [G1 [G2 [G3 [G4 [G5 G6]]]]]]; auto. exists w2. split; auto. split; auto. split; auto. split; auto. split; auto. split; [intros _; exact G6|]. discriminate. }
  destruct MID as [w2 [M1 [M2 [M3 [M4 [M5 [M6 M7]]]]]]]. rewrite M1. cbn [bind].
  destruct (update_boundary_ok ts' lb rb w2) as [w3 [U1 [U2 [U3 [U4 [U5 [U6 [U7 [U8 [U9 U10]]]]]]]]]]; auto; try lia. rewrite U1. cbn [bind].
  exists w3. split; auto. split; auto. split; auto. split; auto. split; auto. split; [congruence|]. split; auto. split.
  - intros n Hn HC. destruct (Nat.eq_dec n (N - 1 - rb)) as [->|N1]; auto. destruct (Nat.eq_dec n (N - rb)) as [->|N2]; auto. rewrite U8 by auto.
    destruct HC as [HC|HC]; [lia|]. apply M6; auto. lia.
  - intros n Hn HT HM. rewrite U8 by lia. rewrite M7; auto.
Qed.
End Facts.
